(** * Names for one instruction *)
From Coq Require Import NArith.
From Verif.Base Require Import Base.
From Verif.Asm Require Import Model Manual.
Local Open Scope string_scope.
Local Open Scope list_scope.

(** The mnemonics the manual lists as names of one operation. *)
Definition groups : list (list string) :=
  let with_ (p : string) (l : list string) := map (String.append p) l in
  let conditions := [["a"; "nbe"]; ["ae"; "nb"; "nc"]; ["b"; "c"; "nae"]; ["be"; "na"]; ["e"; "z"];
    ["g"; "nle"]; ["ge"; "nl"]; ["l"; "nge"]; ["le"; "ng"]; ["ne"; "nz"]; ["np"; "po"]; ["p"; "pe"]] in
  map (with_ "j") conditions ++ map (with_ "set") conditions ++
  [["salb"; "shlb"]; ["salw"; "shlw"]; ["sall"; "shll"]; ["salq"; "shlq"]].

Definition synonyms (a b : string) : Prop := a = b \/ exists g, In g groups /\ In a g /\ In b g.

(** XCHG does the same with its operands swapped, and exchanging EAX with itself is NOP. *)
Definition exchanges : list string := ["xchgb"; "xchgw"; "xchgl"; "xchgq"].
Definition eax_eax : list view := [VOp (O32 Rax); VOp (OFixed FEax)].

(** Two instructions, each a mnemonic with operands, that are one operation. *)
Inductive same : string -> list view -> string -> list view -> Prop :=
| same_name a b v : synonyms a b -> same a v b v
| same_swapped a v : In a exchanges -> same a v a (rev v)
| same_nop v : v = eax_eax \/ v = rev eax_eax -> same "nop" [] "xchgl" v
| same_nop' v : v = eax_eax \/ v = rev eax_eax -> same "xchgl" v "nop" [].

(** The instructions whose encoding is not the one in the manual: PMINSB is 66 0F 38 38 /r there, and JECXZ
    needs the prefix 67 that tells it from JRCXZ. *)
Definition misencoded (name : string) : Prop := name = "pminsb"%string \/ name = "jecxz"%string.
