(** * std/io/path.llrl

    The current directory is a parameter. Strings are those of [Verif.Strings]: lists of bytes, with the checks of the
    library that substrings begin and end between characters. *)
From Coq Require Import NArith.
From Verif.Base Require Import Base.
From Verif.Strings Require Import Model.
Local Open Scope list_scope.

Definition slash : str := [47%N].
Definition dot : str := [46%N].

(** string-text.llrl:74-75 [string/byte-at]; outside is [Panic] *)
Definition byte_at (i : nat) (s : str) : outcome N := match nth_error s i with Some x => Ret x | None => Panic end.

(** path.llrl:151-155 [last-component-end]; the loop counts down from the length *)
Fixpoint end_loop (p : str) (r : nat) : outcome nat :=
  match r with
  | O => Ret O
  | S r' => let* x := byte_at r' p in if N.eqb x 47 then end_loop p r' else Ret r
  end.
Definition last_component_end (p : str) : outcome nat := end_loop p (List.length p).
(** path.llrl:159-164 [last-component-start-end] *)
Fixpoint start_loop (p : str) (l : nat) : outcome nat :=
  match l with
  | O => Ret O
  | S l' => let* x := byte_at l' p in if negb (N.eqb x 47) then start_loop p l' else Ret l
  end.
Definition last_component_start_end (p : str) : outcome (nat * nat) :=
  let* r := last_component_end p in
  let* l := start_loop p r in
  Ret (l, r).
(** path.llrl:168-173 [last-component-start-dot-end] *)
Fixpoint dot_loop (p : str) (l e : nat) : outcome nat :=
  match e with
  | O => Ret O
  | S e' => if Nat.ltb l e then let* x := byte_at e' p in if negb (N.eqb x 46) then dot_loop p l e' else Ret e else Ret e
  end.
Definition last_component_start_dot_end (p : str) : outcome (nat * nat * nat) :=
  let* lr := last_component_start_end p in
  let (l, r) := lr in
  let* e := dot_loop p l r in
  Ret (l, e, r).

(** path.llrl:75-76 *)
Definition absolute (p : str) : bool := starts_with slash p.

(** path.llrl:39-44 *)
Definition base_name (p : str) : outcome str :=
  if is_empty p then Ret p
  else
    let* lr := last_component_start_end p in
    let (l, r) := lr in
    if Nat.eqb l r then Ret slash else substring l r p.
(** path.llrl:46-50 *)
Definition dir_name (p : str) : outcome str :=
  let* lr := last_component_start_end p in
  let (l, _) := lr in
  if Nat.leb l 1 then Ret (if absolute p then slash else dot) else take (l - 1) p.
(** path.llrl:52-56 *)
Definition extension (p : str) : outcome (option str) :=
  let* ler := last_component_start_dot_end p in
  let '(l, e, r) := ler in
  if Nat.ltb (l + 1) e then let* s := substring e r p in Ret (Some s) else Ret None.
(** path.llrl:58-67 *)
Definition with_extension (ext : option str) (p : str) : outcome str :=
  let* ler := last_component_start_dot_end p in
  let '(l, e, r) := ler in
  let* a := (if Nat.ltb (l + 1) e then take (e - 1) p else take r p) in
  let* c := skip r p in
  Ret (a ++ match ext with Some ext => dot ++ ext | None => [] end ++ c).
(** path.llrl:69-73 *)
Definition default_extension (ext : str) (p : str) : outcome str :=
  let* ler := last_component_start_dot_end p in
  let '(l, e, r) := ler in
  if Nat.ltb (l + 1) e then Ret p
  else
    let* a := take r p in
    let* c := skip r p in
    Ret (a ++ dot ++ ext ++ c).

(** path.llrl:83-87 *)
Inductive component := RootDir | CurrentDir | ParentDir | Normal (s : str).

(** path.llrl:144-147 [skip-repeated-dir-separator] *)
Fixpoint skip_separators (fuel : nat) (s : str) : outcome str :=
  match fuel with
  | O => OutOfFuel
  | S fuel =>
      if Nat.leb 1 (List.length s) then
        let* x := byte_at 0 s in
        if N.eqb x 47 then let* s := skip 1 s in skip_separators fuel s else Ret s
      else Ret s
  end.
Definition skip_repeated (s : str) : outcome str := skip_separators (S (List.length s)) s.
(** path.llrl:89-117 [path/components]: one call of the iterator, and all that it gives *)
Definition next (rest : str) : outcome (option (component * str)) :=
  if is_empty rest then Ret None
  else if starts_with slash rest then
    let* s := skip 1 rest in let* r := skip_repeated s in Ret (Some (RootDir, r))
  else if starts_with (dot ++ slash) rest then
    let* s := skip 2 rest in let* r := skip_repeated s in Ret (Some (CurrentDir, r))
  else if starts_with (dot ++ dot ++ slash) rest then
    let* s := skip 3 rest in let* r := skip_repeated s in Ret (Some (ParentDir, r))
  else
    let* i := find slash rest in
    match i with
    | Some i =>
        let* c := take i rest in
        let* s := skip i rest in
        let* r := skip_repeated s in
        Ret (Some (Normal c, r))
    | None =>
        let c := if string_eq rest dot then CurrentDir else if string_eq rest (dot ++ dot) then ParentDir else Normal rest in
        Ret (Some (c, []))
    end.
Fixpoint components_loop (fuel : nat) (rest : str) : outcome (list component) :=
  match fuel with
  | O => OutOfFuel
  | S fuel =>
      let* n := next rest in
      match n with
      | None => Ret []
      | Some (c, rest) => let* cs := components_loop fuel rest in Ret (c :: cs)
      end
  end.
Definition components (p : str) : outcome (list component) := components_loop (S (List.length p)) p.

(** path.llrl:125-133 [canonicalize/put!] *)
Definition put (buf : list str) (c : component) : list str :=
  match c with
  | RootDir => []
  | CurrentDir => buf
  | ParentDir => removelast buf
  | Normal s => buf ++ [s]
  end.
(** path.llrl:119-123, 135-136 *)
Definition canonicalize (cwd p : str) : outcome str :=
  let* i := components cwd in
  let* cs := components p in
  Ret (join slash ([] :: fold_left put cs (fold_left put i []))).
(** path.llrl:25-33: the macro [canonicalized-path] *)
Fixpoint canonicalize_each (ps : list str) (buf : list str) : outcome (list str) :=
  match ps with
  | [] => Ret buf
  | p :: ps => let* cs := components p in canonicalize_each ps (fold_left put cs buf)
  end.
Definition canonicalized_path (cwd : str) (ps : list str) : outcome str :=
  let* i := components cwd in
  let* buf := canonicalize_each ps (fold_left put i []) in
  Ret (join slash ([] :: buf)).

(** path.llrl:138-142 *)
Definition path_join (p q : str) : outcome str :=
  if absolute q then Ret q
  else if string_eq p slash then Ret (p ++ q)
  else
    let* r := last_component_end p in
    let* a := take r p in
    Ret (a ++ slash ++ q).
(** path.llrl:18-23: the macro [path] *)
Fixpoint path_of (p : str) (qs : list str) : outcome str :=
  match qs with [] => Ret p | q :: qs => let* p := path_join p q in path_of p qs end.
