(** * The layout that compiled code gives to the same types

    The types of llrl0/src/ast/builtin.llrl, expanded by data_expander.rs (Verif.Data) and laid out by mem_layout.rs
    (Verif.Layout). *)
From Coq Require Import NArith ZArith.
From Verif.Base Require Import Base.
From Verif.Ir Require Import Model.
From Verif.Data Require Import Model.
From Verif.Layout Require Model.
From Verif.Native Require Import Model.
Import Ir.Model(ct, CtId, CtU, CtF64, CtString, CtChar, CtSyntax, CtCapturedUse).
Local Open Scope nat_scope.

(** builtin.llrl:56-58 [Bool], :118-127 [Sexp], and :91-93 [Result] as macros use it *)
Definition types : list (nat * data) :=
  [(0, Data DBoxed [[]; []]);
   (1, Data DValue [[CtId 0; CtU 64]; [CtF64]; [CtId 0]; [CtString]; [CtString]; [CtChar]; [CtSyntax (CtId 1); CtSyntax (CtId 1)]; []; [CtCapturedUse]]);
   (2, Data DValue [[CtString]; [CtSyntax (CtId 1)]])].

(** data_expander.rs:33-42: the definitions, with their types expanded. *)
Definition expanded (m : list (nat * expansion)) (d : Data.Model.def) : outcome Layout.Model.def :=
  match d with
  | DStruct _ fields => let* ts := each (expand_ct 20 m) fields in Ret (Layout.Model.DStruct ts)
  | DUnion tys => let* ts := each (expand_ct 20 m) tys in Ret (Layout.Model.DUnion ts)
  end.
Fixpoint all_expanded (m : list (nat * expansion)) (ds : list (nat * Data.Model.def)) : outcome (list (nat * Layout.Model.def)) :=
  match ds with
  | [] => Ret []
  | (i, d) :: ds => let* d := expanded m d in let* ds := all_expanded m ds in Ret ((i, d) :: ds)
  end.

(** The expansion of a type, and the layouts of all definitions. *)
Definition laid_out : outcome (list (nat * expansion) * Layout.Model.resolver) :=
  let* x := compute types (Env 3 []) in
  let* ds := all_expanded (fst x) (defs (snd x)) in
  let* r := Layout.Model.register (fun ds => ds) ds [] in
  Ret (fst x, r).

Definition offsets_in (l : Layout.Model.layout) : list Z :=
  match Layout.Model.composite l with Some (es, _) => map (fun e => Z.of_N (fst e)) es | None => [] end.
Definition size_align (l : Layout.Model.layout) : Z * Z := (Z.of_N (Layout.Model.size l), Z.of_N (Layout.Model.align l)).
(** The offset of a field of a definition. *)
Definition offsets_of (r : Layout.Model.resolver) (id : nat) : list Z :=
  match Layout.Model.find r id with Some (Some l) => offsets_in l | _ => [] end.
Definition shape_of (r : Layout.Model.resolver) (id : nat) : Z * Z :=
  match Layout.Model.find r id with Some (Some l) => size_align l | _ => (0, 0)%Z end.
