(** Values, their types, and which patterns match them. *)
From Verif.Base Require Import Base.
From Verif.Pattern Require Import Model.

(** A universe of types: a type is either a data type, given by its constructors with the types of
    their fields, or a type of constants. *)
Record types := {
  type : Type;
  cons_of : type -> option (list (N * list type));
  consts_of : type -> N -> Prop
}.

Inductive value :=
| VCon (c : N) (args : list value)
| VConst (c : N).

Inductive has_type (S : types) : value -> type S -> Prop :=
| t_con c args cs fs t : cons_of S t = Some cs -> In (c, fs) cs -> Forall2 (has_type S) args fs ->
    has_type S (VCon c args) t
| t_const c t : cons_of S t = None -> consts_of S t c -> has_type S (VConst c) t.

(** A constructor pattern carries all constructors of its data type. *)
Definition con_of {A} (c : N * list A) : finite_con := {| use_ := fst c; arity_ := List.length (snd c) |}.
Inductive pat_type (S : types) : pattern -> type S -> Prop :=
| p_wild t : pat_type S PWild t
| p_con c ps cs fs t : cons_of S t = Some cs -> In (c, fs) cs -> Forall2 (pat_type S) ps fs ->
    pat_type S (PCon (Finite (con_of (c, fs)) (map con_of cs)) ps) t
| p_const c t : cons_of S t = None -> consts_of S t c -> pat_type S (PCon (Const c) []) t.

Inductive matches : pattern -> value -> Prop :=
| m_wild v : matches PWild v
| m_con con sibs ps args : Forall2 matches ps args -> matches (PCon (Finite con sibs) ps) (VCon (use_ con) args)
| m_const c : matches (PCon (Const c) []) (VConst c).

(** Constructors of one data type have distinct names. *)
Definition distinct (S : types) : Prop := forall t cs, cons_of S t = Some cs -> NoDup (map fst cs).

(** Every type has a value; and no finite list of constants exhausts a type of constants. *)
Definition inhabited (S : types) : Prop := forall t, exists v, has_type S v t.
Definition unbounded (S : types) : Prop :=
  forall t l, cons_of S t = None -> exists c, consts_of S t c /\ ~ In c l.

(** A pattern mentions no constants. *)
Inductive no_consts : pattern -> Prop :=
| nc_wild : no_consts PWild
| nc_con con sibs ps : Forall no_consts ps -> no_consts (PCon (Finite con sibs) ps).

(** The values of a type matched by some clause of the list. *)
Definition covered (clauses : list pattern) (v : value) : Prop := exists p, In p clauses /\ matches p v.

(** Every clause matches some value that no earlier clause matches. *)
Definition all_useful (S : types) (t : type S) (clauses : list pattern) : Prop :=
  forall pre p post, clauses = pre ++ p :: post -> exists v, has_type S v t /\ matches p v /\ ~ covered pre v.
