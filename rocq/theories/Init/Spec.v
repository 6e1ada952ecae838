(** * What it means to initialize modules in order *)
From Coq Require Import List Arith.
From Verif.Base Require Import Base.
From Verif.Init Require Import Model.
Import ListNotations.

(** The modules that arrive, and those of them that are entry points. *)
Definition added (evs : list event) (m : nat) (es : list init_expr) : Prop := exists b, In (Add m es b) evs.
Definition entry (evs : list event) (m : nat) : Prop := exists es, In (Add m es true) evs.

(** [m] needs [n], directly or not. *)
Inductive needs (evs : list event) : nat -> nat -> Prop :=
| needs_self m : needs evs m m
| needs_step m es n k : added evs m es -> In (Ensure n) es -> needs evs n k -> needs evs m k.

(** Modules arrive once, after those they need (parallel.rs builds them in this order), and no two
    expressions are the same. *)
Fixpoint ordered (before : list nat) (evs : list event) : Prop :=
  match evs with
  | [] => True
  | Add m es _ :: evs => ~ In m before /\ (forall n, In (Ensure n) es -> In n before) /\ ordered (m :: before) evs
  | _ :: evs => ordered before evs
  end.
Definition all_exprs (evs : list event) : list nat :=
  flat_map (fun ev => match ev with Add _ es _ => flat_map put_main es | _ => [] end) evs.
Definition well_formed (evs : list event) : Prop := ordered [] evs /\ NoDup (all_exprs evs).

(** [x] comes before [y] in [l]. *)
Definition before (l : list nat) (x y : nat) : Prop := exists a b c, l = a ++ x :: b ++ y :: c.

(** What is run: every expression of the modules that an entry point needs, once; those of a module in
    their order, each after everything that the modules imported before it need. *)
Record initializes (evs : list event) (l : list nat) : Prop := {
  once : NoDup l;
  exactly : forall x, In x l <-> exists m n es, entry evs m /\ needs evs m n /\ added evs n es /\ In (Eval x) es;
  in_order : forall m n es a x b y c, entry evs m -> needs evs m n -> added evs n es ->
    es = a ++ Eval x :: b ++ Eval y :: c -> before l x y;
  imports_first : forall m n es a k b y c k' es' x, entry evs m -> needs evs m n -> added evs n es ->
    es = a ++ Ensure k :: b ++ Eval y :: c -> needs evs k k' -> added evs k' es' -> In (Eval x) es' -> before l x y
}.

Definition is_add (ev : event) : bool := match ev with Add _ _ _ => true | _ => false end.
