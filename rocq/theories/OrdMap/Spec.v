(** * Finite maps, as lists of their entries in increasing order of the keys *)
From Verif.Base Require Import Base.
Local Open Scope list_scope.

(** An order on keys, as [compare] gives it: keys may be equal in the order without being the same. *)
Record lawful {K} (cmp : K -> K -> comparison) : Prop := Lawful {
  cmp_sym : forall x y, cmp y x = CompOpp (cmp x y);
  cmp_trans : forall c x y z, cmp x y = c -> cmp y z = c -> cmp x z = c }.

Section Map.
Context {K V : Type} (cmp : K -> K -> comparison).

(** The value of a key. *)
Fixpoint lookup (k : K) (l : list (K * V)) : option V :=
  match l with
  | [] => None
  | (k', v) :: l => match cmp k k' with Eq => Some v | _ => lookup k l end
  end.

(** Every key is less than those after it. *)
Fixpoint increasing (l : list (K * V)) : Prop :=
  match l with
  | [] => True
  | (k, _) :: l => (forall k' v, In (k', v) l -> cmp k k' = Lt) /\ increasing l
  end.

(** Inserting: the entry takes its place in the order; an entry that is there already gets the new value. [keep] tells
    whether it also keeps its key, or takes the new one, which is equal to it in the order. *)
Fixpoint put (keep : bool) (k : K) (v : V) (l : list (K * V)) : list (K * V) :=
  match l with
  | [] => [(k, v)]
  | (k', v') :: l =>
      match cmp k k' with
      | Lt => (k, v) :: (k', v') :: l
      | Eq => (if keep then k' else k, v) :: l
      | Gt => (k', v') :: put keep k v l
      end
  end.

(** Removing. *)
Fixpoint del (k : K) (l : list (K * V)) : list (K * V) :=
  match l with
  | [] => []
  | (k', v') :: l => match cmp k k' with Eq => l | _ => (k', v') :: del k l end
  end.

(** The first and the last entry. *)
Definition first (l : list (K * V)) : option (K * V) := hd_error l.
Definition final (l : list (K * V)) : option (K * V) := hd_error (rev l).

End Map.
