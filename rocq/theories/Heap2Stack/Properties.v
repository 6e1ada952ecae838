(** C36: promotion of heap allocations to the stack. *)
From Verif.Base Require Import Base.
From Verif.Ir Require Import Model Spec.
From Verif.Heap2Stack Require Import Model Spec ProofsErase Proofs.

(** Whatever a program evaluates to when no object is ever released, the program after the pass
    evaluates to as well when every object on the stack is gone as soon as the binding that owns it
    ends; the objects gone are new, nothing that is left refers to them, and all others are the same.
    This holds whatever was collected from the functions visited before ([l]). *)
Theorem heap2stack_preserves :
  forall round32 prim funs funs', prims_local prim ->
  (forall g, match funs g with
   | Some (params, captured, body) =>
       well_formed body /\ exists l, funs' g = Some (params, captured, fst (rw body l))
   | None => funs' g = None
   end) ->
  forall x l h e h1 r, well_formed x -> heap_ok none h -> env_ok none h e ->
  ev false round32 prim funs h e x h1 r ->
  exists h1' (gone : nat -> Prop), ev true round32 prim funs' h e (fst (rw x l)) h1' r /\
    (forall a, gone a -> (List.length h <= a)%nat) /\
    agree gone h1 h1' /\ heap_ok gone h1 /\ res_ok gone h1 r.
Proof. exact preserves. Qed.
Print Assumptions heap2stack_preserves.

(** The pass changes nothing but where objects are allocated. *)
Theorem heap2stack_only_moves :
  forall x l, erase (fst (rw x l)) = erase x.
Proof. exact rw_erase. Qed.
Print Assumptions heap2stack_only_moves.
