(** * The pass as a whole *)
From Verif.Base Require Import Base.
From Verif.Ir Require Import Model Spec Proofs RtInd.
From Verif.Heap2Stack Require Import Model Spec ProofsSafe ProofsErase ProofsSim ProofsMain.

Lemma rewritten_safe x l : well_formed x -> safe [] (fst (rw x l)) = true.
Proof. intros [N L]. apply run_safe; auto. Qed.

Section Pass.
Variables (round32 : fp -> fp) (prim : prim_op -> heap -> list val -> option (heap * val)).
Variables funs funs' : nat -> option (list nat * list nat * rt).
Hypothesis local : prims_local prim.
Hypothesis rewritten : forall g, match funs g with
  | Some (ps, cs, b) => well_formed b /\ exists l, funs' g = Some (ps, cs, fst (rw b l))
  | None => funs' g = None
  end.

Lemma preserves x l h e h1 r : well_formed x -> heap_ok none h -> env_ok none h e ->
  ev false round32 prim funs h e x h1 r ->
  exists h1' (gone : nat -> Prop), ev true round32 prim funs' h e (fst (rw x l)) h1' r /\
    (forall a, gone a -> (List.length h <= a)%nat) /\
    agree gone h1 h1' /\ heap_ok gone h1 /\ res_ok gone h1 r.
Proof.
  intros W H E X.
  assert (X1 : ev false round32 prim funs' h e (fst (rw x l)) h1 r).
  { refine (proj1 (erased_ev round32 prim funs funs' _) h e x h1 r X _ _).
    - intros g ps cs b G. pose proof (rewritten g) as K. rewrite G in K. destruct K as [_ [l' K]].
      exists (fst (rw b l')). split; [exact K|apply rw_erase].
    - symmetry. apply rw_erase. }
  assert (Sf : forall g ps cs b, funs' g = Some (ps, cs, b) -> safe [] b = true).
  { intros g ps cs b G. pose proof (rewritten g) as K. destruct (funs g) as [[[ps' cs'] b']|]; [|congruence].
    destruct K as [Wb [l' K]]. rewrite K in G. injection G as <- <- <-. apply rewritten_safe, Wb. }
  assert (I : inv none h h).
  { split; [split; [reflexivity|auto]|exact H|intros a []]. }
  destruct (proj1 (simulation round32 prim funs' local Sf) _ _ _ _ _ X1 [] none h
    (or_introl (rewritten_safe x l W)) I (proj1 (env_inv_nil _ _ _ _) E)) as (S1 & h1' & T & St & R & _).
  exists h1', S1. split; [exact T|]. pose proof (s_inv _ _ _ _ _ _ St) as [A Hh B].
  split; [|split; [exact A|split; [exact Hh|exact (R (rewritten_safe x l W))]]].
  intros a Sa. destruct (Nat.lt_ge_cases a (List.length h)) as [L|L]; [|exact L].
  destruct (s_new _ _ _ _ _ _ St a Sa L).
Qed.
End Pass.
