(** The statements about the builder put together. *)
From Verif.Base Require Import Base.
From Verif.Sexp Require Import Model.
From Verif.Syntax Require Import Model Spec Proofs ProofsTypes ProofsExprs ProofsRuns.

Section Top.
Context {A : Type} (W : world) (build : nat -> sexp -> M A) (reads : sexp -> A -> Prop) (ids : A -> list N).
Hypothesis Sp : forall n s, spec (build n s) (reads s) ids.
Lemma top_built n s c c' a : build n s c = Ret (c', Built a) -> reads s a /\ fresh c c' (ids a).
Proof.
  intros E. assert (F : fresh c c []) by (split; constructor). specialize (Sp n s c c (N.le_refl c) F). rewrite E in Sp.
  destruct Sp as [H1 [_ H2]]. split; assumption.
Qed.
Lemma top_refused n s c c' e : build n s c = Ret (c', Refused e) -> forall a, ~ reads s a.
Proof. intros E. assert (F : fresh c c []) by (split; constructor). specialize (Sp n s c c (N.le_refl c) F). rewrite E in Sp. exact Sp. Qed.
Hypothesis Rn : forall n s, fine W n s -> runs (build (S n) s).
Lemma top_decided s c : no_macros W s -> moderate W s ->
  exists c' r, build (S (depth s)) s c = Ret (c', r) /\ ((exists a, reads s a) <-> exists a, r = Built a).
Proof.
  intros H1 H2. assert (H : fine W (depth s) s) by (split; [exact H1|]; split; [exact H2 | lia]).
  destruct (Rn (depth s) s H c) as [c' [r E]]. exists c', r. split; [exact E|]. destruct r as [a|e].
  - split; intros _; exists a; [reflexivity | exact (proj1 (top_built _ _ _ _ _ E))].
  - split; intros [a Ha]; [destruct (top_refused _ _ _ _ _ E a Ha) | discriminate].
Qed.
End Top.

Definition kind_built W := top_built _ _ _ (spec_kind W).
Definition type_built W := top_built _ _ _ (spec_type W).
Definition pattern_built W := top_built _ _ _ (spec_pattern W).
Definition expr_built W := top_built _ _ _ (spec_expr W).
Definition kind_refused W := top_refused _ _ _ (spec_kind W).
Definition type_refused W := top_refused _ _ _ (spec_type W).
Definition pattern_refused W := top_refused _ _ _ (spec_pattern W).
Definition expr_refused W := top_refused _ _ _ (spec_expr W).
Definition kind_decided W := top_decided W _ _ _ (spec_kind W) (runs_kind W).
Definition type_decided W := top_decided W _ _ _ (spec_type W) (runs_type W).
Definition pattern_decided W := top_decided W _ _ _ (spec_pattern W) (runs_pattern W).
Definition expr_decided W := top_decided W _ _ _ (spec_expr W) (runs_expr W).
