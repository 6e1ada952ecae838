(** * Evaluation gives one result *)
From Verif.Base Require Import Base.
From Verif.Ir Require Import Model.
From Verif.Closure Require Import Model Spec ProofsSim.

Section Det.
Variables (prim : strict -> heap -> list value -> option (heap * res)) (equals : const -> value -> option bool) (FS : nat -> option function).

Lemma entered_det : forall v vs e x e' x', entered FS v vs e x -> entered FS v vs e' x' -> e = e' /\ x = x'.
Proof.
  intros v vs e x e' x' H H'. destruct H; inversion H'; subst.
  - assert (f0 = f) by congruence. subst. split; congruence.
  - match goal with A : find _ _ = Some _, B : find _ _ = Some _ |- _ => rewrite A in B; injection B as <- <- <- end. auto.
Qed.

Local Ltac use :=
  match goal with
  | IH : forall h2 r2, ev prim equals FS ?h ?e ?x h2 r2 -> _, K : ev prim equals FS ?h ?e ?x _ _ |- _ =>
      let A := fresh in let B := fresh in destruct (IH _ _ K) as [A B]; clear K; try subst; try discriminate B; try (injection B; intros; subst)
  | IH : forall h2 r2, evs prim equals FS ?h ?e ?x h2 r2 -> _, K : evs prim equals FS ?h ?e ?x _ _ |- _ =>
      let A := fresh in let B := fresh in destruct (IH _ _ K) as [A B]; clear K; try subst; try discriminate B; try (injection B; intros; subst)
  end.
Local Ltac finish :=
  try solve [split; congruence]; try solve [cbn in *; contradiction];
  try solve [match goal with A : forall vs, RsJump ?i ?ws <> RsJump ?i vs |- _ => exfalso; exact (A _ eq_refl) end].

Lemma ev_det :
  (forall h e x h1 r, ev prim equals FS h e x h1 r -> forall h2 r2, ev prim equals FS h e x h2 r2 -> h1 = h2 /\ r = r2) /\
  (forall h e xs h1 s, evs prim equals FS h e xs h1 s -> forall h2 s2, evs prim equals FS h e xs h2 s2 -> h1 = h2 /\ s = s2).
Proof.
  apply (ev_evs_ind prim equals FS
    (fun h e x h1 r _ => forall h2 r2, ev prim equals FS h e x h2 r2 -> h1 = h2 /\ r = r2)
    (fun h e xs h1 s _ => forall h2 s2, evs prim equals FS h e xs h2 s2 -> h1 = h2 /\ s = s2)); intros;
  match goal with K : ev _ _ _ _ _ ?x ?h2 ?r2 |- _ = ?h2 /\ _ = ?r2 => inversion K; subst; clear K | K : evs _ _ _ _ _ ?x ?h2 ?r2 |- _ = ?h2 /\ _ = ?r2 => inversion K; subst; clear K end;
  repeat use; finish.
  - match goal with A : entered _ _ _ _ _, B : entered _ _ _ _ _ |- _ => destruct (entered_det _ _ _ _ _ _ A B) as [-> ->] end. repeat use. finish.
  - match goal with a : bool, b : bool |- _ => destruct a, b; try discriminate end; repeat use; finish.
  - match goal with A : first_match _ _ _ _ = Some _, B : first_match _ _ _ _ = Some _ |- _ => rewrite A in B; injection B as <- <- end. repeat use. finish.
Qed.
End Det.

Lemma ev_one_result : forall prim equals funs h e x h1 r h2 r2,
  ev prim equals funs h e x h1 r -> ev prim equals funs h e x h2 r2 -> h2 = h1 /\ r2 = r.
Proof. intros prim equals funs h e x h1 r h2 r2 A B. destruct (proj1 (ev_det prim equals funs) h e x h1 r A h2 r2 B). auto. Qed.
