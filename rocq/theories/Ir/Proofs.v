(** Proofs about the semantics of the IR. *)
From Verif.Base Require Import Base.
From Verif.Ir Require Import Model Spec.

Scheme ev_mut := Minimality for ev Sort Prop
  with evs_mut := Minimality for evs Sort Prop.
Combined Scheme ev_evs_ind from ev_mut, evs_mut.

Ltac inv H := inversion H; subst; clear H.
(** Drops the cases in which an operation would have to be a binding form. *)
Ltac no_op := try match goal with H : operation _ = Some _ |- _ => discriminate H end.

Section Ir.
Variable scoped : bool.
Variable round32 : fp -> fp.
Variable prim : prim_op -> heap -> list val -> option (heap * val).
Variable funs : nat -> option (list nat * list nat * rt).
Notation ev := (ev scoped round32 prim funs).
Notation evs := (evs scoped round32 prim funs).

Lemma let_app a b x : forall h e h' r,
  ev h e (RLetVar (a ++ b) x) h' r <-> ev h e (RLetVar a (RLetVar b x)) h' r.
Proof.
  induction a as [|[[id t] init] a IH]; intros h e h' r; cbn.
  - split; intros H; [constructor; exact H|inv H; no_op; assumption].
  - split; intros H; inv H; no_op.
    + eapply ev_let_cons; [eassumption|]. apply IH; assumption.
    + eapply ev_let_stop; eassumption.
    + eapply ev_let_cons; [eassumption|]. apply IH; assumption.
    + eapply ev_let_stop; eassumption.
Qed.

Lemma seq_app a b x : forall h e h' r,
  ev h e (RSeq (a ++ b) x) h' r <-> ev h e (RSeq a (RSeq b x)) h' r.
Proof.
  induction a as [|s a IH]; intros h e h' r; cbn.
  - split; intros H; [constructor; exact H|inv H; no_op; assumption].
  - split; intros H; inv H; no_op.
    + eapply ev_seq_cons; [eassumption|]. apply IH; assumption.
    + eapply ev_seq_stop; eassumption.
    + eapply ev_seq_cons; [eassumption|]. apply IH; assumption.
    + eapply ev_seq_stop; eassumption.
Qed.

Lemma cont_app a b x : forall h e h' r,
  ev h e (RLetCont (a ++ b) x) h' r <-> ev h e (RLetCont a (RLetCont b x)) h' r.
Proof.
  induction a as [|[[id ps] body] a IH]; intros h e h' r; cbn.
  - split; intros H; [constructor; exact H|inv H; no_op; assumption].
  - split; intros H; inv H; no_op.
    + eapply ev_cont_jump; [apply IH; eassumption|eassumption|eassumption].
    + eapply ev_cont_other; [apply IH; eassumption|assumption].
    + eapply ev_cont_jump; [apply IH; eassumption|eassumption|eassumption].
    + eapply ev_cont_other; [apply IH; eassumption|assumption].
Qed.

Lemma let_var_ev vars x h e h' r :
  ev h e (let_var vars x) h' r <-> ev h e (RLetVar vars x) h' r.
Proof.
  unfold let_var. destruct vars as [|v vars].
  - split; intros H; [constructor; exact H|inv H; no_op; assumption].
  - destruct x; try reflexivity. apply let_app.
Qed.

Lemma seq_ev ss x h e h' r : ev h e (seq ss x) h' r <-> ev h e (RSeq ss x) h' r.
Proof.
  unfold seq. destruct ss as [|s ss].
  - split; intros H; [constructor; exact H|inv H; no_op; assumption].
  - destruct x; try reflexivity. apply seq_app.
Qed.

Lemma let_cont_ev ks x h e h' r :
  ev h e (let_cont ks x) h' r <-> ev h e (RLetCont ks x) h' r.
Proof.
  unfold let_cont. destruct ks as [|k ks].
  - split; intros H; [constructor; exact H|inv H; no_op; assumption].
  - destruct x; try reflexivity. apply cont_app.
Qed.

(** *** Determinism *)

Lemma returned_abrupt r r' : returned r = Some r' -> abrupt r' -> exists s, r = RsPanic s.
Proof. destruct r; cbn; intros E A; inv E; try contradiction. eauto. Qed.

Lemma v_bool_inj a b : v_bool a = v_bool b -> a = b.
Proof. destruct a, b; cbn; intros E; auto; inversion E. Qed.

End Ir.
