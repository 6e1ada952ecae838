(** Declarations put together by [begin]. *)
From Verif.Base Require Import Base.
From Verif.Sexp Require Import Model.
From Verif.Syntax Require Import Model ModelDecl Spec SpecBare SpecDecl Proofs ProofsTypes ProofsExprs ProofsRuns ProofsTop ProofsUnique ProofsDecl ProofsDeclTop.
From Coq Require Import Permutation.
Local Arguments t_ : simpl never.
Local Arguments text_eqb : simpl never.

Section Define.
Variable W : world.

Lemma expands_last s s' : expands W s s' -> expands W s' s'.
Proof. induction 1 as [s N|]; [apply exp_done; exact N | assumption]. Qed.
Lemma begin_form s ss : as_begin s = Some ss <-> exists l lk, s = form l lk (t_ "begin") ss.
Proof.
  unfold as_begin. split.
  - destruct (as_form s) as [[h rest]|] eqn:F; [|discriminate]. apply as_form_some in F. destruct F as [l [lk ->]].
    destruct (text_eqb h (t_ "begin")) eqn:K; [|discriminate]. intro E. injection E as ->. apply eqb_text in K. subst. exists l, lk. reflexivity.
  - intros [l [lk ->]]. reflexivity.
Qed.
Lemma begin_no_decl l lk ss d : ~ decl_form W (form l lk (t_ "begin") ss) d.
Proof. intros H. apply decl_view in H. destruct H as [v [E V]]. unfold match_decl, form in E. cbn in E. injection E as <-. exact V. Qed.

Lemma declares_begin s l lk ss ds : expands W s (form l lk (t_ "begin") ss) ->
  (declares W s ds <-> exists dss, Forall2 (declares W) ss dss /\ ds = List.concat dss).
Proof.
  intros E. split.
  - intros H. inversion H as [? d H1|? l2 lk2 ss2 dss E2 H1]; subst.
    + apply reads_decl_eq in H1. destruct H1 as [s1 [E1 F]]. rewrite <- (expands_unique W s _ E s1 E1) in F. destruct (begin_no_decl _ _ _ _ F).
    + pose proof (expands_unique W s _ E _ E2) as G. injection G as -> -> ->. exists dss. split; [exact H1 | reflexivity].
  - intros [dss [H ->]]. exact (declares_all W s l lk ss dss E H).
Qed.
Lemma declares_single s s' ds : expands W s s' -> as_begin s' = None -> (declares W s ds <-> exists d, reads_decl W s' d /\ ds = [d]).
Proof.
  intros E N. split.
  - intros H. inversion H as [? d H1|? l2 lk2 ss2 dss E2 H1]; subst.
    + exists d. split; [|reflexivity]. apply reads_decl_eq in H1. destruct H1 as [s1 [E1 F]]. rewrite <- (expands_unique W s _ E s1 E1) in F.
      apply reads_decl_eq. exists s'. split; [exact (expands_last _ _ E) | exact F].
    + exfalso. pose proof (expands_unique W s _ E _ E2) as G. assert (B : as_begin s' = Some ss2) by (apply begin_form; exists l2, lk2; exact G). congruence.
  - intros [d [H ->]]. apply declares_one. apply reads_decl_eq in H. destruct H as [s1 [E1 F]].
    apply reads_decl_eq. exists s'. split; [exact E|]. rewrite (expands_unique W s' _ (expands_last _ _ E) s1 E1). exact F.
Qed.
Lemma flat_map_concat {A B} (f : A -> list B) ls : flat_map f (List.concat ls) = flat_map (flat_map f) ls.
Proof. induction ls as [|l ls IH]; [reflexivity|]. cbn. rewrite flat_map_app, IH. reflexivity. Qed.

Lemma spec_define n : forall s, spec (define W n s) (declares W s) (flat_map ids_decl).
Proof.
  induction n as [|n IH]; intros s; [apply spec_tired|]. cbn [define].
  apply spec_bind with (P := expands W s) (i := none); [apply spec_expand| |].
  { intros N ds H. inversion H as [? d H1|? l lk ss dss E _]; subst; [|exact (N _ E)]. apply reads_decl_eq in H1. destruct H1 as [s1 [E1 _]]. exact (N s1 E1). }
  intros s' E. destruct (as_begin s') as [ss|] eqn:B.
  - apply begin_form in B. destruct B as [l [lk ->]]. apply spec_iff with (Q' := fun ds => exists dss, Forall2 (declares W) ss dss /\ ds = List.concat dss).
    { intros ds. apply (declares_begin s l lk ss ds E). }
    apply spec_bind with (P := Forall2 (declares W) ss) (i := flat_map (flat_map ids_decl)).
    { apply spec_all. intros a _. apply IH. }
    { intros N ds [dss [H _]]. exact (N dss H). }
    intros dss H. apply spec_ret; [exists dss; split; [exact H | reflexivity]|]. rewrite flat_map_concat. cbn [none app]. rewrite ?app_nil_r. reflexivity.
  - apply spec_iff with (Q' := fun ds => exists d, reads_decl W s' d /\ ds = [d]).
    { intros ds. exact (declares_single s s' ds E B). }
    apply spec_bind with (P := reads_decl W s') (i := ids_decl); [apply spec_decl| |].
    { intros N ds [d [H _]]. exact (N d H). }
    intros d H. apply spec_ret; [exists d; split; [exact H | reflexivity]|]. cbn. rewrite ?app_nil_r. reflexivity.
Qed.

Lemma declares_unique : forall s ds, declares W s ds -> forall ds2, declares W s ds2 -> map bare_decl ds = map bare_decl ds2.
Proof.
  fix IH 3. intros s ds H. destruct H as [s d H|s l lk ss dss E H].
  - clear IH. intros ds2 H2. inversion H2 as [? d2 H1|? l2 lk2 ss2 dss E2 H1]; subst.
    + cbn. f_equal. exact (decl_unique W s d d2 H H1).
    + exfalso. apply reads_decl_eq in H. destruct H as [s1 [E1 F]]. rewrite <- (expands_unique W s _ E2 s1 E1) in F. exact (begin_no_decl _ _ _ _ F).
  - assert (All : forall dss2, Forall2 (declares W) ss dss2 -> map bare_decl (List.concat dss) = map bare_decl (List.concat dss2)).
    { clear E. induction H as [|a b ss dss H HF IHF].
      - clear IH. intros dss2 G. inversion G. reflexivity.
      - pose proof (IH a b H) as I1. clear IH. intros dss2 G. inversion G as [|? b2 ? dss2' G1 G2]; subst. cbn [List.concat]. rewrite !map_app. f_equal; [exact (I1 b2 G1) | exact (IHF dss2' G2)]. }
    clear IH. intros ds2 H2. apply (declares_begin s l lk ss ds2 E) in H2. destruct H2 as [dss2 [H2 ->]]. exact (All dss2 H2).
Qed.

Lemma runs_define n : forall s, fine W n s -> runs (define W (S n) s).
Proof.
  induction n as [|n IH]; intros s H; [destruct (fine_0 _ _ H)|].
  change (define W (S (S n)) s) with (andthen (expand W (S (S n)) s) (fun s => match as_begin s with
    | Some ss => andthen (all (define W (S n)) ss) (fun dss => ret (List.concat dss)) | None => andthen (build_decl W (S (S n)) s) (fun d => ret [d]) end)).
  rewrite expand_none by apply H. intro c. unfold andthen at 1. cbn [ret bind]. revert c. fold (runs (A := list decl)).
  destruct (as_begin s) as [ss|] eqn:B.
  - apply begin_form in B. destruct B as [l [lk ->]]. apply fine_form in H. destruct H as [_ H].
    apply runs_bind; [apply runs_all; eapply Forall_impl; [apply IH | exact H] | intros; apply runs_ret].
  - apply runs_bind; [|intros; apply runs_ret]. apply runs_decl; [exact H|]. intros l lk k rest E [G|[]]. subst. discriminate.
Qed.
End Define.
Definition define_built W := top_built _ _ _ (spec_define W).
Definition define_refused W := top_refused _ _ _ (spec_define W).
Definition define_decided W := top_decided W _ _ _ (spec_define W) (runs_define W).
