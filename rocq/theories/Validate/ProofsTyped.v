(** The verdicts are those the clauses deserve. *)
From Verif.Base Require Import Base BaseFacts Vec VecFacts.
From Verif.Pattern Require Import Model Spec ProofsCheck.
From Verif.Resolve Require Import Model ProofsExpr.
From Verif.Validate Require Import Model Spec Proofs.

Section Validator.
Variable type_con_of : N -> option N.
Variable value_cons : N -> option (list finite_con).
Variable is_sexp : N -> bool.
Variable S : types.
Hypothesis HD : distinct S.
Hypothesis Hdecl : declared S type_con_of value_cons.
Notation simplified := (simplified type_con_of value_cons is_sexp).
Notation tag_rel := (tag_rel type_con_of value_cons).
Notation judged := (judged type_con_of value_cons is_sexp).
Notation typed := (typed is_sexp S).
Notation run := (run type_con_of value_cons is_sexp).

Lemma find_con (cs : list (N * list (type S))) c fs : NoDup (map fst cs) -> In (c, fs) cs -> find (fun con => (use_ con =? c)%N) (map con_of cs) = Some (con_of (c, fs)).
Proof.
  induction cs as [|[c' fs'] cs IH]; intros Hn Hin; [destruct Hin|]. cbn [map find con_of use_ fst snd] in *. inversion_clear Hn as [|? ? Hn1 Hn2]. destruct (c' =? c)%N eqn:E.
  - apply N.eqb_eq in E. subst c'. destruct Hin as [[= ->]|Hin]; [reflexivity|]. exfalso. apply Hn1. apply (in_map fst) in Hin. exact Hin.
  - destruct Hin as [[= -> ->]|Hin]; [rewrite N.eqb_refl in E; discriminate|]. apply IH; assumption.
Qed.
Lemma tag_typed t cs c fs : cons_of S t = Some cs -> In (c, fs) cs -> tag_rel c (Finite (con_of (c, fs)) (map con_of cs)).
Proof. intros Ec Hin. destruct (Hdecl t cs c fs Ec Hin) as (d & E1 & E2). exists d, (map con_of cs), (con_of (c, fs)). split; [exact E1|]. split; [exact E2|]. split; [apply find_con; [exact (HD t cs Ec)|exact Hin]|reflexivity]. Qed.

Lemma simplified_fun p : forall q q', simplified p q -> simplified p q' -> q' = q.
Proof.
  induction p as [b o IH| |u o IH|k] using pattern_ind'; intros q q' H H'.
  - inversion H; subst; inversion H'; subst; [reflexivity|]. eapply IH; eassumption.
  - inversion H; subst; inversion H'; subst. reflexivity.
  - inversion H as [| | |c o' qs g Hqs Hg|]; subst. inversion H' as [| | |c' o' qs' g' Hqs' Hg'|]; subst. f_equal; [exact (tag_rel_fun _ _ _ _ _ Hg Hg')|]. clear H H' Hg Hg'. destruct o as [l|]; cbn [fields_of ProofsExpr.each] in *.
    + revert qs' Hqs'. induction Hqs as [|p q l l' Hpq _ IHl]; intros qs' Hqs'; inversion Hqs' as [|p' q' l0 l0' Hpq' Hl']; subst; [reflexivity|]. inversion_clear IH as [|? ? IHp IHs]. f_equal; [exact (IHp _ _ Hpq Hpq')|exact (IHl IHs _ Hl')].
    + inversion Hqs; subst. inversion Hqs'. reflexivity.
  - inversion H; subst; inversion H'; subst. reflexivity.
Qed.
Lemma typed_simplified p : forall t, typed p t -> exists q, simplified p q /\ pat_type S q t.
Proof.
  induction p as [b o IH| |u o IH|k] using pattern_ind'; intros t H.
  - inversion H as [|b' p t' Hp| | |]; subst; [exists PWild; split; constructor|]. cbn in IH. destruct (IH t Hp) as (q & Hq & Ht). exists q. split; [constructor; exact Hq|exact Ht].
  - exists PWild. split; constructor.
  - inversion H as [| | |c o' cs fs t' Ec Hin Hfs|]; subst.
    assert (E : exists qs, Forall2 simplified (fields_of o) qs /\ Forall2 (pat_type S) qs fs).
    { assert (IH' : Forall (fun p => forall t, typed p t -> exists q, simplified p q /\ pat_type S q t) (fields_of o)) by (destruct o as [l|]; [exact IH|constructor]).
      clear -Hfs IH'. induction Hfs as [|p f l fs Hp _ IHl]; [exists []; split; constructor|]. inversion_clear IH' as [|? ? IHp IHs]. destruct (IHp f Hp) as (q & Hq & Ht). destruct (IHl IHs) as (qs & Hqs & Hts). exists (q :: qs). split; constructor; assumption. }
    destruct E as (qs & Hqs & Hts). eexists. split; [constructor; [exact Hqs|exact (tag_typed t cs c fs Ec Hin)]|]. apply p_con; assumption.
  - inversion H; subst. eexists. split; [constructor; assumption|]. apply p_const; assumption.
Qed.
Lemma simplified_fits p : forall q v, simplified p q -> (matches q v <-> fits p v).
Proof.
  induction p as [b o IH| |u o IH|k] using pattern_ind'; intros q v H.
  - inversion H as [|b' p q' Hp| | |]; subst; [split; intros _; constructor|]. cbn in IH. rewrite (IH q v Hp). split; [intros Hv; constructor; exact Hv|]. intros Hv. inversion Hv; subst. assumption.
  - inversion H; subst. split; intros _; constructor.
  - inversion H as [| | |c o' qs g Hqs Hg|]; subst. destruct Hg as (d & l & con & _ & _ & Ef & ->). apply find_some in Ef. destruct Ef as (_ & Ec). apply N.eqb_eq in Ec.
    assert (IH' : Forall (fun p => forall q v, simplified p q -> (matches q v <-> fits p v)) (fields_of o)) by (destruct o as [ps|]; [exact IH|constructor]).
    assert (E : forall args, Forall2 matches qs args <-> Forall2 fits (fields_of o) args).
    { clear -Hqs IH'. induction Hqs as [|p q l qs Hp _ IHl]; intros args; [split; intros Ha; inversion Ha; constructor|]. inversion_clear IH' as [|? ? IHp IHs].
      split; intros Ha; inversion Ha as [|x y xs ys Hx Hxs]; subst; (constructor; [apply (IHp _ _ Hp), Hx|apply (IHl IHs), Hxs]). }
    split; intros Hv; inversion Hv; subst; constructor || rewrite <- Ec; try constructor; apply E; assumption.
  - inversion H; subst. split; intros Hv; inversion Hv; subst; constructor.
Qed.

Notation of_clauses := (of_clauses type_con_of value_cons is_sexp).
Lemma clauses_simplified clauses t : clauses_typed is_sexp S clauses t -> exists qs, of_clauses clauses qs /\ Forall (fun q => pat_type S q t) qs.
Proof.
  induction clauses as [|[p b] clauses IH]; intros H; [exists []; split; constructor|]. destruct (typed_simplified p t (H p b (or_introl eq_refl))) as (q & Hq & Ht).
  destruct IH as (qs & Hqs & Hts); [intros p' b' Hin; exact (H p' b' (or_intror Hin))|]. exists (q :: qs). split; constructor; assumption.
Qed.
Lemma of_clauses_fun clauses : forall qs qs', of_clauses clauses qs -> of_clauses clauses qs' -> qs' = qs.
Proof.
  induction clauses as [|c clauses IH]; intros qs qs' H H'; inversion H; subst; inversion H'; subst; [reflexivity|]. f_equal; [eapply simplified_fun; eassumption|apply IH; assumption].
Qed.
Lemma covered_handled clauses qs v : of_clauses clauses qs -> (covered qs v <-> handled clauses v).
Proof.
  unfold covered, handled. intros H. induction H as [|[p b] q clauses qs Hp _ IH].
  - split; [intros (p & [] & _)|intros (p & b & [] & _)].
  - split.
    + intros (q' & [<-|Hin] & Hm); [exists p, b; split; [left; reflexivity|apply (simplified_fits p q v Hp), Hm]|]. destruct (proj1 IH) as (p' & b' & Hin' & Hf); [exists q'; auto|]. exists p', b'. split; [right; exact Hin'|exact Hf].
    + intros (p' & b' & [[= <- <-]|Hin] & Hf); [exists q; split; [left; reflexivity|apply (simplified_fits p q v Hp), Hf]|]. destruct (proj2 IH) as (q' & Hin' & Hm); [exists p', b'; auto|]. exists q'. split; [right; exact Hin'|exact Hm].
Qed.
Lemma useful_needed clauses qs t : of_clauses clauses qs -> all_useful S t qs -> needed S t clauses.
Proof.
  intros H HU pre p b post E. subst clauses. apply Forall2_app_inv_l in H. destruct H as (q1 & q2 & H1 & H2 & ->). inversion H2 as [|x q l qs Hp Hl]; subst. destruct (HU q1 q qs eq_refl) as (v & Hv & Hm & Hn).
  exists v. split; [exact Hv|]. split; [apply (simplified_fits p q v Hp), Hm|]. intros Hh. apply Hn, (covered_handled pre), Hh. exact H1.
Qed.
Lemma judged_verdict target clauses t r : clauses_typed is_sexp S clauses t -> judged (EMatch target clauses) r -> verdict S t clauses r.
Proof.
  intros Ht (target' & clauses' & qs & [= <- <-] & Hqs & Hr). destruct (clauses_simplified clauses t Ht) as (qs' & Hqs' & Hts). assert (E := of_clauses_fun _ _ _ Hqs Hqs'). subst qs'.
  destruct (validate_ok S HD t qs Hts) as (r' & Hr' & Hv). assert (E := conv_unique _ _ _ Hr Hr'). subst r'. destruct r as [|q|ps]; cbn [verdict].
  - destruct Hv as (H1 & H2). split; [intros v Hv; apply (covered_handled clauses qs v Hqs), H1, Hv|]. intros HR. apply (useful_needed clauses qs t Hqs), H2, HR.
  - destruct Hv as (pre & post & -> & H1 & H2). apply Forall2_app_inv_r in Hqs. destruct Hqs as (c1 & c2 & Hc1 & Hc2 & ->). inversion Hc2 as [|[p b] x l l' Hp Hl]; subst. exists c1, p, b, l. split; [reflexivity|]. split; [intros v; apply (simplified_fits p q v Hp)|].
    split; [intros v Hv Hf; apply (covered_handled c1 pre v Hc1), (H1 v Hv), (simplified_fits p q v Hp), Hf|]. intros HR. apply (useful_needed c1 pre t Hc1), H2, HR.
  - destruct Hv as (H1 & _ & H2 & _). split; [exact H1|]. intros HR. destruct (H2 HR) as (H3 & H4). split; [apply (useful_needed clauses qs t Hqs), H3|]. intros q Hq. destruct (H4 q Hq) as (v & Hv & Hm & Hn). exists v. split; [exact Hv|]. split; [exact Hm|]. intros Hh. apply Hn, (covered_handled clauses qs v Hqs), Hh.
Qed.
Lemma typed_checkable r : module_typed is_sexp S r -> forall m, written r m -> checkable type_con_of value_cons is_sexp m.
Proof.
  intros HT m Hm target clauses ->. destruct (HT target clauses Hm) as (t & Ht). destruct (clauses_simplified clauses t Ht) as (qs & Hqs & Hts). destruct (validate_ok S HD t qs Hts) as (x & Hx & _). exists x, target, clauses, qs. auto.
Qed.
Lemma run_verdict r : module_typed is_sexp S r ->
  exists o, conv (fun n => run n r) o /\
  match o with
  | None => forall target clauses t, written r (EMatch target clauses) -> clauses_typed is_sexp S clauses t -> verdict S t clauses MatchOk
  | Some f => exists target clauses, f_match f = EMatch target clauses /\ written r (f_match f) /\ f_reason f <> MatchOk /\
      forall t, clauses_typed is_sexp S clauses t -> verdict S t clauses (f_reason f)
  end.
Proof.
  intros HT. destruct (run_visits _ _ _ r (typed_checkable r HT)) as (o & Hc & Ho). exists o. split; [exact Hc|]. destruct o as [f|].
  - destruct Ho as (Hw & Hj & Hn). assert (Hj' := Hj). destruct Hj' as (target & clauses & qs & E & _). exists target, clauses. split; [exact E|]. split; [exact Hw|]. split; [exact Hn|]. intros t Ht. rewrite E in Hj. exact (judged_verdict target clauses t _ Ht Hj).
  - intros target clauses t Hw Ht. exact (judged_verdict target clauses t _ Ht (Ho _ Hw target clauses eq_refl)).
Qed.
Lemma judged_fun m r r' : judged m r -> judged m r' -> r' = r.
Proof. intros (t & c & qs & E & Hq & Hr) (t' & c' & qs' & E' & Hq' & Hr'). rewrite E in E'. injection E' as <- <-. assert (Eq := of_clauses_fun _ _ _ Hq Hq'). subst qs'. exact (conv_unique _ _ _ Hr' Hr). Qed.
Lemma run_order r r2 : module_typed is_sexp S r -> (forall e, body_of r e <-> body_of r2 e) -> conv (fun n => run n r) None -> conv (fun n => run n r2) None.
Proof.
  intros HT HB HN. assert (HW : forall m, written r m <-> written r2 m) by (intros m; unfold written; split; intros (e & He & Hm); exists e; (split; [apply HB, He|exact Hm])).
  destruct (run_visits _ _ _ r (typed_checkable r HT)) as (o & Hc & Ho). assert (E := conv_unique _ _ _ HN Hc). subst o.
  assert (HT2 : module_typed is_sexp S r2) by (intros target clauses Hw; apply (HT target clauses), HW, Hw).
  destruct (run_visits _ _ _ r2 (typed_checkable r2 HT2)) as (o2 & Hc2 & Ho2). destruct o2 as [f|]; [|exact Hc2]. exfalso. destruct Ho2 as (Hw & Hj & Hn). apply Hn. assert (Hj' := Hj). destruct Hj' as (target & clauses & qs & E & _).
  exact (judged_fun _ _ _ (Ho _ (proj2 (HW _) Hw) target clauses E) Hj).
Qed.
End Validator.
