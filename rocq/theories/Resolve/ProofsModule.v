(** Declarations, and the methods of instances. *)
From Verif.Base Require Import Base BaseFacts Assoc.
From Verif.Scope Require Import Model Spec Proofs.
From Verif.Resolve Require Import Model Spec ProofsBase ProofsExpr.

Section Resolver.
Variable variant_of : N -> variant.
Variable order : stash -> stash.
Hypothesis Horder : forall st, Permutation (order st) st.

Lemma sem_each {A B} (f : A -> M B) G R l : (forall a, sem (f a) G (R a)) -> sem (m_all f l) G (Forall2 R l).
Proof. intros H. apply sem_all, Forall_forall. intros a _. apply H. Qed.
Lemma sem_under {A} bs (m : M A) G P : sem m (within bs G) P -> sem (m_on order bs m) G (fun a => distinct bs /\ P a).
Proof. apply sem_on; [exact Horder|apply Permutation_refl]. Qed.

Lemma sem_function f G : sem (resolve_function variant_of order f) G (function_ok variant_of G f).
Proof.
  unfold resolve_function. eapply sem_ext; [eapply sem_bind; [apply sem_opt; intros s _; apply sem_scheme, Horder|]|].
  - intros a Ha. destruct (ann_quantified _ _ _ _ Ha) as (E & _). rewrite E. apply sem_under, sem_under. eapply sem_bind; [apply sem_expr, Horder|]. intros e _. apply sem_ret.
  - intros [id ps a e]. unfold function_ok. cbn. split; [intros (a' & Ha & _ & HD & e' & He & [= -> -> -> ->]); auto|]. intros (-> & -> & HD & Ha & He). exists a. split; [exact Ha|]. split; [eapply ann_quantified, Ha|]. split; [exact HD|]. exists e. auto.
Qed.
Lemma sem_cfunction f G : sem (resolve_cfunction variant_of order f) G (cfunction_ok variant_of G f).
Proof.
  unfold resolve_cfunction. eapply sem_ext; [eapply sem_bind; [apply sem_ty, Horder|]; intros t _; apply sem_ret|]. intros [id t]. unfold cfunction_ok. cbn. split; [intros (t' & Ht & [= -> ->]); auto|]. intros (-> & Ht). exists t. auto.
Qed.
Lemma sem_builtin_op f G : sem (resolve_builtin_op variant_of order f) G (builtin_op_ok variant_of G f).
Proof.
  unfold resolve_builtin_op. eapply sem_ext; [eapply sem_bind; [apply sem_scheme, Horder|]; intros t _; apply sem_ret|]. intros [id t]. unfold builtin_op_ok. cbn. split; [intros (t' & Ht & [= -> ->]); auto|]. intros (-> & Ht). exists t. auto.
Qed.
Lemma sem_macro m G : sem (resolve_macro variant_of order m) G (macro_ok variant_of G m).
Proof.
  unfold resolve_macro. eapply sem_ext; [apply sem_under; eapply sem_bind; [apply sem_expr, Horder|]; intros e _; apply sem_ret|]. intros [id b e]. unfold macro_ok. cbn. split; [intros (_ & e' & He & [= -> -> ->]); auto|]. intros (-> & -> & He). split; [|exists e; auto]. repeat constructor. intros [].
Qed.
Lemma sem_value_con v G : sem (resolve_value_con variant_of order v) G (value_con_ok variant_of G v).
Proof.
  unfold resolve_value_con. eapply sem_ext; [eapply sem_bind; [apply sem_opt; intros ts _; apply sem_tys, Horder|]; intros o _; apply sem_ret|]. intros [id o]. unfold value_con_ok. cbn. split; [intros (t' & Ht & [= -> ->]); auto|]. intros (-> & Ht). exists o. auto.
Qed.
Lemma sem_type_con t G : sem (resolve_type_con variant_of order t) G (type_con_ok variant_of G t).
Proof.
  unfold resolve_type_con. eapply sem_ext; [eapply sem_bind_eq; [apply sem_typarams, Horder|]; apply sem_under; eapply sem_bind; [apply sem_each; intros v; apply sem_value_con|]; intros vs _; apply sem_ret|].
  intros [id ps vs]. unfold type_con_ok, typarams_ok. cbn. split; [intros (Ha & HD & vs' & Hv & [= -> -> ->]); auto|]. intros (-> & -> & (HD & Ha) & Hv). split; [exact Ha|]. split; [exact HD|]. exists vs. auto.
Qed.
Lemma sem_class_method m G : sem (resolve_class_method variant_of order m) G (class_method_ok variant_of G m).
Proof.
  unfold resolve_class_method. eapply sem_ext; [eapply sem_bind; [apply sem_scheme, Horder|]|].
  - intros a Ha. assert (E : scheme_defs a = quantified (Some (cm_ann m))) by (unfold scheme_defs; cbn; f_equal; apply Ha). rewrite E. apply sem_under, sem_under. eapply sem_bind; [apply sem_opt; intros e _; apply sem_expr, Horder|]. intros e _. apply sem_ret.
  - intros [id a ps o]. unfold class_method_ok. cbn. split; [intros (a' & Ha & _ & HD & e' & He & [= -> -> -> ->]); auto|]. intros (-> & -> & HD & Ha & He). exists a. split; [exact Ha|]. split; [apply Ha|]. split; [exact HD|]. exists o. auto.
Qed.
Lemma sem_class c G : sem (resolve_class variant_of order c) G (class_ok variant_of G c).
Proof.
  unfold resolve_class. eapply sem_ext.
  - eapply sem_bind_eq; [apply sem_typarams, Horder|]. eapply sem_bind; [apply sem_under, sem_constrs, Horder|]. intros ks _. apply sem_under. eapply sem_bind; [apply sem_each; intros m; apply sem_class_method|]. intros ms _. apply sem_ret.
  - intros [id ps ks ms]. unfold class_ok, typarams_ok. cbn. split; [intros (Ha & ks' & (HD & Hk) & _ & ms' & Hm & [= -> -> -> ->]); auto 10|]. intros (-> & -> & (HD & Ha) & Hk & Hm). split; [exact Ha|]. exists ks. split; [auto|]. split; [exact HD|]. exists ms. auto.
Qed.

(** Instances before their methods are looked up. *)
Definition method_mid (G : env) (m m' : inst_method) : Prop :=
  im_id m' = im_id m /\ im_params m' = im_params m /\ distinct (parameters (im_params m)) /\ optional (scheme_ok variant_of G) (im_ann m) (im_ann m') /\
  expr_ok variant_of (within (parameters (im_params m)) (within (quantified (im_ann m)) G)) (im_body m) (im_body m') /\ im_class_method m' = im_class_method m.
Definition instance_mid (G : env) (i i' : inst_con) : Prop :=
  let G' := within (map tp_binder (in_params i)) G in
  in_id i' = in_id i /\ in_sym i' = in_sym i /\ in_params i' = in_params i /\ typarams_ok (in_params i) /\
  Forall2 (constr_ok variant_of G') (in_constrs i) (in_constrs i') /\ constr_ok variant_of G' (in_target i) (in_target i') /\
  Forall2 (method_mid G') (in_methods i) (in_methods i').
Lemma sem_inst_method m G : sem (resolve_inst_method variant_of order m) G (method_mid G m).
Proof.
  unfold resolve_inst_method. eapply sem_ext; [eapply sem_bind; [apply sem_opt; intros s _; apply sem_scheme, Horder|]|].
  - intros a Ha. destruct (ann_quantified _ _ _ _ Ha) as (E & _). rewrite E. apply sem_under, sem_under. eapply sem_bind; [apply sem_expr, Horder|]. intros e _. apply sem_ret.
  - intros [id ps a e u]. unfold method_mid. cbn. split; [intros (a' & Ha & _ & HD & e' & He & [= -> -> -> -> ->]); auto 10|]. intros (-> & -> & HD & Ha & He & ->). exists a. split; [exact Ha|]. split; [eapply ann_quantified, Ha|]. split; [exact HD|]. exists e. auto.
Qed.
Lemma sem_instance i G : sem (resolve_instance variant_of order i) G (instance_mid G i).
Proof.
  unfold resolve_instance. eapply sem_ext.
  - eapply sem_bind_eq; [apply sem_typarams, Horder|].
    eapply sem_bind; [apply sem_under; eapply sem_bind; [apply sem_constrs, Horder|]; intros ks _; eapply sem_bind; [apply sem_constr, Horder|]; intros t _; apply sem_ret|].
    intros ct _. apply sem_under. eapply sem_bind; [apply sem_each; intros m; apply sem_inst_method|]. intros ms _. apply sem_ret.
  - intros [id sy ps ks t ms]. unfold instance_mid, typarams_ok. cbn. split.
    + intros (Ha & ct & (HD & ks' & Hk & t' & Ht & ->) & _ & ms' & Hm & [= -> -> -> -> -> ->]). cbn [fst snd]. auto 10.
    + intros (-> & -> & -> & (HD & Ha) & Hk & Ht & Hm). split; [exact Ha|]. exists (ks, t). split; [split; [exact HD|]; exists ks; split; [exact Hk|]; exists t; auto|]. split; [exact HD|]. exists ms. auto.
Qed.
Lemma sem_init i G : sem (resolve_init variant_of order i) G (init_ok variant_of G i).
Proof.
  destruct i as [e|m]; cbn [resolve_init].
  - eapply sem_ext; [eapply sem_bind; [apply sem_expr, Horder|]; intros e' _; apply sem_ret|]. intros [e'|m']; cbn; split; [intros (e0 & H & [= ->]); exact H|intros H; exists e'; auto|intros (e0 & _ & H); discriminate H|intros []].
  - eapply sem_ext; [apply sem_ret|]. intros [e'|m']; cbn; split; [intros H; discriminate H|intros []|intros [= ->]; reflexivity|intros ->; reflexivity].
Qed.
Definition root_mid (G : env) (r r' : root) : Prop :=
  Forall2 (function_ok variant_of G) (r_functions r) (r_functions r') /\ Forall2 (cfunction_ok variant_of G) (r_c_functions r) (r_c_functions r') /\
  Forall2 (builtin_op_ok variant_of G) (r_builtin_ops r) (r_builtin_ops r') /\ Forall2 (macro_ok variant_of G) (r_macros r) (r_macros r') /\
  Forall2 (type_con_ok variant_of G) (r_data_types r) (r_data_types r') /\ Forall2 (type_con_ok variant_of G) (r_builtin_types r) (r_builtin_types r') /\
  Forall2 (class_ok variant_of G) (r_classes r) (r_classes r') /\ Forall2 (instance_mid G) (r_instances r) (r_instances r') /\
  Forall2 (init_ok variant_of G) (r_inits r) (r_inits r').
Lemma sem_root r G : sem (resolve_root variant_of order r) G (root_mid G r).
Proof.
  unfold resolve_root. eapply sem_ext.
  - eapply sem_bind; [apply sem_each; intros a; apply sem_function|]. intros l1 _. eapply sem_bind; [apply sem_each; intros a; apply sem_cfunction|]. intros l2 _.
    eapply sem_bind; [apply sem_each; intros a; apply sem_builtin_op|]. intros l3 _. eapply sem_bind; [apply sem_each; intros a; apply sem_macro|]. intros l4 _.
    eapply sem_bind; [apply sem_each; intros a; apply sem_type_con|]. intros l5 _. eapply sem_bind; [apply sem_each; intros a; apply sem_type_con|]. intros l6 _.
    eapply sem_bind; [apply sem_each; intros a; apply sem_class|]. intros l7 _. eapply sem_bind; [apply sem_each; intros a; apply sem_instance|]. intros l8 _.
    eapply sem_bind; [apply sem_each; intros a; apply sem_init|]. intros l9 _. apply sem_ret.
  - intros [m1 m2 m3 m4 m5 m6 m7 m8 m9]. unfold root_mid. cbn. split.
    + intros (l1 & H1 & l2 & H2 & l3 & H3 & l4 & H4 & l5 & H5 & l6 & H6 & l7 & H7 & l8 & H8 & l9 & H9 & [= -> -> -> -> -> -> -> -> ->]). repeat (split; [assumption|]). assumption.
    + intros (H1 & H2 & H3 & H4 & H5 & H6 & H7 & H8 & H9). do 9 (eexists; split; [eassumption|]). reflexivity.
Qed.

(** ** Methods *)
Definition mtable : Type := list (text * (N * option nat * bool)).
Definition with_class_method (m : inst_method) (u : use) : inst_method :=
  {| im_id := im_id m; im_params := im_params m; im_ann := im_ann m; im_body := im_body m; im_class_method := u |}.
Definition link1 (tbl : mtable) (m m' : inst_method) : Prop :=
  exists s id required, im_class_method m = Unres s /\ m' = with_class_method m (Res id) /\ In (s_name s, (id, arity_of m, required)) tbl.
Definition unres (m : inst_method) : Prop := exists s, im_class_method m = Unres s.

Lemma arity_eqb_eq a b : arity_eqb a b = true <-> a = b.
Proof. destruct a as [a|], b as [b|]; cbn; try rewrite Nat.eqb_eq; split; congruence. Qed.
Lemma link_remove tbl n ms ms' : Forall2 (link1 (hremove n tbl)) ms ms' <-> Forall2 (link1 tbl) ms ms' /\ ~ In n (given_names ms).
Proof.
  revert ms'. induction ms as [|m ms IH]; intros ms'; cbn [given_names flat_map].
  - split; [intros H; inv H; split; [constructor|intros []]|]. intros (H & _). inv H. constructor.
  - split.
    + intros H. inv H. match goal with H : Forall2 _ ms _ |- _ => apply IH in H; destruct H as (HF1 & HF2) end. match goal with H : link1 _ m _ |- _ => destruct H as (s & id & rq & E & -> & Hin) end. apply in_hremove in Hin. destruct Hin as (Hin & Hn). cbn [fst] in Hn.
      split; [constructor; [exists s, id, rq; auto|exact HF1]|]. rewrite E. cbn. intros [HI|HI]; [apply Hn, HI|apply HF2, HI].
    + intros (H & Hn). inv H. match goal with H : link1 _ m _ |- _ => destruct H as (s & id & rq & E & -> & Hin) end. rewrite E in Hn. cbn in Hn. constructor.
      * exists s, id, rq. split; [exact E|]. split; [reflexivity|]. apply in_hremove. split; [exact Hin|]. cbn. intros En. apply Hn. left. exact En.
      * apply IH. split; [assumption|]. intros Hi. apply Hn. right. exact Hi.
Qed.
Lemma link_methods_ok ms : forall tbl, NoDup (keys tbl) -> Forall unres ms ->
  match link_methods tbl ms with
  | Good (ms', tbl') => (forall ms2, Forall2 (link1 tbl) ms ms2 /\ NoDup (given_names ms) <-> ms2 = ms') /\ (forall e, In e tbl' <-> In e tbl /\ ~ In (fst e) (given_names ms))
  | Bad _ => forall ms2, ~ (Forall2 (link1 tbl) ms ms2 /\ NoDup (given_names ms))
  end.
Proof.
  induction ms as [|m ms IH]; intros tbl HD HU; cbn [link_methods].
  - split; [|cbn; tauto]. intros ms2. split; [intros (H & _); inv H; reflexivity|]. intros ->. split; constructor.
  - inversion_clear HU as [|? ? (s & E) HU']. rewrite E. assert (Eg : given_names (m :: ms) = s_name s :: given_names ms) by (cbn; rewrite E; reflexivity). rewrite Eg.
    destruct (hget (s_name s) tbl) as [[[id ar] rq]|] eqn:Eh.
    + assert (Hin : In (s_name s, (id, ar, rq)) tbl) by (apply (hget_in _ _ _ HD); exact Eh).
      assert (Hone : forall id' ar' rq', In (s_name s, (id', ar', rq')) tbl -> id' = id /\ ar' = ar).
      { intros id' ar' rq' Hin'. apply (hget_in _ _ _ HD) in Hin'. rewrite Eh in Hin'. injection Hin' as <- <- _. auto. }
      destruct (arity_eqb ar (arity_of m)) eqn:Ea.
      * apply arity_eqb_eq in Ea. assert (HD' : NoDup (keys (hremove (s_name s) tbl))) by (apply nodup_hremove, HD). specialize (IH (hremove (s_name s) tbl) HD' HU').
        destruct (link_methods (hremove (s_name s) tbl) ms) as [[ms' tbl']|e].
        -- destruct IH as (IH1 & IH2). split.
           ++ intros ms2. split.
              ** intros (HF & HN). inv HF. inversion_clear HN as [|? ? Hn HN']. match goal with H : link1 _ m _ |- _ => destruct H as (s' & id' & rq' & E' & -> & Hin') end. rewrite E in E'. injection E' as <-. destruct (Hone _ _ _ Hin') as (-> & _). f_equal.
                 apply IH1. split; [apply link_remove; split; assumption|exact HN'].
              ** intros ->. specialize (proj2 (IH1 ms') eq_refl). intros (HF & HN). apply link_remove in HF. destruct HF as (HF & Hn). split; [constructor; [exists s, id, rq; subst ar; auto|exact HF]|]. constructor; assumption.
           ++ intros e. rewrite IH2, in_hremove. cbn [In]. split; [intros ((H1 & H2) & H3); split; [exact H1|]; intros [H|H]; [apply H2; symmetry; exact H|apply H3, H]|].
              intros (H1 & H2). split; [split; [exact H1|]|]; intros H; apply H2; [left; symmetry; exact H|right; exact H].
        -- intros ms2 (HF & HN). inv HF. inversion_clear HN as [|? ? Hn HN']. eapply IH. split; [apply link_remove; split; eassumption|exact HN'].
      * intros ms2 (HF & _). inv HF. match goal with H : link1 _ m _ |- _ => destruct H as (s' & id' & rq' & E' & _ & Hin') end. rewrite E in E'. injection E' as <-. destruct (Hone _ _ _ Hin') as (_ & Ha). rewrite <- Ha in Ea. assert (Et : arity_eqb (arity_of m) (arity_of m) = true) by (apply arity_eqb_eq; reflexivity). congruence.
    + intros ms2 (HF & _). inv HF. match goal with H : link1 _ m _ |- _ => destruct H as (s' & id' & rq' & E' & _ & Hin') end. rewrite E in E'. injection E' as <-. apply (hget_in _ _ _ HD) in Hin'. congruence.
Qed.
Lemma collect_ok l : forall t : mtable, NoDup (keys t) -> NoDup (map fst l) -> (forall n, In n (map fst l) -> ~ In n (keys t)) ->
  let t' := fold_left (fun t e => hinsert (fst e) (snd e) t) l t in NoDup (keys t') /\ forall e, In e t' <-> In e t \/ In e l.
Proof.
  induction l as [|[n v] l IH]; intros t HD HN Hd; cbn [fold_left]; [split; [exact HD|]; intros e; cbn; tauto|]. cbn [map fst snd] in *. inversion_clear HN as [|? ? Hn HN'].
  assert (Hd' : forall n0, In n0 (map fst l) -> ~ In n0 (keys (hinsert n v t))).
  { intros n0 Hin H. unfold hinsert in H. cbn [keys map fst] in H. destruct H as [->|H]; [contradiction|]. apply keys_hremove in H. apply (Hd n0 (or_intror Hin)), H. }
  destruct (IH (hinsert n v t) (nodup_hinsert _ _ _ HD) HN' Hd') as (H1 & H2). split; [exact H1|]. intros e. rewrite H2. unfold hinsert. cbn [In]. rewrite in_hremove. split.
  - intros [[<-|(H & _)]|H]; auto.
  - intros [H|[<-|H]]; [|left; left; reflexivity|auto]. left. right. split; [exact H|]. intros E. apply (Hd n (or_introl eq_refl)). rewrite <- E. apply in_map, H.
Qed.

Lemma forall2_ext {A B} (R S : A -> B -> Prop) l l' : (forall a b, R a b <-> S a b) -> Forall2 R l l' <-> Forall2 S l l'.
Proof. intros E. split; intros H; (induction H as [|a b l l' Hab _ IH]; [constructor|constructor; [apply E, Hab|exact IH]]). Qed.

Section Link.
Variable class_of : N -> option class_info.
Definition linked (ci : class_info) (i i' : inst_con) : Prop :=
  in_id i' = in_id i /\ in_sym i' = in_sym i /\ in_params i' = in_params i /\ in_constrs i' = in_constrs i /\ in_target i' = in_target i /\
  (ci_sealed ci = true -> ci_here ci = true) /\
  Forall2 (link1 (ci_methods ci)) (in_methods i) (in_methods i') /\ NoDup (given_names (in_methods i)) /\
  forall n id arity, In (n, (id, arity, true)) (ci_methods ci) -> In n (given_names (in_methods i)).

Lemma link_instance_ok i c ci : k_class (in_target i) = Res c -> class_of c = Some ci -> NoDup (map fst (ci_methods ci)) -> Forall unres (in_methods i) ->
  exists r, link_instance class_of i = Ret r /\ match r with Good i' => forall b, linked ci i b <-> b = i' | Bad _ => forall b, ~ linked ci i b end.
Proof.
  intros Ek Ec HN HU. unfold link_instance. rewrite Ek, Ec. cbv zeta. destruct (collect_ok (ci_methods ci) [] ltac:(constructor) HN ltac:(intros n _ [])) as (HD & Hin).
  set (tbl := fold_left (fun t e => hinsert (fst e) (snd e) t) (ci_methods ci) []) in *.
  destruct (ci_sealed ci && negb (ci_here ci)) eqn:Es; (eexists; split; [reflexivity|]); cbn beta iota.
  - intros b (_ & _ & _ & _ & _ & H & _). apply andb_true_iff in Es. destruct Es as (E1 & E2). rewrite (H E1) in E2. discriminate.
  - assert (Hsealed : ci_sealed ci = true -> ci_here ci = true) by (intros E; rewrite E in Es; destruct (ci_here ci); [reflexivity|discriminate]).
    assert (Heq : forall ms, Forall2 (link1 tbl) (in_methods i) ms <-> Forall2 (link1 (ci_methods ci)) (in_methods i) ms).
    { assert (H1 : forall m m', link1 tbl m m' <-> link1 (ci_methods ci) m m') by (intros m m'; split; intros (s & id & rq & E & E' & H); exists s, id, rq; (split; [exact E|split; [exact E'|]]); apply Hin in H || apply Hin; cbn in *; tauto).
      intros ms. apply forall2_ext, H1. }
    assert (H := link_methods_ok (in_methods i) tbl HD HU). destruct (link_methods tbl (in_methods i)) as [[ms tbl']|e].
    + destruct H as (H & Hrest). assert (Hms := proj2 (H ms) eq_refl). destruct (find (fun e => snd (snd e)) tbl') as [[n v]|] eqn:Ef.
      * apply find_some in Ef. destruct Ef as (Hf & Hv). cbn [snd] in Hv. apply Hrest in Hf. destruct Hf as (Hf & Hn). apply Hin in Hf. cbn [In fst] in Hf, Hn. destruct Hf as [[]|Hf].
        intros b (_ & _ & _ & _ & _ & _ & _ & _ & Hreq). apply Hn. destruct v as [[id ar] rq]. cbn in Hv. subst rq. exact (Hreq _ _ _ Hf).
      * intros b. split.
        -- intros (E1 & E2 & E3 & E4 & E5 & _ & HF & HND & _). destruct b as [bi bs bp bc bt bm]. cbn in *. subst. f_equal. apply H. split; [apply Heq, HF|exact HND].
        -- intros ->. unfold linked. cbn. do 5 (split; [reflexivity|]). split; [exact Hsealed|]. split; [apply Heq, Hms|]. split; [apply Hms|]. intros n id ar Hreq.
           destruct (in_dec (list_eq_dec N.eq_dec) n (given_names (in_methods i))) as [Hi|Hi]; [exact Hi|]. exfalso.
           assert (Ht : In (n, (id, ar, true)) tbl') by (apply Hrest; split; [apply Hin; right; exact Hreq|exact Hi]). apply (find_none _ _ Ef) in Ht. discriminate.
    + intros b (_ & _ & _ & _ & _ & _ & HF & HND & _). apply (H (in_methods b)). split; [apply Heq, HF|exact HND].
Qed.

Definition ready (i : inst_con) : Prop :=
  Forall unres (in_methods i) /\ exists c ci, k_class (in_target i) = Res c /\ class_of c = Some ci /\ NoDup (map fst (ci_methods ci)).
Definition linked_ (i i' : inst_con) : Prop := exists c ci, k_class (in_target i) = Res c /\ class_of c = Some ci /\ linked ci i i'.
Lemma link_all_ok l : Forall ready l ->
  exists r, link_all class_of l = Ret r /\ match r with Good l' => forall b, Forall2 linked_ l b <-> b = l' | Bad _ => forall b, ~ Forall2 linked_ l b end.
Proof.
  intros H. induction H as [|i l (HU & c & ci & Ek & Ec & HN) _ IH]; cbn [link_all].
  - exists (Good []). split; [reflexivity|]. intros b. split; [intros H; inv H; reflexivity|intros ->; constructor].
  - destruct (link_instance_ok i c ci Ek Ec HN HU) as (r & E & Hr). rewrite E. cbn [bind].
    assert (H1 : forall b, linked_ i b <-> linked ci i b).
    { intros b. split; [|intros H; exists c, ci; auto]. intros (c' & ci' & Ek' & Ec' & H). rewrite Ek in Ek'. injection Ek' as <-. rewrite Ec in Ec'. injection Ec' as <-. exact H. }
    destruct r as [i'|e].
    + destruct IH as (rl & El & Hl). rewrite El. cbn [bind]. eexists. split; [reflexivity|]. destruct rl as [l'|e].
      * intros b. split.
        -- intros H. inv H. f_equal; [apply Hr, H1; assumption|apply Hl; assumption].
        -- intros ->. constructor; [apply H1, Hr; reflexivity|apply Hl; reflexivity].
      * intros b H. inv H. eapply Hl. eassumption.
    + eexists. split; [reflexivity|]. intros b H. inv H. eapply Hr, H1. eassumption.
Qed.

Lemma method_compose G ci m m' : (exists x, method_mid G m x /\ link1 (ci_methods ci) x m') <-> method_ok variant_of G ci m m'.
Proof.
  unfold method_mid, method_ok, link1, arity_of. split.
  - intros (x & (E1 & E2 & HD & Ha & He & Ec) & s & id & rq & Es & -> & Hin). cbn. rewrite E2 in Hin. split; [exact E1|]. split; [exact E2|]. do 3 (split; [assumption|]). exists s, id, rq. split; [congruence|]. split; [reflexivity|exact Hin].
  - intros (E1 & E2 & HD & Ha & He & s & id & rq & Es & Es' & Hin). exists (with_class_method m' (Unres s)). cbn. rewrite E2, E1. split; [repeat (split; [try reflexivity; assumption|]); congruence|].
    exists s, id, rq. split; [reflexivity|]. split; [|exact Hin]. destruct m' as [a b c d e]. cbn in *. unfold with_class_method. cbn. congruence.
Qed.
Lemma forall2_compose {A B C} (R : A -> B -> Prop) (S : B -> C -> Prop) l l' : (exists x, Forall2 R l x /\ Forall2 S x l') <-> Forall2 (fun a c => exists b, R a b /\ S b c) l l'.
Proof.
  split.
  - intros (x & H & H'). revert l' H'. induction H as [|a b l x Hab _ IH]; intros l' H'; inv H'; constructor; [exists b; auto|apply IH; assumption].
  - intros H. induction H as [|a c l l' (b & H1 & H2) _ (x & Hx & Hx')]; [exists []; auto|]. exists (b :: x). split; constructor; assumption.
Qed.
Lemma given_mid G ms ms' : Forall2 (method_mid G) ms ms' -> given_names ms' = given_names ms.
Proof. unfold given_names. intros H. induction H as [|m m' l l' Hm _ IH]; [reflexivity|]. cbn [flat_map]. rewrite IH. f_equal. destruct Hm as (_ & _ & _ & _ & _ & ->). reflexivity. Qed.
Lemma instance_compose G i i' : (exists x, instance_mid G i x /\ linked_ x i') <-> instance_ok variant_of class_of G i i'.
Proof.
  unfold instance_mid, instance_ok, linked_, linked. cbv zeta. set (G' := within (map tp_binder (in_params i)) G). split.
  - intros (x & (E1 & E2 & E3 & Hp & Hk & Ht & Hm) & c & ci & Ek & Ec & F1 & F2 & F3 & F4 & F5 & Hs & Hl & HN & Hr). rewrite F1, F2, F3, F4, F5. do 3 (split; [assumption|]). do 3 (split; [assumption|]).
    exists c, ci. rewrite (given_mid _ _ _ Hm) in *. do 3 (split; [assumption|]). split; [|split; assumption]. eapply forall2_ext; [intros a b; symmetry; apply method_compose|]. apply forall2_compose. eauto.
  - intros (E1 & E2 & E3 & Hp & Hk & Ht & c & ci & Ek & Ec & Hs & Hm & HN & Hr). eapply forall2_ext in Hm; [|intros a b; apply method_compose]. apply forall2_compose in Hm. destruct Hm as (ms & Hm & Hl).
    exists {| in_id := in_id i'; in_sym := in_sym i'; in_params := in_params i'; in_constrs := in_constrs i'; in_target := in_target i'; in_methods := ms |}. cbn [in_id in_sym in_params in_constrs in_target in_methods]. split; [repeat (split; [assumption|]); assumption|].
    exists c, ci. rewrite (given_mid _ _ _ Hm). do 2 (split; [assumption|]). do 5 (split; [reflexivity|]). repeat (split; [assumption|]). assumption.
Qed.

Lemma run_exact_all top r (G : env) :
  NoDup (keys top) -> (forall n c, G n = Some c <-> names_in top n c) -> classes_known variant_of class_of -> targets_named r -> methods_named r ->
  exists x, run variant_of order class_of top r = Ret x /\ forall r', x = Good r' <-> module_ok variant_of class_of G r r'.
Proof.
  intros HD HG HC HT HM. unfold run.
  assert (Hi : inv {| map_ := top; stashes := [] |} {| Scope.Spec.top := top; inner := [] |} G).
  { split; [split; [intros n; unfold meaning; cbn; symmetry; apply find_in_hget|constructor]|]. intros n. unfold meaning. cbn. rewrite find_in_hget. destruct (G n) as [c|] eqn:E.
    - apply HG in E. destruct E as (lc & Hin & <-). apply (hget_in _ _ _ HD) in Hin. rewrite Hin. reflexivity.
    - destruct (hget n top) as [lc|] eqn:Eh; [|reflexivity]. apply (hget_in _ _ _ HD) in Eh. assert (G n = Some (construct lc)) by (apply HG; exists lc; auto). congruence. }
  destruct (sem_root r G _ _ Hi) as (s' & x & E & Hx). rewrite E. cbn [bind]. destruct x as [m|e].
  - destruct Hx as (_ & Hx). assert (Hm := proj2 (Hx m) eq_refl). destruct Hm as (M1 & M2 & M3 & M4 & M5 & M6 & M7 & M8 & M9).
    assert (Hready : Forall ready (r_instances m)).
    { unfold targets_named, methods_named in *. clear -M8 HT HM HC. induction M8 as [|i i' l l' Hi _ IH]; constructor.
      - destruct Hi as (_ & _ & _ & _ & _ & (Ht & _) & Hms). split.
        + assert (Hu : forall a, In a (in_methods i) -> unres a) by (intros a Ha; exact (HM i a (or_introl eq_refl) Ha)). clear -Hms Hu. induction Hms as [|a b l l' Hab _ IH]; constructor; [|apply IH; intros x Hx; apply Hu; right; exact Hx].
          destruct Hab as (_ & _ & _ & _ & _ & Ec). destruct (Hu a (or_introl eq_refl)) as (s & Es). exists s. congruence.
        + destruct (HT i (or_introl eq_refl)) as (s & Es). rewrite Es in Ht. inversion Ht as [s0 c0 HGc Hcls E1 E2|]. destruct (HC _ Hcls) as (ci & Eci & HN). exists c0, ci. split; [reflexivity|]. split; [exact Eci|exact HN].
      - apply IH; intros; [eapply HT|eapply HM]; try (right; eassumption); eassumption. }
    destruct (link_all_ok _ Hready) as (y & El & Hl). rewrite El. cbn [bind]. eexists. split; [reflexivity|]. intros r'.
    assert (Hiff : module_ok variant_of class_of G r r' <->
      r_functions r' = r_functions m /\ r_c_functions r' = r_c_functions m /\ r_builtin_ops r' = r_builtin_ops m /\ r_macros r' = r_macros m /\
      r_data_types r' = r_data_types m /\ r_builtin_types r' = r_builtin_types m /\ r_classes r' = r_classes m /\ r_inits r' = r_inits m /\ Forall2 linked_ (r_instances m) (r_instances r')).
    { unfold module_ok. split.
      - intros (N1 & N2 & N3 & N4 & N5 & N6 & N7 & N8 & N9). eapply forall2_ext in N8; [|intros a b; apply instance_compose]. apply forall2_compose in N8. destruct N8 as (is & Ha & Hb).
        assert (Em : {| r_functions := r_functions r'; r_c_functions := r_c_functions r'; r_builtin_ops := r_builtin_ops r'; r_macros := r_macros r'; r_data_types := r_data_types r'; r_builtin_types := r_builtin_types r'; r_classes := r_classes r'; r_instances := is; r_inits := r_inits r' |} = m).
        { apply Hx. unfold root_mid. cbn. repeat (split; [assumption|]). assumption. }
        rewrite <- Em. cbn. do 8 (split; [reflexivity|]). exact Hb.
      - intros (-> & -> & -> & -> & -> & -> & -> & -> & Hlk). repeat (split; [assumption|]). split; [|assumption]. eapply forall2_ext; [intros a b; symmetry; apply instance_compose|]. apply forall2_compose. eauto. }
    rewrite Hiff. destruct y as [l|e].
    + split; [intros [= <-]; cbn; do 8 (split; [reflexivity|]); apply Hl; reflexivity|]. destruct r' as [x1 x2 x3 x4 x5 x6 x7 x8 x9]. cbn. intros (-> & -> & -> & -> & -> & -> & -> & -> & Hlk). apply Hl in Hlk. subst. reflexivity.
    + split; [discriminate|]. intros (_ & _ & _ & _ & _ & _ & _ & _ & Hlk). exfalso. exact (Hl _ Hlk).
  - eexists. split; [reflexivity|]. intros r'. split; [discriminate|]. intros (N1 & N2 & N3 & N4 & N5 & N6 & N7 & N8 & N9). exfalso.
    eapply forall2_ext in N8; [|intros a b; apply instance_compose]. apply forall2_compose in N8. destruct N8 as (is & Ha & Hb).
    apply (Hx {| r_functions := r_functions r'; r_c_functions := r_c_functions r'; r_builtin_ops := r_builtin_ops r'; r_macros := r_macros r'; r_data_types := r_data_types r'; r_builtin_types := r_builtin_types r'; r_classes := r_classes r'; r_instances := is; r_inits := r_inits r' |}).
    unfold root_mid. cbn. repeat (split; [assumption|]). assumption.
Qed.
End Link.
End Resolver.
