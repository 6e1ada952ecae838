(** Errors of whole modules report faults. *)
From Verif.Base Require Import Base BaseFacts Assoc.
From Verif.Scope Require Import Model Spec Proofs.
From Verif.Resolve Require Import Model Spec SpecFaults ProofsBase ProofsExpr ProofsModule ProofsFaults.

Section Resolver.
Variable variant_of : N -> variant.
Variable order : stash -> stash.
Hypothesis Horder : forall st, Permutation (order st) st.

Lemma not_twice bs e : distinct bs -> ~ twice bs e.
Proof. intros HD (b1 & b2 & rest & HP & En & _). apply (distinct_perm _ _ HP) in HD. unfold distinct in HD. cbn in HD. inversion_clear HD as [|? ? Hn _]. apply Hn. left. symmetry. exact En. Qed.

Lemma err_function f G : err (resolve_function variant_of order f) G (routine_fault variant_of G (f_ann f) (f_params f) (Some (f_body f))).
Proof.
  unfold resolve_function. eapply err_bind; [apply sem_opt; intros s _; apply sem_scheme, Horder|eapply err_opt; [intros s _; apply sem_scheme, Horder|]|].
  - intros s Es. eapply err_mono; [apply err_scheme, Horder|]. intros e. apply rf_ann, Es.
  - intros a Ha. destruct (ann_quantified _ _ _ _ Ha) as (E & HD). rewrite E. apply err_under; [exact Horder|intros e He; destruct (not_twice _ _ HD He)|].
    apply err_under; [exact Horder|intros e; apply rf_params|]. eapply err_bind; [apply sem_expr, Horder|eapply err_mono; [apply err_expr, Horder|]; intros e; apply rf_body; reflexivity|]. intros e _. apply err_ret.
Qed.
Lemma err_inst_method m G : err (resolve_inst_method variant_of order m) G (routine_fault variant_of G (im_ann m) (im_params m) (Some (im_body m))).
Proof.
  unfold resolve_inst_method. eapply err_bind; [apply sem_opt; intros s _; apply sem_scheme, Horder|eapply err_opt; [intros s _; apply sem_scheme, Horder|]|].
  - intros s Es. eapply err_mono; [apply err_scheme, Horder|]. intros e. apply rf_ann, Es.
  - intros a Ha. destruct (ann_quantified _ _ _ _ Ha) as (E & HD). rewrite E. apply err_under; [exact Horder|intros e He; destruct (not_twice _ _ HD He)|].
    apply err_under; [exact Horder|intros e; apply rf_params|]. eapply err_bind; [apply sem_expr, Horder|eapply err_mono; [apply err_expr, Horder|]; intros e; apply rf_body; reflexivity|]. intros e _. apply err_ret.
Qed.
Lemma err_class_method m G : err (resolve_class_method variant_of order m) G (routine_fault variant_of G (Some (cm_ann m)) (cm_params m) (cm_default m)).
Proof.
  unfold resolve_class_method. eapply err_bind; [apply sem_scheme, Horder|eapply err_mono; [apply err_scheme, Horder|]; intros e; apply rf_ann; reflexivity|].
  intros a Ha. assert (HD : distinct (quantified (Some (cm_ann m)))) by apply Ha. assert (E : scheme_defs a = quantified (Some (cm_ann m))) by (unfold scheme_defs; cbn; f_equal; apply Ha). rewrite E.
  apply err_under; [exact Horder|intros e He; destruct (not_twice _ _ HD He)|].
  apply err_under; [exact Horder|intros e; apply rf_params|]. eapply err_bind; [apply sem_opt; intros e _; apply sem_expr, Horder|eapply err_opt; [intros e _; apply sem_expr, Horder|]; intros b Eb; eapply err_mono; [apply err_expr, Horder|]; intros e; apply rf_body, Eb|]. intros e _. apply err_ret.
Qed.

Variable class_of : N -> option class_info.
Notation fault G r := (module_fault variant_of class_of G r).

Lemma err_type_con t G r : In t (r_data_types r ++ r_builtin_types r) -> err (resolve_type_con variant_of order t) G (fault G r).
Proof.
  intros Ht. unfold resolve_type_con. eapply err_bind; [apply sem_typarams, Horder|apply err_typarams; [exact Horder|]; intros p k e Hp Ek Hk; apply (mo_type_params _ _ _ _ t _ Ht); eapply pf_kind; eassumption|]. intros ps (_ & ->).
  apply err_under; [exact Horder|intros e He; apply (mo_type_params _ _ _ _ t _ Ht), pf_twice, He|]. eapply err_bind; [apply sem_each; intros v; apply sem_value_con, Horder|eapply err_all; [intros v _; apply sem_value_con, Horder|]|intros vs _; apply err_ret].
  intros v Hv. unfold resolve_value_con. eapply err_bind; [apply sem_opt; intros ts _; apply sem_tys, Horder|eapply err_opt; [intros ts _; apply sem_tys, Horder|]|intros o _; apply err_ret].
  intros ts Ets. eapply err_all; [intros a _; apply sem_ty, Horder|]. intros a Ha. eapply err_mono; [apply err_ty, Horder|]. intros e. apply (mo_field _ _ _ _ t v ts a e Ht Hv Ets Ha).
Qed.
Lemma err_class c G r : In c (r_classes r) -> err (resolve_class variant_of order c) G (fault G r).
Proof.
  intros Hc. unfold resolve_class. eapply err_bind; [apply sem_typarams, Horder|apply err_typarams; [exact Horder|]; intros p k e Hp Ek Hk; apply (mo_class_params _ _ _ _ c _ Hc); eapply pf_kind; eassumption|]. intros ps (_ & ->).
  eapply err_bind; [apply sem_under; [exact Horder|]; apply sem_constrs, Horder| |].
  - apply err_under; [exact Horder|intros e He; apply (mo_class_params _ _ _ _ c _ Hc), pf_twice, He|]. apply err_constrs; [exact Horder|]. intros k e Hk. apply (mo_super _ _ _ _ c k e Hc Hk).
  - intros ks _. apply err_under; [exact Horder|intros e He; apply (mo_class_params _ _ _ _ c _ Hc), pf_twice, He|]. eapply err_bind; [apply sem_each; intros m; apply sem_class_method, Horder|eapply err_all; [intros m _; apply sem_class_method, Horder|]|intros ms _; apply err_ret].
    intros m Hm. eapply err_mono; [apply err_class_method|]. intros e. apply (mo_class_method _ _ _ _ c m e Hc Hm).
Qed.
Lemma err_instance i G r : In i (r_instances r) -> err (resolve_instance variant_of order i) G (fault G r).
Proof.
  intros Hi. unfold resolve_instance. eapply err_bind; [apply sem_typarams, Horder|apply err_typarams; [exact Horder|]; intros p k e Hp Ek Hk; apply (mo_inst_params _ _ _ _ i _ Hi); eapply pf_kind; eassumption|]. intros ps (_ & ->).
  eapply err_bind; [apply sem_under; [exact Horder|]; eapply sem_bind; [apply sem_constrs, Horder|]; intros ks _; eapply sem_bind; [apply sem_constr, Horder|]; intros t _; apply sem_ret| |].
  - apply err_under; [exact Horder|intros e He; apply (mo_inst_params _ _ _ _ i _ Hi), pf_twice, He|]. eapply err_bind; [apply sem_constrs, Horder|apply err_constrs; [exact Horder|]; intros k e Hk; apply (mo_inst_constr _ _ _ _ i k e Hi (or_intror Hk))|].
    intros ks _. eapply err_bind; [apply sem_constr, Horder|eapply err_mono; [apply err_constr, Horder|]; intros e; apply (mo_inst_constr _ _ _ _ i _ e Hi (or_introl eq_refl))|]. intros t _. apply err_ret.
  - intros ct _. apply err_under; [exact Horder|intros e He; apply (mo_inst_params _ _ _ _ i _ Hi), pf_twice, He|]. eapply err_bind; [apply sem_each; intros m; apply sem_inst_method, Horder|eapply err_all; [intros m _; apply sem_inst_method, Horder|]|intros ms _; apply err_ret].
    intros m Hm. eapply err_mono; [apply err_inst_method|]. intros e. apply (mo_inst_method _ _ _ _ i m e Hi Hm).
Qed.
Lemma err_root r G : err (resolve_root variant_of order r) G (fault G r).
Proof.
  unfold resolve_root.
  eapply err_bind; [apply sem_each; intros a; apply sem_function, Horder|eapply err_all; [intros a _; apply sem_function, Horder|]; intros a Ha; eapply err_mono; [apply err_function|]; intros e; apply mo_function, Ha|]. intros l1 _.
  eapply err_bind; [apply sem_each; intros a; apply sem_cfunction, Horder|eapply err_all; [intros a _; apply sem_cfunction, Horder|]|].
  { intros a Ha. unfold resolve_cfunction. eapply err_bind; [apply sem_ty, Horder|eapply err_mono; [apply err_ty, Horder|]; intros e; apply mo_c_function, Ha|]. intros t _. apply err_ret. }
  intros l2 _. eapply err_bind; [apply sem_each; intros a; apply sem_builtin_op, Horder|eapply err_all; [intros a _; apply sem_builtin_op, Horder|]|].
  { intros a Ha. unfold resolve_builtin_op. eapply err_bind; [apply sem_scheme, Horder|eapply err_mono; [apply err_scheme, Horder|]; intros e; apply mo_builtin_op, Ha|]. intros t _. apply err_ret. }
  intros l3 _. eapply err_bind; [apply sem_each; intros a; apply sem_macro, Horder|eapply err_all; [intros a _; apply sem_macro, Horder|]|].
  { intros a Ha. unfold resolve_macro. apply err_under; [exact Horder|intros e He; exfalso; refine (not_twice _ _ _ He); repeat constructor; intros []|]. eapply err_bind; [apply sem_expr, Horder|eapply err_mono; [apply err_expr, Horder|]; intros e; apply mo_macro, Ha|]. intros t _. apply err_ret. }
  intros l4 _. eapply err_bind; [apply sem_each; intros a; apply sem_type_con, Horder|eapply err_all; [intros a _; apply sem_type_con, Horder|]; intros a Ha; apply err_type_con, in_or_app; left; exact Ha|].
  intros l5 _. eapply err_bind; [apply sem_each; intros a; apply sem_type_con, Horder|eapply err_all; [intros a _; apply sem_type_con, Horder|]; intros a Ha; apply err_type_con, in_or_app; right; exact Ha|].
  intros l6 _. eapply err_bind; [apply sem_each; intros a; apply sem_class, Horder|eapply err_all; [intros a _; apply sem_class, Horder|]; intros a Ha; apply err_class, Ha|].
  intros l7 _. eapply err_bind; [apply sem_each; intros a; apply sem_instance, Horder|eapply err_all; [intros a _; apply sem_instance, Horder|]; intros a Ha; apply err_instance, Ha|].
  intros l8 _. eapply err_bind; [apply sem_each; intros a; apply sem_init, Horder|eapply err_all; [intros a _; apply sem_init, Horder|]|intros l9 _; apply err_ret].
  intros a Ha. destruct a as [x|m]; cbn [resolve_init]; [|apply err_ret]. eapply err_bind; [apply sem_expr, Horder|eapply err_mono; [apply err_expr, Horder|]; intros e; apply mo_init, Ha|]. intros t _. apply err_ret.
Qed.

(** ** The methods of instances *)
Lemma given_app a b : given_names (a ++ b) = given_names a ++ given_names b.
Proof. unfold given_names. apply flat_map_app. Qed.
Lemma link_methods_err i ci ms : forall before tbl e, in_methods i = before ++ ms -> NoDup (keys tbl) ->
  (forall x, In x tbl <-> In x (ci_methods ci) /\ ~ In (fst x) (given_names before)) -> link_methods tbl ms = Bad e -> methods_fault i ci e.
Proof.
  induction ms as [|m ms IH]; intros before tbl e Ei HD Ht H; cbn [link_methods] in H; [discriminate H|].
  assert (Hm : In m (in_methods i)) by (rewrite Ei; apply in_or_app; right; left; reflexivity).
  assert (Ei' : in_methods i = (before ++ [m]) ++ ms) by (rewrite <- app_assoc; exact Ei).
  destruct (im_class_method m) as [s|c] eqn:Em.
  - destruct (hget (s_name s) tbl) as [[[id ar] rq]|] eqn:Eh.
    + assert (Hin : In (s_name s, (id, ar, rq)) (ci_methods ci)) by (apply Ht, (hget_in _ _ _ HD), Eh). destruct (arity_eqb ar (arity_of m)) eqn:Ea.
      * destruct (link_methods (hremove (s_name s) tbl) ms) as [[ms' tbl']|x] eqn:El; [discriminate H|]. injection H as ->. refine (IH _ _ _ Ei' (nodup_hremove _ _ HD) _ El).
        intros x. rewrite in_hremove, Ht, given_app, in_app_iff. cbn [given_names flat_map]. rewrite Em. cbn [app In]. split; [intros ((H1 & H2) & H3)|intros (H1 & H2)]; (split; [try split|]; intuition congruence).
      * injection H as <-. apply (mf_arity i ci m s id ar rq Hm Em Hin). intros E. apply arity_eqb_eq in E. unfold arity_of in Ea. congruence.
    + injection H as <-. assert (Hnot : ~ In (s_name s) (keys tbl)) by (apply hget_none, Eh). destruct (in_dec (list_eq_dec N.eq_dec) (s_name s) (given_names before)) as [Hb|Hb].
      * exact (mf_again i ci before m ms s Ei Em Hb).
      * apply (mf_unknown i ci m s Hm Em). intros Hk. apply in_map_iff in Hk. destruct Hk as (x & Ex & Hx). apply Hnot. unfold keys. apply in_map_iff. exists x. split; [exact Ex|]. apply Ht. split; [exact Hx|]. rewrite Ex. exact Hb.
  - destruct (link_methods tbl ms) as [[ms' tbl']|x] eqn:El; [discriminate H|]. injection H as ->. refine (IH _ _ _ Ei' HD _ El). intros x. rewrite Ht, given_app. cbn [given_names flat_map]. rewrite Em, app_nil_r. reflexivity.
Qed.
Lemma link_instance_err i c ci e : k_class (in_target i) = Res c -> class_of c = Some ci -> NoDup (map fst (ci_methods ci)) -> Forall unres (in_methods i) ->
  link_instance class_of i = Ret (Bad e) -> methods_fault i ci e.
Proof.
  intros Ek Ec HN HU H. unfold link_instance in H. rewrite Ek, Ec in H. cbv zeta in H. destruct (collect_ok variant_of (ci_methods ci) [] ltac:(constructor) HN ltac:(intros n _ [])) as (HD & Hin).
  set (tbl := fold_left (fun t e => hinsert (fst e) (snd e) t) (ci_methods ci) []) in *. destruct (ci_sealed ci && negb (ci_here ci)) eqn:Es.
  - injection H as <-. apply andb_true_iff in Es. destruct Es as (E1 & E2). constructor; [exact E1|]. destruct (ci_here ci); [discriminate|reflexivity].
  - assert (Ht : forall x, In x tbl <-> In x (ci_methods ci) /\ ~ In (fst x) (given_names [])) by (intros x; rewrite Hin; cbn; tauto). injection H as H.
    assert (Hl := link_methods_ok variant_of (in_methods i) tbl HD HU). destruct (link_methods tbl (in_methods i)) as [[ms tbl']|x] eqn:El.
    + destruct Hl as (_ & Hrest). destruct (find (fun e => snd (snd e)) tbl') as [[n v]|] eqn:Ef; [|discriminate H]. injection H as <-. apply find_some in Ef. destruct Ef as (Hf & Hv). destruct v as [[id ar] rq]. cbn [snd] in Hv. subst rq.
      apply Hrest in Hf. destruct Hf as (Hf & Hn). apply Hin in Hf. destruct Hf as [[]|Hf]. exact (mf_missing i ci n id ar Hf Hn).
    + injection H as <-. exact (link_methods_err i ci (in_methods i) [] tbl x eq_refl HD Ht El).
Qed.
Lemma link_all_err l e : Forall (ready class_of) l -> link_all class_of l = Ret (Bad e) ->
  exists i c ci, In i l /\ k_class (in_target i) = Res c /\ class_of c = Some ci /\ methods_fault i ci e.
Proof.
  intros HR. induction HR as [|i l (HU & c & ci & Ek & Ec & HN) _ IH]; intros H; cbn [link_all] in H; [discriminate H|].
  destruct (link_instance class_of i) as [[i'|x]| |] eqn:Ei; cbn [bind] in H; try discriminate H.
  - destruct (link_all class_of l) as [[l'|y]| |]; cbn [bind] in H; try discriminate H. injection H as ->. destruct (IH eq_refl) as (j & c' & ci' & Hj & H'). exists j, c', ci'. split; [right; exact Hj|exact H'].
  - injection H as ->. exists i, c, ci. split; [left; reflexivity|]. split; [exact Ek|]. split; [exact Ec|]. exact (link_instance_err i c ci e Ek Ec HN HU Ei).
Qed.
Lemma forall2_right_in {A B} (R : A -> B -> Prop) l l' b : Forall2 R l l' -> In b l' -> exists a, In a l /\ R a b.
Proof. intros H. induction H as [|x y l l' Hxy _ IH]; intros Hb; [destruct Hb|]. destruct Hb as [<-|Hb]; [exists x; split; [left; reflexivity|exact Hxy]|]. destruct (IH Hb) as (a & Ha & HR). exists a. split; [right; exact Ha|exact HR]. Qed.
Lemma methods_fault_mid G i x ci e : instance_mid variant_of G i x -> methods_fault x ci e -> methods_fault i ci e.
Proof.
  intros (_ & Es & _ & _ & _ & _ & Hms) H. destruct H as [H1 H2|m s id ar rq Hm Em Hin Ha|m s Hm Em Hn|before m after s Ei Em Hb|n id ar Hin Hn].
  - rewrite Es. constructor; assumption.
  - destruct (forall2_right_in _ _ _ _ Hms Hm) as (a & Hin' & (E1 & E2 & _ & _ & _ & E6)). rewrite E1, E2. rewrite E2 in Ha. rewrite E6 in Em. exact (mf_arity i ci a s id ar rq Hin' Em Hin Ha).
  - destruct (forall2_right_in _ _ _ _ Hms Hm) as (a & Hin' & (_ & _ & _ & _ & _ & E6)). rewrite E6 in Em. exact (mf_unknown i ci a s Hin' Em Hn).
  - rewrite Ei in Hms. apply Forall2_app_inv_r in Hms. destruct Hms as (l1 & l2 & H1 & H2 & El). inversion H2 as [|a ? l2' ? Ha Hl2]; subst. destruct Ha as (_ & _ & _ & _ & _ & E6). rewrite E6 in Em. rewrite (given_mid variant_of _ _ _ H1) in Hb. exact (mf_again i ci l1 a l2' s El Em Hb).
  - rewrite Es. rewrite (given_mid variant_of _ _ _ Hms) in Hn. exact (mf_missing i ci n id ar Hin Hn).
Qed.

Lemma run_errors_all top r (G : env) e :
  NoDup (keys top) -> (forall n c, G n = Some c <-> names_in top n c) -> classes_known variant_of class_of -> targets_named r -> methods_named r ->
  run variant_of order class_of top r = Ret (Bad e) -> fault G r e.
Proof.
  intros HD HG HC HT HM H. unfold run in H.
  assert (Hi : ProofsBase.inv {| map_ := top; stashes := [] |} {| Scope.Spec.top := top; inner := [] |} G).
  { split; [split; [intros n; unfold meaning; cbn; symmetry; apply find_in_hget|constructor]|]. intros n. unfold meaning. cbn. rewrite find_in_hget. destruct (G n) as [c|] eqn:E.
    - apply HG in E. destruct E as (lc & Hin & <-). apply (hget_in _ _ _ HD) in Hin. rewrite Hin. reflexivity.
    - destruct (hget n top) as [lc|] eqn:Eh; [|reflexivity]. apply (hget_in _ _ _ HD) in Eh. assert (G n = Some (construct lc)) by (apply HG; exists lc; auto). congruence. }
  assert (He := err_root r G). destruct (sem_root variant_of order Horder r G _ _ Hi) as (s' & x & E & Hx). rewrite E in H. cbn [bind] in H. destruct x as [m|x].
  - destruct Hx as (_ & Hx). assert (Hm := proj2 (Hx m) eq_refl). destruct Hm as (_ & _ & _ & _ & _ & _ & _ & M8 & _).
    assert (Hready : Forall (ready class_of) (r_instances m)).
    { unfold targets_named, methods_named in *. clear -M8 HT HM HC. induction M8 as [|i i' l l' Hi _ IH]; constructor.
      - destruct Hi as (_ & _ & _ & _ & _ & (Ht & _) & Hms). split.
        + assert (Hu : forall a, In a (in_methods i) -> unres a) by (intros a Ha; exact (HM i a (or_introl eq_refl) Ha)). clear -Hms Hu. induction Hms as [|a b l l' Hab _ IH]; constructor; [|apply IH; intros x Hx; apply Hu; right; exact Hx].
          destruct Hab as (_ & _ & _ & _ & _ & Ec). destruct (Hu a (or_introl eq_refl)) as (s & Es). exists s. congruence.
        + destruct (HT i (or_introl eq_refl)) as (s & Es). rewrite Es in Ht. inversion Ht as [s0 c0 HGc Hcls E1 E2|]. destruct (HC _ Hcls) as (ci & Eci & HN). exists c0, ci. split; [reflexivity|]. split; [exact Eci|exact HN].
      - apply IH; intros; [eapply HT|eapply HM]; try (right; eassumption); eassumption. }
    destruct (link_all class_of (r_instances m)) as [[l|y]| |] eqn:El; cbn [bind] in H; try discriminate H. injection H as ->.
    destruct (link_all_err _ _ Hready El) as (x & c & ci & Hin & Ek & Ec & Hf). destruct (forall2_right_in _ _ _ _ M8 Hin) as (i & Hi' & Hmid). assert (Hmid' := Hmid). destruct Hmid' as (_ & _ & _ & _ & _ & (Ht & _) & _).
    destruct (HT i Hi') as (s & Es). rewrite Es, Ek in Ht. inversion Ht as [s0 c0 HGc Hcls E1 E2|]; subst. exact (mo_methods _ _ _ _ i s c ci e Hi' Es HGc Ec (methods_fault_mid _ _ _ _ _ Hmid Hf)).
  - injection H as ->. exact (He _ _ _ _ Hi E).
Qed.
End Resolver.
