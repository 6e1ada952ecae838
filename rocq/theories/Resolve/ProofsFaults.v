(** Errors report faults. *)
From Verif.Base Require Import Base BaseFacts Assoc.
From Verif.Scope Require Import Model Spec Proofs.
From Verif.Resolve Require Import Model Spec SpecFaults ProofsBase ProofsExpr ProofsModule.

(** The errors of [m] have [E]. *)
Definition err {A} (m : M A) (G : env) (E : error -> Prop) : Prop := forall s f s' e, ProofsBase.inv s f G -> m s = Ret (s', Bad e) -> E e.

Lemma err_mono {A} (m : M A) G (E E' : error -> Prop) : err m G E -> (forall e, E e -> E' e) -> err m G E'.
Proof. intros H HE s f s' e Hi Em. exact (HE e (H s f s' e Hi Em)). Qed.
Lemma err_ret {A} (a : A) G E : err (m_ret a) G E.
Proof. intros s f s' e _ H. discriminate H. Qed.
Lemma err_fail {A} x G (E : error -> Prop) : E x -> err (@m_fail A x) G E.
Proof. intros HE s f s' e _ H. injection H as _ <-. exact HE. Qed.
Lemma err_bind {A B} (m : M A) (k : A -> M B) G P E : sem m G P -> err m G E -> (forall a, P a -> err (k a) G E) -> err (m_bind m k) G E.
Proof.
  intros Hs Hm Hk s f s' e Hi H. unfold m_bind in H. destruct (Hs s f Hi) as (s1 & r & E1 & Hr). specialize (Hm s f). rewrite E1 in H, Hm. cbn [bind] in H. destruct r as [a|x].
  - destruct Hr as (Hi1 & Hu). eapply Hk; [apply Hu; reflexivity|exact Hi1|exact H].
  - injection H as _ <-. eapply Hm; [exact Hi|reflexivity].
Qed.
Lemma err_all {A B} (f : A -> M B) G R E l : (forall a, In a l -> sem (f a) G (R a)) -> (forall a, In a l -> err (f a) G E) -> err (m_all f l) G E.
Proof.
  induction l as [|a l IH]; intros Hs He; cbn [m_all]; [apply err_ret|].
  eapply err_bind; [apply Hs; left; reflexivity|apply He; left; reflexivity|]. intros b _. eapply err_bind; [apply (sem_all _ _ R), Forall_forall; intros x Hx; apply Hs; right; exact Hx|apply IH; intros x Hx; [apply Hs|apply He]; right; exact Hx|]. intros bs _. apply err_ret.
Qed.
Lemma err_opt {A B} (f : A -> M B) G R E o : (forall a, o = Some a -> sem (f a) G (R a)) -> (forall a, o = Some a -> err (f a) G E) -> err (m_opt f o) G E.
Proof. intros Hs He. destruct o as [a|]; cbn [m_opt]; [|apply err_ret]. eapply err_bind; [apply Hs; reflexivity|apply He; reflexivity|]. intros b _. apply err_ret. Qed.

Section Order.
Variable order : stash -> stash.
Hypothesis Horder : forall st, Permutation (order st) st.

Lemma err_get s what G (E : error -> Prop) : (G (s_name s) = None -> E (NotResolved (s_loc s) what (s_name s))) -> err (m_get order s what) G E.
Proof.
  intros HE sc f s' e (Hr & HG) H. unfold m_get in H. destruct (step_ok order Horder (Get (s_name s)) sc f Hr) as (sc' & E1 & _). rewrite E1 in H. cbn [bind spec_step snd] in H. specialize (HG (s_name s)). destruct (meaning (s_name s) f) as [c|]; [discriminate H|]. injection H as _ <-. apply HE. symmetry. exact HG.
Qed.

Lemma defines_err bs : forall before s tp f0 fs s' e, related s {| Scope.Spec.top := tp; inner := f0 :: fs |} ->
  (forall n c, find_in n f0 = Some c -> exists d, In d before /\ s_name (b_sym d) = n /\ place d = c) ->
  defines order bs s = Ret (s', Bad e) -> twice (before ++ bs) e.
Proof.
  induction bs as [|b bs IH]; intros before s tp f0 fs s' e Hr Hf H; cbn [defines] in H; [discriminate H|]. change {| loc := s_loc (b_sym b); construct := b_id b |} with (place b) in H.
  destruct (step_ok order Horder (Define (s_name (b_sym b)) (place b)) s _ Hr) as (s1 & E & Hs). rewrite E in H. clear E. cbn [bind spec_step inner Scope.Spec.top fst snd] in *. destruct (find_in (s_name (b_sym b)) f0) as [old|] eqn:Ef; cbn [snd] in H.
  - injection H as _ <-. destruct (Hf _ _ Ef) as (d & Hd & En & <-). apply in_split in Hd. destruct Hd as (l1 & l2 & ->). exists d, b, (l1 ++ l2 ++ bs). split; [|split; [exact En|rewrite En; reflexivity]].
    rewrite <- app_assoc. cbn. symmetry. eapply Permutation_trans; [|apply Permutation_middle]. constructor. rewrite (app_assoc l1 l2 bs), (app_assoc l1 l2 (b :: bs)). apply Permutation_middle.
  - specialize (Hs ltac:(discriminate)). replace (before ++ b :: bs) with ((before ++ [b]) ++ bs) by (rewrite <- app_assoc; reflexivity). eapply IH; [exact Hs| |exact H].
    intros n c. cbn [find_in]. destruct (text_eqb n (s_name (b_sym b))) eqn:E.
    + intros [= <-]. apply text_eqb_eq in E. exists b. split; [apply in_or_app; right; left; reflexivity|]. auto.
    + intros Hc. destruct (Hf n c Hc) as (d & Hd & H'). exists d. split; [apply in_or_app; left; exact Hd|exact H'].
Qed.
Lemma twice_perm bs bs' e : Permutation bs bs' -> twice bs e -> twice bs' e.
Proof. intros HP (b & b' & rest & H & H'). exists b, b', rest. split; [|exact H']. eapply Permutation_trans; [apply Permutation_sym, HP|exact H]. Qed.

Lemma err_on {A} bs bs' (m : M A) G (E : error -> Prop) : Permutation bs bs' -> (forall e, twice bs' e -> E e) -> err m (within bs' G) E -> err (m_on order bs m) G E.
Proof.
  intros HP HT Hm s f s' e (Hr & HG) H. unfold m_on in H. destruct (step_ok order Horder Enter s f Hr) as (s1 & E1 & Hs). rewrite E1 in H. clear E1. cbn [bind spec_step fst snd] in *. specialize (Hs ltac:(discriminate)).
  destruct (defines_ok order Horder bs s1 (Scope.Spec.top f) [] (inner f) Hs) as (s2 & r & E2 & Hd). unfold m_bind in H. rewrite E2 in H. cbn [bind] in H. destruct r as [u|x].
  - destruct Hd as ((HD & _) & f1 & Hr2 & Hf1).
    assert (Hi : ProofsBase.inv s2 {| Scope.Spec.top := Scope.Spec.top f; inner := f1 :: inner f |} (within bs' G)).
    { split; [exact Hr2|]. intros n. unfold meaning, within. cbn [inner meaning_in Scope.Spec.top]. rewrite <- (named_perm n bs bs' HP HD). specialize (Hf1 n). destruct (find_in n f1) as [c|]; cbn [option_map find_in] in *.
      - destruct (named n bs); [exact Hf1|discriminate].
      - destruct (named n bs); [discriminate|]. apply HG. }
    destruct (m s2) as [(s3, r)| |] eqn:E3; [|discriminate H|discriminate H]. cbn [bind] in H. destruct (step order Leave s3) as [(s4, r4)| |]; [|discriminate H|discriminate H]. injection H as _ ->. eapply Hm; [exact Hi|exact E3].
  - cbn [bind] in H. destruct (step order Leave s2) as [(s4, r4)| |]; [|discriminate H|discriminate H]. cbn [bind] in H. injection H as _ ->. apply HT. apply (twice_perm bs); [exact HP|].
    exact (defines_err bs [] s1 _ [] (inner f) s2 e Hs ltac:(intros n c Hc; discriminate Hc) E2).
Qed.
End Order.

Section Resolver.
Variable variant_of : N -> variant.
Variable order : stash -> stash.
Hypothesis Horder : forall st, Permutation (order st) st.
Notation "'all' l" := (proj1 (Forall_forall _ l)) (at level 10, l at level 9, only parsing).

Lemma err_kind k G : err (resolve_kind order k) G (kind_fault k).
Proof.
  induction k as [s|args ret IHs IH| | | | | ] using kind_ind'; cbn [resolve_kind]; try apply err_ret.
  - eapply err_bind; [apply sem_get, Horder|apply err_get; [exact Horder|intros _; constructor]|]. intros c _. apply err_fail. constructor.
  - rewrite Forall_forall in IHs. eapply err_bind; [apply sem_each; intros k; apply sem_kind, Horder|eapply err_all; [intros a _; apply sem_kind, Horder|]|].
    + intros a Ha. eapply err_mono; [exact (IHs a Ha)|]. intros e. apply kf_arg, Ha.
    + intros args' _. eapply err_bind; [apply sem_kind, Horder|eapply err_mono; [exact IH|]; intros e; apply kf_ret|]. intros ret' _. apply err_ret.
Qed.
Lemma err_ty t : forall G, err (resolve_ty variant_of order t) G (ty_fault variant_of G t).
Proof.
  induction t as [s|c|c|t ts IH IHs] using ty_ind'; intros G; cbn [resolve_ty]; try apply err_ret.
  - eapply err_bind; [apply sem_get, Horder|apply err_get; [exact Horder|]|].
    + intros HG. constructor. split; [|reflexivity]. intros c Hc. congruence.
    + intros c Hc. destruct (is_type_con (variant_of c)) eqn:E1; [apply err_ret|]. destruct (is_type_parameter (variant_of c)) eqn:E2; [apply err_ret|]. apply err_fail. constructor. split; [|reflexivity].
      intros c' Hc'. rewrite Hc in Hc'. injection Hc' as <-. intros [H|H]; [apply type_con_true in H|apply type_parameter_true in H]; congruence.
  - rewrite Forall_forall in IHs. eapply err_bind; [apply sem_ty, Horder|eapply err_mono; [apply IH|]; intros e; apply tf_callee|]. intros t' _. eapply err_bind; [apply sem_tys, Horder|eapply err_all; [intros a _; apply sem_ty, Horder|]|intros ts' _; apply err_ret].
    intros a Ha. eapply err_mono; [exact (IHs a Ha G)|]. intros e. apply tf_arg, Ha.
Qed.
Lemma err_use what fits sort u G : (forall c, fits (variant_of c) = true <-> sort c) -> err (resolve_use variant_of order what fits u) G (use_fault what sort G u).
Proof.
  intros Hs. destruct u as [s|c]; cbn [resolve_use]; [|apply err_ret]. eapply err_bind; [apply sem_get, Horder|apply err_get; [exact Horder|]|].
  - intros HG. constructor. split; [|reflexivity]. intros c Hc. congruence.
  - intros c Hc. destruct (fits (variant_of c)) eqn:E1; [apply err_ret|]. apply err_fail. constructor. split; [|reflexivity]. intros c' Hc'. rewrite Hc in Hc'. injection Hc' as <-. intros H. apply Hs in H. congruence.
Qed.
Lemma err_constr k G : err (resolve_constr variant_of order k) G (constr_fault variant_of G k).
Proof.
  unfold resolve_constr. eapply err_bind; [apply sem_use, class_true; exact Horder|eapply err_mono; [apply err_use, class_true|]; intros e; apply cf_class|]. intros c _. eapply err_bind; [apply sem_tys, Horder|eapply err_all; [intros a _; apply sem_ty, Horder|]|intros ts' _; apply err_ret].
  intros a Ha. eapply err_mono; [apply err_ty|]. intros e. apply cf_arg, Ha.
Qed.
Lemma err_constrs ks G (E : error -> Prop) : (forall k e, In k ks -> constr_fault variant_of G k e -> E e) -> err (m_all (resolve_constr variant_of order) ks) G E.
Proof. intros H. eapply err_all; [intros a _; apply sem_constr, Horder|]. intros a Ha. eapply err_mono; [apply err_constr|]. intros e. apply H, Ha. Qed.
Lemma sem_typaram1 p G : exists R, sem (resolve_typaram order p) G R.
Proof. eexists. unfold resolve_typaram. eapply sem_bind; [apply sem_opt; intros k _; apply sem_kind, Horder|]. intros a _. apply sem_ret. Qed.
Lemma err_typarams ps G (E : error -> Prop) : (forall p k e, In p ps -> tp_ann p = Some k -> kind_fault k e -> E e) -> err (m_all (resolve_typaram order) ps) G E.
Proof.
  intros H. eapply (err_all _ _ (fun p p' => exists a, optional (fun k k' => kind_ok k /\ k' = k) (tp_ann p) a /\ p' = {| tp_binder := tp_binder p; tp_ann := a |})).
  - intros p _. unfold resolve_typaram. eapply sem_bind; [apply sem_opt; intros k _; apply sem_kind, Horder|]. intros a _. apply sem_ret.
  - intros p Hp. unfold resolve_typaram. eapply err_bind; [apply sem_opt; intros k _; apply sem_kind, Horder| |intros a _; apply err_ret]. eapply err_opt; [intros k _; apply sem_kind, Horder|]. intros k Ek. eapply err_mono; [apply err_kind|]. intros e. apply (H p k e Hp Ek).
Qed.
Lemma err_under {A} bs (m : M A) G (E : error -> Prop) : (forall e, twice bs e -> E e) -> err m (within bs G) E -> err (m_on order bs m) G E.
Proof. apply err_on; [exact Horder|apply Permutation_refl]. Qed.
Lemma err_scheme s G : err (resolve_scheme variant_of order s) G (scheme_fault variant_of G s).
Proof.
  unfold resolve_scheme. eapply err_bind; [apply sem_typarams, Horder|apply err_typarams; intros p k e Hp Ek Hk; apply sf_params; eapply pf_kind; eassumption|]. intros ps (_ & ->).
  apply err_under; [intros e He; apply sf_params, pf_twice, He|]. eapply err_bind; [apply sem_constrs, Horder|apply err_constrs; intros k e Hk; apply sf_constr, Hk|]. intros ks _.
  eapply err_bind; [apply sem_ty, Horder|eapply err_mono; [apply err_ty|]; intros e; apply sf_body|]. intros t _. apply err_ret.
Qed.
Lemma err_pattern p : forall G, err (resolve_pattern variant_of order p) G (pattern_fault variant_of G p).
Proof.
  induction p as [b o IH| |u o IH|k] using pattern_ind'; intros G; cbn [resolve_pattern]; try apply err_ret.
  - eapply err_bind; [apply sem_opt; intros p _; apply sem_pattern, Horder| |intros o' _; apply err_ret]. eapply err_opt; [intros p _; apply sem_pattern, Horder|]. intros p ->. eapply err_mono; [exact (IH G)|]. intros e. apply af_as.
  - eapply err_bind; [apply sem_use, value_con_true; exact Horder|eapply err_mono; [apply err_use, value_con_true|]; intros e; apply af_con|]. intros u' _.
    eapply err_bind; [apply sem_opt; intros ps _; apply sem_each; intros p; apply sem_pattern, Horder| |intros o' _; apply err_ret]. eapply err_opt; [intros ps _; apply sem_each; intros p; apply sem_pattern, Horder|]. intros ps ->. cbn [each] in IH. rewrite Forall_forall in IH.
    eapply err_all; [intros p _; apply sem_pattern, Horder|]. intros p Hp. eapply err_mono; [exact (IH p Hp G)|]. intros e. apply af_field, Hp.
Qed.
Lemma functions_part ds : exists vs, Permutation (defined ds) (functions ds ++ vs).
Proof.
  unfold functions, defined. induction ds as [|d ds (vs & IH)]; [exists []; constructor|]. cbn [filter map]. destruct (is_fun d).
  - exists vs. cbn. constructor. exact IH.
  - eexists (_ :: vs). eapply Permutation_trans; [constructor; exact IH|apply Permutation_middle].
Qed.
Lemma functions_twice ds e : twice (functions ds) e -> twice (defined ds) e.
Proof.
  intros (b & b' & rest & HP & H). destruct (functions_part ds) as (vs & Hv). exists b, b', (rest ++ vs). split; [|exact H]. eapply Permutation_trans; [exact Hv|]. apply (Permutation_app_tail vs) in HP. exact HP.
Qed.
Lemma sem_def d G : sem (resolve_def variant_of order d) G (def_ok variant_of G d).
Proof.
  assert (H := sem_expr variant_of order Horder). destruct d as [b t e|b a ps e]; cbn [resolve_def].
  - eapply sem_ext; [eapply sem_bind; [apply sem_opt; intros t0 _; apply sem_ty, Horder|]; intros t' _; eapply sem_bind; [apply H|]; intros e' _; apply sem_ret|].
    intros x. cbn. split; [intros (t' & Ht & e' & He & ->); constructor; assumption|]. intros Hx. inversion Hx; subst. do 2 (eexists; split; [eassumption|]). reflexivity.
  - eapply sem_ext; [eapply sem_bind; [apply sem_opt; intros s _; apply sem_scheme, Horder|]|].
    + intros a' Ha. destruct (ann_quantified _ _ _ _ Ha) as (E & _). rewrite E. apply sem_under; [exact Horder|]. apply sem_under; [exact Horder|]. eapply sem_bind; [apply H|]. intros e' _. apply sem_ret.
    + intros x. cbn. split; [intros (a' & Ha & _ & HD & e' & He & ->); constructor; assumption|]. intros Hx. inversion Hx; subst. eexists. split; [eassumption|]. split; [eapply ann_quantified; eassumption|]. split; [assumption|]. eexists. split; [eassumption|reflexivity].
Qed.

Lemma err_expr e : forall G, err (resolve_expr variant_of order e) G (expr_fault variant_of G e).
Proof.
  assert (HX := sem_expr variant_of order Horder).
  induction e as [u|c|k|e es IH IHs|u|e t IH|ds e IHs IH|es e IHs IH|c t e IHc IHt IHe|c e IHc IHe|e cs IH IHs|o IH|b t e IH|b a ps e IH]
    using expr_ind' with (Q := fun d => forall G, err (resolve_def variant_of order d) G (def_fault variant_of G d)); intros G; cbn [resolve_expr resolve_def]; try apply err_ret.
  - destruct u as [s|c]; [|apply err_ret]. eapply err_bind; [apply sem_get, Horder|apply err_get; [exact Horder|]|].
    + intros HG. constructor. split; [|reflexivity]. intros c Hc. congruence.
    + intros c Hc. destruct (is_value (variant_of c)) eqn:E1; [apply err_ret|]. destruct (is_value_con (variant_of c)) eqn:E2; [apply err_ret|]. apply err_fail. constructor. split; [|reflexivity].
      intros c' Hc'. rewrite Hc in Hc'. injection Hc' as <-. intros [H|H]; [apply value_true in H|apply value_con_true in H]; congruence.
  - rewrite Forall_forall in IHs. eapply err_bind; [apply HX|eapply err_mono; [apply IH|]; intros x; apply ef_callee|]. intros e' _. eapply err_bind; [apply sem_each; intros a; apply HX|eapply err_all; [intros a _; apply HX|]|intros es' _; apply err_ret].
    intros a Ha. eapply err_mono; [exact (IHs a Ha G)|]. intros x. apply ef_arg, Ha.
  - destruct u as [s|c]; [|apply err_ret]. eapply err_bind; [apply sem_get, Horder|apply err_get; [exact Horder|]|intros c _; apply err_ret]. intros HG. constructor. split; [|reflexivity]. intros c Hc. congruence.
  - eapply err_bind; [apply HX|eapply err_mono; [apply IH|]; intros x; apply ef_annotated|]. intros e' _. eapply err_bind; [apply sem_ty, Horder|eapply err_mono; [apply err_ty|]; intros x; apply ef_annotation|]. intros t' _. apply err_ret.
  - rewrite Forall_forall in IHs. rewrite functions_local. eapply err_bind; [apply sem_under; [exact Horder|]; apply sem_each; intros d; apply sem_def| |].
    + apply err_under; [intros x Hx; apply ef_let_twice, functions_twice, Hx|]. eapply err_all; [intros d _; apply sem_def|]. intros d Hd. eapply err_mono; [apply (IHs d Hd)|]. intros x. apply ef_let_def, Hd.
    + intros ds' (_ & Hds). rewrite (defined_binders _ _ _ _ Hds). apply err_under; [intros x; apply ef_let_twice|]. eapply err_bind; [apply HX|eapply err_mono; [apply IH|]; intros x; apply ef_let_body|]. intros e' _. apply err_ret.
  - rewrite Forall_forall in IHs. eapply err_bind; [apply sem_each; intros a; apply HX|eapply err_all; [intros a _; apply HX|]|].
    + intros a Ha. eapply err_mono; [exact (IHs a Ha G)|]. intros x. apply ef_stmt, Ha.
    + intros es' _. eapply err_bind; [apply HX|eapply err_mono; [apply IH|]; intros x; apply ef_ret|]. intros e' _. apply err_ret.
  - eapply err_bind; [apply HX|eapply err_mono; [apply IHc|]; intros x; apply ef_cond|]. intros c' _. eapply err_bind; [apply HX|eapply err_mono; [apply IHt|]; intros x; apply ef_then|]. intros t' _. eapply err_bind; [apply HX|eapply err_mono; [apply IHe|]; intros x; apply ef_else|]. intros e' _. apply err_ret.
  - eapply err_bind; [apply HX|eapply err_mono; [apply IHc|]; intros x; apply ef_while|]. intros c' _. eapply err_bind; [apply HX|eapply err_mono; [apply IHe|]; intros x; apply ef_while_body|]. intros e' _. apply err_ret.
  - rewrite Forall_forall in IHs. eapply err_bind; [apply HX|eapply err_mono; [apply IH|]; intros x; apply ef_target|]. intros e' _.
    assert (HS : forall cl, sem (let '(p, body) := cl in m_bind (resolve_pattern variant_of order p) (fun p => m_on order (pattern_defs p) (m_bind (resolve_expr variant_of order body) (fun body => m_ret (p, body))))) G (clause_ok variant_of G cl)).
    { intros [p body]. eapply sem_ext.
      * eapply sem_bind; [apply sem_pattern, Horder|]. intros p' Hp. eapply sem_on; [exact Horder|exact (pattern_variables _ _ _ _ Hp)|]. eapply sem_bind; [apply HX|]. intros b' _. apply sem_ret.
      * intros x. cbn. split; [intros (p' & Hp & HD & b' & Hb' & ->); constructor; assumption|]. intros H. inversion H; subst. eexists. split; [eassumption|]. split; [assumption|]. eexists. split; [eassumption|reflexivity]. }
    eapply err_bind; [apply sem_each; exact HS|eapply err_all; [intros cl _; apply HS|]|intros cs' _; apply err_ret].
    intros [p body] Hcl. specialize (IHs _ Hcl). cbn [snd] in IHs. eapply err_bind; [apply sem_pattern, Horder|eapply err_mono; [apply err_pattern|]; intros x Hx; eapply ef_clause; [exact Hcl|left; exact Hx]|].
    intros p' Hp. apply (err_on order Horder _ (variables p)); [exact (pattern_variables _ _ _ _ Hp)|intros x Hx; eapply ef_clause; [exact Hcl|right; exact Hx]|]. eapply err_bind; [apply HX|eapply err_mono; [apply IHs|]; intros x; apply (ef_clause_body _ _ _ _ _ _ _ Hcl)|]. intros b' _. apply err_ret.
  - eapply err_bind; [apply sem_opt; intros e _; apply HX|eapply err_opt; [intros e _; apply HX|]|intros o' _; apply err_ret]. intros e ->. eapply err_mono; [exact (IH G)|]. intros x. apply ef_return.
  - eapply err_bind; [apply sem_opt; intros t0 _; apply sem_ty, Horder|eapply err_opt; [intros t0 _; apply sem_ty, Horder|]|].
    + intros t0 ->. eapply err_mono; [apply err_ty|]. intros x. apply df_var_ann.
    + intros t' _. eapply err_bind; [apply HX|eapply err_mono; [apply IH|]; intros x; apply df_var_init|]. intros e' _. apply err_ret.
  - eapply err_bind; [apply sem_opt; intros s _; apply sem_scheme, Horder|eapply err_opt; [intros s _; apply sem_scheme, Horder|]|].
    + intros s ->. eapply err_mono; [apply err_scheme|]. intros x. apply df_fun_ann.
    + intros a' Ha. destruct (ann_quantified _ _ _ _ Ha) as (E & HD). rewrite E. apply err_under.
      * intros x (b1 & b2 & rest & HP & En & _). exfalso. apply (distinct_perm _ _ HP) in HD. unfold distinct in HD. cbn in HD. inversion_clear HD as [|? ? Hn _]. apply Hn. left. symmetry. exact En.
      * apply err_under; [intros x; apply df_fun_params|]. eapply err_bind; [apply HX|eapply err_mono; [apply IH|]; intros x; apply df_fun_body|]. intros e' _. apply err_ret.
Qed.
End Resolver.
