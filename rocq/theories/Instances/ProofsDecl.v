From Verif.Base Require Import Base BaseFacts VecFacts.
From Verif.Types Require Import Model Spec Proofs ProofsUnify ProofsMain ProofsApi ProofsReach.
From Verif.Instances Require Import Model Spec ProofsBase.

Section Decl.
  Variable env : kind_env.
  Variable D : decls.
  Notation wf := (wf env).
  Notation ok := (ok env).
  Notation later := (later env).
  Notation calm := (calm env).

  Definition cok (kap : var -> ast_kind) (p : context) (c : constr) : Prop :=
    Forall2 (fun t g => ok kap p t (gen_kind env g)) (c_args c) (k_params (classes D (c_class c))).

  Definition dcok (kap : var -> ast_kind) (p : context) (params : list gen) (c : constr) : Prop :=
    cok kap p c /\ Forall (fun t => exists g, closed_over params g /\ stands p t g) (c_args c).

  Definition decl (kap : var -> ast_kind) (p : context) : Prop :=
    (forall cl, NoDup (k_params (classes D cl)) /\ Forall (dcok kap p (k_params (classes D cl))) (k_supers (classes D cl))) /\
    (forall i, NoDup (i_params (instances D i)) /\ dcok kap p (i_params (instances D i)) (i_target (instances D i)) /\
       Forall (dcok kap p (i_params (instances D i))) (i_s_params (instances D i))) /\
    (forall cl i, In i (available D cl) -> c_class (i_target (instances D i)) = cl).

  Lemma ok_of kap p ts t k : wf kap p -> Forall (typed env kap p) ts -> In t ts -> has_kind env p t k -> ok kap p t k.
  Proof.
    intros Hwf Hts Hin (p1 & Hc). destruct (typed_in env _ _ _ _ Hts Hin) as (Hb & K & HK). split; [exact Hb|].
    destruct (get_kind_exact env kap p t K Hwf Hb HK) as (p2 & Hc2 & _).
    pose proof (conv_unique _ _ _ Hc Hc2) as E. injection E as -> _. exact HK.
  Qed.

  Lemma cok_of kap p ts c : wf kap p -> Forall (typed env kap p) ts -> constraint_ok env p ts D c -> cok kap p c.
  Proof.
    intros Hwf Hts (Hi & HF). unfold cok. revert Hi HF. generalize (k_params (classes D (c_class c))). induction (c_args c) as [|t l IH]; intros ps Hi HF.
    - inversion HF. constructor.
    - inversion HF as [|? g ? ps' H1 H2]. constructor; [apply (ok_of kap p ts); auto; apply Hi; left; reflexivity|].
      apply IH; auto. intros y Hy. apply Hi. right. exact Hy.
  Qed.

  Lemma dcok_of kap p ts params c : wf kap p -> Forall (typed env kap p) ts -> declared_constraint env p ts D params c -> dcok kap p params c.
  Proof. intros Hwf Hts (H1 & H2). split; [eapply cok_of; eauto|exact H2]. Qed.

  Lemma decl_of kap p ts : wf kap p -> Forall (typed env kap p) ts -> declared env p ts D -> decl kap p.
  Proof.
    intros Hwf Hts (H1 & H2 & H3). split; [|split; [|exact H3]].
    - intros cl. destruct (H1 cl) as (A & B). split; [exact A|]. eapply Forall_impl; [|exact B]. intros c. apply (dcok_of kap p ts); auto.
    - intros i. destruct (H2 i) as (A & B & C). split; [exact A|]. split; [apply (dcok_of kap p ts); auto|].
      eapply Forall_impl; [|exact C]. intros c. apply (dcok_of kap p ts); auto.
  Qed.

  Lemma cok_later kap p kap' p' c : later kap p kap' p' -> cok kap p c -> cok kap' p' c.
  Proof. intros L. apply Forall2_imp. intros t g. apply later_ok, L. Qed.

  Lemma stands_later kap p kap' p' t g : later kap p kap' p' -> stands p t g -> stands p' t g.
  Proof. intros (_ & _ & _ & L) H s Hs. apply H, L, Hs. Qed.

  Lemma dcok_later kap p kap' p' ps c : later kap p kap' p' -> dcok kap p ps c -> dcok kap' p' ps c.
  Proof.
    intros L (H1 & H2). split; [eapply cok_later; eauto|]. eapply Forall_impl; [|exact H2]. intros t (g & G1 & G2). exists g.
    split; [exact G1|]. eapply stands_later; eauto.
  Qed.

  Lemma decl_later kap p kap' p' : later kap p kap' p' -> decl kap p -> decl kap' p'.
  Proof.
    intros L (H1 & H2 & H3). split; [|split; [|exact H3]].
    - intros cl. destruct (H1 cl) as (A & B). split; [exact A|]. eapply Forall_impl; [|exact B]. intros c. apply dcok_later, L.
    - intros i. destruct (H2 i) as (A & B & C). split; [exact A|]. split; [eapply dcok_later; eauto|].
      eapply Forall_impl; [|exact C]. intros c. apply dcok_later, L.
  Qed.

  (** * Replacing the parameters of a declaration *)
  Definition args_ok (kap : var -> ast_kind) (p : context) (tys : list ty) (params : list gen) : Prop :=
    Forall2 (fun t g => ok kap p t (gen_kind env g)) tys params.

  Lemma args_later kap p kap' p' tys ps : later kap p kap' p' -> args_ok kap p tys ps -> args_ok kap' p' tys ps.
  Proof. intros L. apply Forall2_imp. intros t g. apply later_ok, L. Qed.

  Lemma args_fit kap p tys ps : args_ok kap p tys ps -> map_fits env kap p (lookup ps tys).
  Proof. intros H g u Hu. apply lookup_in in Hu. apply (Forall2_combine _ _ _ (Forall2_flip _ _ _ H) g u Hu). Qed.

  Definition terms_of (s : var -> gty) (params : list gen) (tys : list gty) (c : constr) : list gty :=
    map (fun t => instance_of params tys (interp s t)) (c_args c).

  Definition replaced (params : list gen) (tys : list ty) (kap : var -> ast_kind) (p : context) (c c' : constr) : Prop :=
    c_id c' = c_id c /\ c_class c' = c_class c /\ cok kap p c' /\
    forall s, equations p s -> map (interp s) (c_args c') = terms_of s params (map (interp s) tys) c.

  Lemma replaced_later ps tys kap p kap' p' c c' : later kap p kap' p' -> replaced ps tys kap p c c' -> replaced ps tys kap' p' c c'.
  Proof.
    intros L (H1 & H2 & H3 & H4). split; [exact H1|]. split; [exact H2|]. split; [eapply cok_later; eauto|].
    intros s Hs. apply H4. apply L, Hs.
  Qed.

  Lemma ok_unique kap p t k k' : ok kap p t k -> ok kap p t k' -> k = k'.
  Proof.
    intros (_ & H) (_ & H'). destruct t as [v k0 lv|c|callee args|g lv]; cbn in *; try congruence.
    destruct H as (ks & H & _), H' as (ks' & H' & _). congruence.
  Qed.

  Lemma subst_constr_ok ps tys kap p c : NoDup ps -> wf kap p -> args_ok kap p tys ps -> dcok kap p ps c ->
    exists c' kap' p', conv (fun n => subst_constr n (lookup ps tys) p c) (c', p') /\ calm kap p kap' p' /\ replaced ps tys kap' p' c c'.
  Proof.
    intros Hnd Hwf Ha (Hc & Hcl). set (m := lookup ps tys).
    destruct (map_ctx_ok env calm (fun n pool t => subst n pool m t)
      (fun kap p t => args_ok kap p tys ps /\ (exists k, ok kap p t k) /\ exists g, closed_over ps g /\ stands p t g)
      (fun kap p t t' => (exists k, ok kap p t k /\ ok kap p t' k) /\ forall s, equations p s -> interp s t' = instance_of ps (map (interp s) tys) (interp s t)))
      with (l := c_args c) (kap := kap) (p := p) as (args' & kap' & p' & H1 & H2 & H3); auto.
    - intros k1 q k2 q' H. apply H.
    - apply calm_refl.
    - apply calm_trans.
    - intros k1 q k2 q' x (L & _) (A & (k & B) & g & E & F). split; [eapply args_later; eauto|]. split; [exists k; eapply later_ok; eauto|].
      exists g. split; [exact E|]. eapply stands_later; eauto.
    - intros k1 q k2 q' x y (L & _) ((k & A1 & A2) & B). split; [exists k; split; eapply later_ok; eauto|]. intros s Hs. apply B, L, Hs.
    - intros k1 q x Hwf1 (A & (k & B) & g & E & F).
      destruct (subst_closed env m k1 q x k g Hwf1 (args_fit _ _ _ _ A) B F (closed_nameless _ _ E)) as (t' & k2 & q2 & G1 & G2 & G3 & G4).
      exists t', k2, q2. split; [exact G1|]. split; [exact G2|]. split.
      + exists k. split; [eapply later_ok; [apply G2|exact B]|exact G3].
      + intros s Hs. rewrite (G4 s Hs), (F s); [|apply G2, Hs]. apply replace_ext. intros z. apply lookup_given, Hnd.
    - assert (Hall : Forall (fun t => exists k, ok kap p t k) (c_args c)).
      { clear -Hc. unfold cok in Hc. induction Hc; constructor; eauto. }
      rewrite Forall_forall in Hcl, Hall |- *. intros t Ht. split; [exact Ha|]. split; [apply Hall, Ht|apply Hcl, Ht].
    - exists {| c_id := c_id c; c_class := c_class c; c_args := args' |}, kap', p'. split; [|split; [exact H2|]].
      + unfold subst_constr. eapply (conv_bind (fun n => map_ctx (fun pool t => subst n pool m t) p (c_args c))); [exact H1|]. apply conv_ret.
      + split; [reflexivity|]. split; [reflexivity|]. cbn [c_args c_class]. split.
        * pose proof (cok_later _ _ _ _ _ (proj1 H2) Hc) as Hc'. unfold cok in *. cbn [c_args c_class]. revert Hc'. clear -H3.
          generalize (k_params (classes D (c_class c))). induction H3 as [|t t' l l' ((k & Hk1 & Hk2) & _) _ IH]; intros gs Hc'; inversion Hc' as [|? g0 ? gs0 X1 X2]; constructor; auto.
          rewrite (ok_unique _ _ _ _ _ X1 Hk1). exact Hk2.
        * intros s Hs. unfold terms_of. clear -H3 Hs. induction H3 as [|t t' l l' (_ & He) _ IH]; [reflexivity|]. cbn [map]. rewrite (He s Hs), IH. reflexivity.
  Qed.

  Lemma subst_constrs_ok ps tys cs kap p : NoDup ps -> wf kap p -> args_ok kap p tys ps -> Forall (dcok kap p ps) cs ->
    exists cs' kap' p', conv (fun n => map_ctx (subst_constr n (lookup ps tys)) p cs) (cs', p') /\ calm kap p kap' p' /\
      Forall2 (replaced ps tys kap' p') cs cs'.
  Proof.
    intros Hnd Hwf Ha Hcs.
    apply (map_ctx_ok env calm (fun n => subst_constr n (lookup ps tys)) (fun kap p c => args_ok kap p tys ps /\ dcok kap p ps c)
      (fun kap p c c' => replaced ps tys kap p c c')); auto.
    - intros k1 q k2 q' H. apply H.
    - apply calm_refl.
    - apply calm_trans.
    - intros k1 q k2 q' x (L & _) (A & B). split; [eapply args_later; eauto|eapply dcok_later; eauto].
    - intros k1 q k2 q' x y (L & _). apply replaced_later, L.
    - intros k1 q x Hwf1 (A & B). apply subst_constr_ok; auto.
    - eapply Forall_impl; [|exact Hcs]. intros c Hc. split; auto.
  Qed.

  Lemma empty_args kap p tys ps : args_ok kap p tys ps -> map_is_empty ps tys = true -> ps = [] /\ tys = [].
  Proof. intros H. destruct H; [auto|discriminate]. Qed.

  Lemma replaced_self kap p c : wf kap p -> dcok kap p [] c -> replaced [] [] kap p c c.
  Proof.
    intros Hwf (Hc & Hcl). split; [reflexivity|]. split; [reflexivity|]. split; [exact Hc|]. intros s Hs. unfold terms_of.
    assert (Hall : Forall (fun t => exists k, ok kap p t k) (c_args c)) by (clear -Hc; unfold cok in Hc; induction Hc; constructor; eauto).
    apply map_ext_in. intros t Ht. rewrite Forall_forall in Hcl, Hall. destruct (Hcl t Ht) as (g & G1 & G2), (Hall t Ht) as (k & Hk).
    rewrite (G2 s Hs). symmetry. apply replace_none; [eapply stands_solid; eauto|]. reflexivity.
  Qed.

  Lemma apply_class_ok kap p cl tys : wf kap p -> decl kap p -> args_ok kap p tys (k_params (classes D cl)) ->
    exists con kap' p', conv (fun n => apply_class n p (classes D cl) tys) (con, p') /\ calm kap p kap' p' /\
      Forall2 (replaced (k_params (classes D cl)) tys kap' p') (k_supers (classes D cl)) (k_supers con).
  Proof.
    intros Hwf Hd Ha. destruct (proj1 Hd cl) as (Hnd & Hs). unfold apply_class. destruct (map_is_empty _ tys) eqn:E.
    - destruct (empty_args _ _ _ _ Ha E) as (E1 & ->). exists (classes D cl), kap, p. split; [apply conv_ret|]. split; [apply calm_refl, Hwf|].
      rewrite E1 in *. clear -Hs Hwf. induction Hs; constructor; auto. apply replaced_self; auto.
    - destruct (subst_constrs_ok _ tys _ kap p Hnd Hwf Ha Hs) as (cs' & kap' & p' & H1 & H2 & H3).
      exists {| k_params := k_params (classes D cl); k_supers := cs' |}, kap', p'. split; [|split; [exact H2|exact H3]].
      eapply (conv_bind (fun n => map_ctx (subst_constr n (lookup (k_params (classes D cl)) tys)) p (k_supers (classes D cl)))); [exact H1|]. apply conv_ret.
  Qed.

  Lemma apply_instance_ok kap p ps sps tgt tys : NoDup ps -> wf kap p -> args_ok kap p tys ps ->
    dcok kap p ps tgt -> Forall (dcok kap p ps) sps ->
    exists con kap' p', conv (fun n => apply_instance n p {| i_params := ps; i_s_params := sps; i_target := tgt |} tys) (con, p') /\ calm kap p kap' p' /\
      replaced ps tys kap' p' tgt (i_target con) /\ Forall2 (replaced ps tys kap' p') sps (i_s_params con).
  Proof.
    intros Hnd Hwf Ha Ht Hs. unfold apply_instance. cbn [i_params i_s_params i_target]. destruct (map_is_empty _ tys) eqn:E.
    - destruct (empty_args _ _ _ _ Ha E) as (-> & ->). eexists _, kap, p. split; [apply conv_ret|]. split; [apply calm_refl, Hwf|]. cbn [i_s_params i_target].
      split; [apply replaced_self; auto|]. clear -Hs Hwf. induction Hs; constructor; auto. apply replaced_self; auto.
    - destruct (subst_constr_ok ps tys kap p tgt Hnd Hwf Ha Ht) as (t' & k1 & p1 & H1 & H2 & H3).
      destruct (subst_constrs_ok ps tys sps k1 p1 Hnd) as (cs' & k2 & p2 & G1 & G2 & G3).
      { apply H2. } { eapply args_later; [apply H2|exact Ha]. } { eapply Forall_impl; [|exact Hs]. intros c. apply dcok_later, H2. }
      eexists _, k2, p2. split; [|split; [eapply calm_trans; eauto|]].
      + eapply (conv_bind (fun n => subst_constr n (lookup ps tys) p tgt)); [exact H1|]. cbn beta iota.
        eapply (conv_bind (fun n => map_ctx (subst_constr n (lookup ps tys)) p1 sps)); [exact G1|]. apply conv_ret.
      + cbn [i_target i_s_params]. split; [eapply replaced_later; [apply G2|exact H3]|exact G3].
  Qed.

  (** * Fresh type arguments *)
  Definition fresh (p0 p : context) (lv : level) (t : ty) (g : gen) : Prop :=
    exists v, t = YVar v (gen_kind env g) lv /\ unresolved p v (gen_kind env g) lv /\ (len p0 <= v)%nat.

  Lemma instantiate_gens_ok lv ps : forall kap p, wf kap p ->
    exists tys kap' p', conv (fun n => map_ctx (fun pool g => instantiate_gen env n pool g lv) p ps) (tys, p') /\ calm kap p kap' p' /\
      args_ok kap' p' tys ps /\ Forall2 (fresh p p' lv) tys ps /\ NoDup tys.
  Proof.
    induction ps as [|g ps IH]; intros kap p Hwf.
    - exists [], kap, p. split; [apply conv_ret|]. split; [apply calm_refl, Hwf|]. split; [constructor|]. split; constructor.
    - destruct (new_var_ok env kap p (gen_kind env g) lv Hwf) as (k1 & A1 & A2 & A3 & A4 & A5 & A6). cbv zeta in *.
      set (p1 := p ++ [YVar (len p) (gen_kind env g) lv]) in *.
      assert (Hlen : len p1 = S (len p)) by (unfold p1; rewrite app_length; cbn; lia).
      assert (C1 : calm kap p k1 p1).
      { split; [split; [lia|split; [exact A1|split; [exact A2|intros s Hs; apply A4, Hs]]]|]. intros v k l Hu. apply A6; [|exact Hu].
        intros ->. unfold unresolved in Hu. apply nth_error_Some_lt in Hu || (assert (X : nth_error p (len p) <> None) by (unfold unresolved in Hu; congruence); apply nth_error_Some in X; lia). }
      destruct (IH k1 p1 A1) as (tys & k2 & p2 & H1 & H2 & H3 & H4 & H5).
      exists (YVar (len p) (gen_kind env g) lv :: tys), k2, p2. split; [|split; [eapply calm_trans; eauto|split; [|split]]].
      + cbn [map_ctx]. eapply (conv_bind (fun n => instantiate_gen env n p g lv)).
        * unfold instantiate_gen. eapply (conv_bind (fun n => get_kind env n p (YGen g top))); [|].
          { eapply conv_step; [intros n; reflexivity|]. apply conv_ret. }
          cbn beta iota. apply conv_ret.
        * cbn beta iota. fold p1. eapply (conv_bind (fun n => map_ctx (fun pool g => instantiate_gen env n pool g lv) p1 ps)); [exact H1|]. apply conv_ret.
      + constructor; [|exact H3]. eapply later_ok; [apply H2|]. split; [intros j ->; lia|exact A3].
      + constructor; [exists (len p); split; [reflexivity|split; [apply H2, A5|reflexivity]]|].
        eapply Forall2_imp; [|exact H4]. intros t x (v & V1 & V2 & V3). exists v. split; [exact V1|]. split; [exact V2|lia].
      + constructor; [|exact H5]. intros Hi. clear -H4 Hi Hlen. induction H4 as [|t x tys ps (v & -> & _ & V3) _ IH]; [exact Hi|].
        destruct Hi as [E|Hi]; [injection E as E _; lia|apply IH, Hi].
  Qed.

  Lemma instantiate_ok kap p ps sps tgt lv : NoDup ps -> wf kap p -> dcok kap p ps tgt -> Forall (dcok kap p ps) sps ->
    exists con tys kap' p', conv (fun n => instantiate_instance env n p {| i_params := ps; i_s_params := sps; i_target := tgt |} lv) (con, tys, p') /\
      calm kap p kap' p' /\ args_ok kap' p' tys ps /\ Forall2 (fresh p p' lv) tys ps /\ NoDup tys /\
      replaced ps tys kap' p' tgt (i_target con) /\ Forall2 (replaced ps tys kap' p') sps (i_s_params con).
  Proof.
    intros Hnd Hwf Ht Hs. destruct (instantiate_gens_ok lv ps kap p Hwf) as (tys & k1 & p1 & H1 & H2 & H3 & H4 & H5).
    destruct (apply_instance_ok k1 p1 ps sps tgt tys Hnd (proj1 (proj2 (proj1 H2))) H3) as (con & k2 & p2 & G1 & G2 & G3 & G4).
    { eapply dcok_later; [apply H2|exact Ht]. } { eapply Forall_impl; [|exact Hs]. intros c. apply dcok_later, H2. }
    exists con, tys, k2, p2. split; [|split; [eapply calm_trans; eauto|split; [eapply args_later; [apply G2|exact H3]|split; [|auto]]]].
    - unfold instantiate_instance. eapply (conv_bind (fun n => map_ctx (fun pool g => instantiate_gen env n pool g lv) p ps)); [exact H1|]. cbn beta iota.
      eapply (conv_bind (fun n => apply_instance n p1 {| i_params := ps; i_s_params := sps; i_target := tgt |} tys)); [exact G1|]. apply conv_ret.
    - eapply Forall2_imp; [|exact H4]. intros t x (v & V1 & V2 & V3). exists v. split; [exact V1|]. split; [apply G2, V2|exact V3].
  Qed.
End Decl.
