(** Declarations: one reading at most, and an end without macros. *)
From Verif.Base Require Import Base.
From Verif.Sexp Require Import Model.
From Verif.Syntax Require Import Model ModelDecl Spec SpecBare SpecDecl Proofs ProofsTypes ProofsExprs ProofsRuns ProofsTop ProofsUnique ProofsDecl.
Local Arguments t_ : simpl never.
Local Arguments text_eqb : simpl never.

Lemma Forall2_same {A B C} (R : A -> B -> Prop) (f : B -> C) : (forall a b b2, R a b -> R a b2 -> f b = f b2) ->
  forall l bs bs2, Forall2 R l bs -> Forall2 R l bs2 -> map f bs = map f bs2.
Proof.
  intros H. induction l as [|a l IH]; intros bs bs2 F F2; inversion F; inversion F2; subst; [reflexivity|]. cbn. f_equal; [eapply H; eassumption | apply IH; assumption].
Qed.
Lemma opt_same {A B C} (R : A -> B -> Prop) (f : B -> C) : (forall a b b2, R a b -> R a b2 -> f b = f b2) ->
  forall o x y, reads_opt R o x -> reads_opt R o y -> option_map f x = option_map f y.
Proof. intros H o x y F F2. inversion F; subst; inversion F2; subst; [reflexivity|]. cbn. f_equal. eapply H; eassumption. Qed.
Lemma option_map_same {A} (o : option A) : option_map (fun a => a) o = o.
Proof. destruct o; reflexivity. Qed.

Section Top.
Variable W : world.

Lemma tparam_same v p p2 : view_tparam W v p -> view_tparam W v p2 -> bare_typaram p = bare_typaram p2.
Proof.
  intros [i [k [H ->]]] [i2 [k2 [H2 ->]]]. unfold bare_typaram, bare_binder. cbn. f_equal.
  rewrite <- (option_map_same k), <- (option_map_same k2). apply (opt_same (reads_kind W) (fun k => k)) with (o := stp_kind v); [|exact H|exact H2].
  intros a b b2 G G2. exact (kind_unique W a b G b2 G2).
Qed.
Lemma use_same fits u a b : view_use W fits u a -> view_use W fits u b -> a = b.
Proof. destruct u as [x|l x]; cbn; [congruence|]. intros [c [E [_ ->]]] [c2 [E2 [_ ->]]]. congruence. Qed.
Lemma constr_same v a b : view_constr W v a -> view_constr W v b -> a = b.
Proof.
  intros [u [ts [H1 [H2 ->]]]] [u2 [ts2 [H3 [H4 ->]]]]. rewrite (use_same _ _ _ _ H1 H3), (types_unique W _ _ _ H2 H4). reflexivity.
Qed.
Lemma scheme_same v a b : view_scheme W v a -> view_scheme W v b -> bare_scheme a = bare_scheme b.
Proof.
  intros [ps [ks [t [H1 [H2 [H3 ->]]]]]] [ps2 [ks2 [t2 [G1 [G2 [G3 ->]]]]]]. unfold bare_scheme. cbn. f_equal.
  - exact (Forall2_same _ _ tparam_same _ _ _ H1 G1).
  - rewrite <- (map_same ks), <- (map_same ks2). exact (Forall2_same _ (fun k => k) constr_same _ _ _ H2 G2).
  - exact (type_unique W _ _ H3 _ G3).
Qed.
Lemma con_same s c c2 : reads_con W s c -> reads_con W s c2 -> (bare_binder (fst c), snd c) = (bare_binder (fst c2), snd c2).
Proof.
  intros H H2. apply con_view in H. apply con_view in H2. destruct H as [v [E [V1 V2]]]. destruct H2 as [v2 [E2 [V3 V4]]].
  rewrite E in E2. injection E2 as <-. f_equal.
  - unfold bare_binder. congruence.
  - rewrite <- (option_map_same (snd c)), <- (option_map_same (snd c2)). apply (opt_same (Forall2 (reads_type W)) (fun k => k)) with (o := snd v); [|exact V2|exact V4].
    intros a b b2. apply types_unique.
Qed.
Lemma builtin_con_same s c c2 : reads_builtin_con W s c -> reads_builtin_con W s c2 ->
  (bare_binder (fst (fst c)), snd (fst c), snd c) = (bare_binder (fst (fst c2)), snd (fst c2), snd c2).
Proof.
  intros H H2. destruct H as [l s ls name c H]. inversion H2 as [? ? ? ? c' H3]; subst. cbn [fst snd]. f_equal. exact (con_same _ _ _ H H3).
Qed.
Lemma params_same ps bs bs2 : reads_opt (fun ns bs => map b_sym bs = ns) ps bs -> reads_opt (fun ns bs => map b_sym bs = ns) ps bs2 ->
  option_map (map bare_binder) bs = option_map (map bare_binder) bs2.
Proof. intros H1 G1. eapply opt_same; [|exact H1|exact G1]. intros a b b2 K K2. apply binders_bare. congruence. Qed.
Lemma default_same ss o o2 : reads_default W ss o -> reads_default W ss o2 -> option_map bare_expr o = option_map bare_expr o2.
Proof.
  intros H H2. destruct H as [|ss e N H]; inversion H2 as [|? e2 N2 H3]; subst; try reflexivity; try congruence. cbn. f_equal. exact (body_unique W _ _ H _ H3).
Qed.
Lemma cmethod_same s m m2 : reads_cmethod W s m -> reads_cmethod W s m2 -> bare_cmethod m = bare_cmethod m2.
Proof.
  intros H H2. apply cmethod_view in H. apply cmethod_view in H2. destruct H as [v [E V]]. destruct H2 as [v2 [E2 V2]]. rewrite E in E2. injection E2 as <-.
  destruct V as [i [bs [sc [vs [o [H1 [H2 [H3 [H4 ->]]]]]]]]]. destruct V2 as [i2 [bs2 [sc2 [vs2 [o2 [G1 [G2 [G3 [G4 ->]]]]]]]]].
  rewrite H1 in G1. injection G1 as <-. unfold bare_cmethod. cbn. f_equal; [exact (params_same _ _ _ H3 G3) | exact (scheme_same _ _ _ H2 G2) | exact (default_same _ _ _ H4 G4)].
Qed.
Lemma imethod_same s m m2 : reads_imethod W s m -> reads_imethod W s m2 -> bare_imethod m = bare_imethod m2.
Proof.
  intros H H2. apply imethod_view in H. apply imethod_view in H2. destruct H as [v [E V]]. destruct H2 as [v2 [E2 V2]]. rewrite E in E2. injection E2 as <-.
  destruct V as [i [bs [sc [e [H1 [H2 [H3 ->]]]]]]]. destruct V2 as [i2 [bs2 [sc2 [e2 [G1 [G2 [G3 ->]]]]]]].
  unfold bare_imethod. cbn. f_equal; [exact (params_same _ _ _ H1 G1) | exact (opt_same _ _ scheme_same _ _ _ H2 G2) | exact (body_unique W _ _ H3 _ G3)].
Qed.
Lemma constrs_same ks a b : Forall2 (view_constr W) ks a -> Forall2 (view_constr W) ks b -> a = b.
Proof. intros H G. rewrite <- (map_same a), <- (map_same b). exact (Forall2_same _ (fun k => k) constr_same _ _ _ H G). Qed.
Lemma view_same v d d2 : view_decl W v d -> view_decl W v d2 -> bare_decl d = bare_decl d2.
Proof.
  destruct v as [tr f|l x v name|x v name|x p body|r x ps cs|x ps name cs|sealed x ps ks ms|x ps ks k ms|s0|path ts|ts| |]; cbn [view_decl].
  - intros [i [bs [sc [e [H1 [H2 [H3 ->]]]]]]] [i2 [bs2 [sc2 [e2 [G1 [G2 [G3 ->]]]]]]]. cbn. f_equal.
    + eapply opt_same; [|exact H1|exact G1]. intros a b b2 K K2. apply binders_bare. congruence.
    + exact (opt_same _ _ scheme_same _ _ _ H2 G2).
    + exact (body_unique W _ _ H3 _ G3).
  - intros [i [sc [H1 [_ ->]]]] [i2 [sc2 [G1 [_ ->]]]]. pose proof (scheme_same _ _ _ H1 G1) as E. injection E as _ _ E. cbn. f_equal. exact E.
  - intros [i [sc [H1 ->]]] [i2 [sc2 [G1 ->]]]. cbn. f_equal. exact (scheme_same _ _ _ H1 G1).
  - intros [i [j [e [H1 ->]]]] [i2 [j2 [e2 [G1 ->]]]]. cbn. f_equal. exact (body_unique W _ _ H1 _ G1).
  - intros [i [tps [cs' [H1 [H2 ->]]]]] [i2 [tps2 [cs2 [G1 [G2 ->]]]]]. cbn. f_equal.
    + exact (Forall2_same _ _ tparam_same _ _ _ H1 G1).
    + exact (Forall2_same _ (fun c => (bare_binder (fst c), snd c)) con_same _ _ _ H2 G2).
  - intros [i [tps [cs' [H1 [H2 ->]]]]] [i2 [tps2 [cs2 [G1 [G2 ->]]]]]. cbn. f_equal.
    + exact (Forall2_same _ _ tparam_same _ _ _ H1 G1).
    + exact (Forall2_same _ (fun c => (bare_binder (fst (fst c)), snd (fst c), snd c)) builtin_con_same _ _ _ H2 G2).
  - intros [i [tps [cs [ms' [H1 [H2 [H3 ->]]]]]]] [i2 [tps2 [cs2 [ms2 [G1 [G2 [G3 ->]]]]]]]. cbn. f_equal.
    + exact (Forall2_same _ _ tparam_same _ _ _ H1 G1).
    + exact (constrs_same _ _ _ H2 G2).
    + exact (Forall2_same _ _ cmethod_same _ _ _ H3 G3).
  - intros [i [tps [cs [c [ms' [H1 [H2 [H3 [H4 ->]]]]]]]]] [i2 [tps2 [cs2 [c2 [ms2 [G1 [G2 [G3 [G4 ->]]]]]]]]]. cbn. f_equal.
    + exact (Forall2_same _ _ tparam_same _ _ _ H1 G1).
    + exact (constrs_same _ _ _ H2 G2).
    + exact (constr_same _ _ _ H3 G3).
    + exact (Forall2_same _ _ imethod_same _ _ _ H4 G4).
  - intros [e [H ->]] [e2 [G ->]]. cbn. f_equal. exact (expr_unique W _ _ H _ G).
  - intros -> ->. reflexivity.
  - intros -> ->. reflexivity.
  - intros -> ->. reflexivity.
  - intros [].
Qed.
Lemma decl_unique s d d2 : reads_decl W s d -> reads_decl W s d2 -> bare_decl d = bare_decl d2.
Proof.
  intros H H2. apply reads_decl_eq in H. apply reads_decl_eq in H2. destruct H as [s1 [E F]]. destruct H2 as [s2 [E2 F2]].
  rewrite (expands_unique W s s1 E s2 E2) in F. apply decl_view in F. apply decl_view in F2. destruct F as [v [M V]]. destruct F2 as [v2 [M2 V2]].
  rewrite M in M2. injection M2 as <-. exact (view_same v d d2 V V2).
Qed.

Lemma runs_con n s : fine W n s -> runs (build_con W (S n) s).
Proof.
  intros H. unfold build_con. apply runs_bind; [apply runs_lift|]. intros v [c1 [c2 G]].
  assert (E : match_con s = inl v) by (destruct (match_con s); cbn in G; [injection G as _ ->; reflexivity | discriminate]). clear G.
  apply runs_bind; [|intros; apply runs_bind; [apply runs_declare | intros; apply runs_ret]].
  apply runs_opt. intros fs Ef. apply runs_all. unfold match_con in E. destruct (as_name s); [injection E as <-; discriminate|].
  destruct (as_apply s) as [[a args]|] eqn:A; [|discriminate]. destruct (as_name a); [|discriminate]. injection E as <-. cbn in Ef. injection Ef as <-.
  apply as_apply_some in A. destruct A as [l ->]. apply fine_more in H. apply fine_list in H. destruct H as [_ H]. inversion H as [|? ? _ H2]; subst.
  eapply Forall_impl; [|exact H2]. intros x Hx. apply runs_drop. apply runs_type. exact Hx.
Qed.
Lemma runs_names ns : runs (all declare ns).
Proof. apply runs_all. induction ns; constructor; [apply runs_declare | assumption]. Qed.
Lemma foreign_fine n rest x v name : Forall (fine W n) rest -> match_foreign rest = Some (x, v, name) -> fine_scheme W (S n) v.
Proof.
  intros H E. unfold match_foreign in E. destruct rest as [|a [|[ls r] [|z rest]]]; try discriminate; try (destruct r; discriminate).
  destruct r; try discriminate. destruct (as_form a) as [[k [|y ann]]|] eqn:F; try discriminate.
  destruct (text_eqb k ANNOTATE); [|discriminate]. destruct (as_name y); [|discriminate]. destruct (match_scheme ann) as [v0|] eqn:M; [|discriminate].
  injection E as _ <- _. inversion H as [|? ? H1 _]; subst. apply as_form_some in F. destruct F as [l [lk ->]].
  destruct n as [|n]; [destruct (fine_0 _ _ H1)|]. apply fine_form in H1. destruct H1 as [_ H1]. inversion H1 as [|? ? _ H2]; subst.
  apply (match_scheme_fine W n ann); [apply fine_mores; apply fine_mores; exact H2 | exact M].
Qed.
Lemma runs_tparam n p : (forall k, stp_kind p = Some k -> fine W n k) -> runs (build_tparam W (S n) p).
Proof.
  intros Hp. unfold build_tparam. apply runs_bind.
  - apply runs_opt. intros k Ek. unfold build_kind_ann. apply runs_bind; [apply runs_kind; exact (Hp k Ek)|].
    intros a _. apply runs_bind; [apply runs_next | intros; apply runs_ret].
  - intros k _. apply runs_bind; [apply runs_declare | intros; apply runs_ret].
Qed.
Lemma type_header_fine n s x vs : fine W n s -> as_type_header s = Some (x, vs) -> Forall (fun p => forall k, stp_kind p = Some k -> fine W n k) vs.
Proof.
  intros H E. unfold as_type_header in E. destruct (as_name s); [injection E as _ <-; constructor|].
  destruct (as_apply s) as [[a args]|] eqn:A; [|discriminate]. destruct (as_name a); [|discriminate].
  destruct (all_some match_tparam args) as [vs'|] eqn:M; [|discriminate]. injection E as _ <-. apply as_apply_some in A. destruct A as [l ->].
  destruct n as [|n]; [destruct (fine_0 _ _ H)|]. apply fine_list in H. destruct H as [_ H]. inversion H as [|? ? _ H2]; subst. rewrite Forall_forall in H2.
  apply (all_some_fine match_tparam _ args); [|exact M]. intros b c Hb Eb k Hk. specialize (H2 b Hb).
  unfold match_tparam in Eb. destruct (as_name b); [injection Eb as <-; discriminate|].
  destruct b as [lb rb]; cbn [rep] in Eb. destruct rb as [| | | | |[|y [|z [|z2 zs]]]| | |]; try discriminate. destruct (as_name y); [|discriminate].
  injection Eb as <-. cbn in Hk. injection Hk as <-. apply fine_more in H2. apply fine_list in H2. destruct H2 as [_ H2]. inversion H2 as [|? ? _ H3]; subst. inversion H3; subst.
  apply fine_more. assumption.
Qed.

Lemma lift_gives {A} (r : A + error) a : gives (lift r) a -> r = inl a.
Proof. intros [c1 [c2 G]]. destruct r; cbn in G; [injection G as _ ->; reflexivity | discriminate]. Qed.
Lemma match_con_fine n s x fs : fine W n s -> match_con s = inl (x, Some fs) -> Forall (fine W n) fs.
Proof.
  intros H E. unfold match_con in E. destruct (as_name s); [discriminate|].
  destruct (as_apply s) as [[a args]|] eqn:A; [|discriminate]. destruct (as_name a); [|discriminate]. injection E as _ <-.
  apply as_apply_some in A. destruct A as [l ->]. apply fine_more in H. apply fine_list in H. destruct H as [_ H]. inversion H as [|? ? _ H2]; subst. exact H2.
Qed.
Lemma runs_builtin_con n s : fine W n s -> runs (build_builtin_con W (S n) s).
Proof.
  intros H. unfold build_builtin_con. apply runs_bind; [apply runs_lift|]. intros [[x o] name] E. apply lift_gives in E. cbn [fst snd].
  apply runs_bind; [|intros; apply runs_bind; [apply runs_declare | intros; apply runs_ret]].
  apply runs_opt. intros fs ->. apply runs_all. unfold match_builtin_con in E. destruct s as [l r]; cbn [rep] in E.
  destruct r as [| | | | |[|a [|[ls r] [|z ss]]]| | |]; try discriminate; try (destruct r; discriminate).
  destruct r; try discriminate. destruct (match_con a) as [v0|] eqn:M; [|discriminate]. injection E as -> <-.
  apply fine_more in H. apply fine_list in H. destruct H as [_ H]. inversion H as [|? ? H1 _]; subst.
  eapply Forall_impl; [|exact (match_con_fine n a _ _ H1 M)]. intros y Hy. apply runs_drop. apply runs_type. exact Hy.
Qed.
Lemma match_method_fine n s tr d : fine W n s -> match_method s = inl (tr, d) ->
  Forall (fine W n) (sd_body d) /\ forall sc, sd_scheme d = Some sc -> fine_scheme W n sc.
Proof.
  intros H E. apply method_view in E. destruct E as [l [lk [a [body [x [ps [sc [-> [A ->]]]]]]]]]. cbn [sd_body sd_scheme].
  apply fine_more in H. apply fine_form in H. destruct H as [_ H]. inversion H as [|? ? H1 H2]; subst. split; [exact H2|].
  intros sc' ->. exact (annotated_fine W n (runs_expr W n) a x ps sc' H1 A).
Qed.
Lemma runs_default n body : Forall (fine W n) body -> runs (build_default W (S n) body).
Proof.
  intros H. unfold build_default. destruct body; [apply runs_ret|]. apply runs_bind; [|intros; apply runs_ret].
  apply runs_block; [intros z; apply runs_expr | exact H].
Qed.
Lemma runs_cmethod n s : fine W n s -> runs (build_cmethod W (S n) s).
Proof.
  intros H. unfold build_cmethod. apply runs_bind; [apply runs_lift|]. intros [tr d] E. apply lift_gives in E. apply (match_method_fine n) in E; [|exact H].
  destruct E as [E1 E2]. destruct (sd_scheme d) as [sc|]; [|apply runs_refuse]. apply runs_bind; [apply runs_scheme; apply E2; reflexivity|]. intros sc' _.
  apply runs_bind; [apply runs_opt; intros; apply runs_names|]. intros ps _. apply runs_bind; [apply runs_default; exact E1|]. intros o _.
  apply runs_bind; [apply runs_declare | intros; apply runs_ret].
Qed.
Lemma runs_imethod n s : fine W n s -> runs (build_imethod W (S n) s).
Proof.
  intros H. unfold build_imethod. apply runs_bind; [apply runs_lift|]. intros [tr d] E. apply lift_gives in E. apply (match_method_fine n) in E; [|exact H].
  destruct E as [E1 E2]. apply runs_bind; [apply runs_opt; intros; apply runs_names|]. intros ps _.
  apply runs_bind; [apply runs_opt; intros sc Es; apply runs_scheme; exact (E2 sc Es)|]. intros sc' _.
  apply runs_bind; [apply runs_block; [intros z; apply runs_expr | exact E1]|]. intros e _. apply runs_bind; [apply runs_next|]. intros i _.
  apply runs_bind; [apply runs_declare | intros; apply runs_ret].
Qed.
Definition fine_constr (n : nat) (c : sconstr) : Prop := fine_use W (scn_target c) /\ fine_fields W n (scn_args c).
Lemma match_constr_fine n s c : fine W n s -> match_constr s = Some c -> fine_constr n c.
Proof.
  intros H E. unfold match_constr in E. destruct (as_parameterized s) as [[u o]|] eqn:P; [|discriminate]. injection E as <-.
  apply fine_more in H. exact (parameterized_fine W n s u o H P).
Qed.
Lemma runs_constr n c : fine_constr n c -> runs (build_constr W (S n) c).
Proof.
  intros [H1 H2]. unfold build_constr. apply runs_bind; [apply runs_use; exact H1|]. intros u _. apply runs_bind; [|intros; apply runs_bind; [apply runs_next | intros; apply runs_ret]].
  apply runs_all. destruct (scn_args c) as [args|]; [|constructor]. eapply Forall_impl; [apply runs_type | exact H2].
Qed.
Lemma where_first_fine n ls ks rest : Forall (fine W n) ls -> take_where_first ls = Some (ks, rest) -> Forall (fine_constr n) ks /\ Forall (fine W n) rest.
Proof.
  intros H E. destruct ls as [|f ls]; cbn in E; [injection E as <- <-; split; constructor|].
  destruct (as_form f) as [[h cs]|] eqn:F; [|injection E as <- <-; split; [constructor | exact H]].
  destruct (text_eqb h (t_ "where")); [|injection E as <- <-; split; [constructor | exact H]].
  destruct (all_some match_constr cs) as [ks'|] eqn:A; [|discriminate]. injection E as <- <-. inversion H as [|? ? H1 H2]; subst. split; [|exact H2].
  apply as_form_some in F. destruct F as [l [lk ->]]. apply fine_more in H1. apply fine_form in H1. destruct H1 as [_ H1]. rewrite Forall_forall in H1.
  apply (all_some_fine match_constr _ cs); [|exact A]. intros a b Ha Eb. exact (match_constr_fine n a b (H1 a Ha) Eb).
Qed.
Lemma tparam_fine n b c : fine W n b -> match_tparam b = Some c -> forall k, stp_kind c = Some k -> fine W n k.
Proof.
  intros H2 Eb k Hk. unfold match_tparam in Eb. destruct (as_name b); [injection Eb as <-; discriminate|].
  destruct b as [lb rb]; cbn [rep] in Eb. destruct rb as [| | | | |[|y [|z [|z2 zs]]]| | |]; try discriminate. destruct (as_name y); [|discriminate].
  injection Eb as <-. cbn in Hk. injection Hk as <-. apply fine_more in H2. apply fine_list in H2. destruct H2 as [_ H2]. inversion H2 as [|? ? _ H3]; subst. inversion H3; subst.
  assumption.
Qed.
Lemma forall_fine n ls ps rest : Forall (fine W n) ls -> take_forall ls = Some (ps, rest) ->
  Forall (fun p => forall k, stp_kind p = Some k -> fine W n k) ps /\ Forall (fine W n) rest.
Proof.
  intros H E. destruct ls as [|f ls]; cbn in E; [injection E as <- <-; split; constructor|].
  destruct (as_form f) as [[h cs]|] eqn:F; [|injection E as <- <-; split; [constructor | exact H]].
  destruct (text_eqb h (t_ "forall")); [|injection E as <- <-; split; [constructor | exact H]].
  destruct (all_some match_tparam cs) as [ks'|] eqn:A; [|discriminate]. injection E as <- <-. inversion H as [|? ? H1 H2]; subst. split; [|exact H2].
  apply as_form_some in F. destruct F as [l [lk ->]]. apply fine_more in H1. apply fine_form in H1. destruct H1 as [_ H1]. rewrite Forall_forall in H1.
  apply (all_some_fine match_tparam _ cs); [|exact A]. intros a b Ha Eb. exact (tparam_fine n a b (H1 a Ha) Eb).
Qed.

Lemma runs_decl n s : fine W n s -> (forall l lk k rest, s = form l lk k rest -> ~ In k other_words) -> runs (build_decl W (S n) s).
Proof.
  intros H O. destruct n as [|n]; [destruct (fine_0 _ _ H)|]. unfold build_decl. apply runs_node; [apply fine_more; exact H|]. intros v E.
  assert (Ex : runs (andthen (build_expr W (S (S n)) s) (fun e => ret (DeExpr e)))).
  { apply runs_bind; [apply runs_expr; exact H | intros; apply runs_ret]. }
  unfold match_decl in E. destruct (as_form s) as [[h rest]|] eqn:F; [|injection E as <-; exact Ex].
  apply as_form_some in F. destruct F as [l [lk F]]. pose proof H as H0. rewrite F in H0. apply fine_form in H0. destruct H0 as [_ Hr].
  assert (Fun : forall tr, match match_function (sloc s) rest with Some a => inl (SDFunction tr a) | None => inr (NoMatch (sloc s) (t_ "<declaration>")) end = inl v -> runs
      match v with
      | SDFunction tr d =>
        andthen (opt (all declare) (sd_params d)) (fun ps =>
        andthen (opt (build_scheme W (S (S n))) (sd_scheme d)) (fun sc =>
        andthen (build_block W (build_expr W (S (S n))) (sd_body d)) (fun e =>
        andthen (declare (sd_name d)) (fun b => ret (DeFunction tr b ps sc e)))))
      | _ => tired
      end).
  { intros tr G. unfold match_function in G. destruct rest as [|a body]; [discriminate|].
    destruct (as_annotated a) as [[[x ps0] sc0]|] eqn:N; [|discriminate]. injection G as <-. cbn [sd_params sd_scheme sd_body sd_name].
    inversion Hr as [|? ? H1 H2]; subst. apply runs_bind; [apply runs_opt; intros; apply runs_names|]. intros ps _.
    apply runs_bind; [apply runs_opt; intros sc Es; subst; apply runs_scheme; apply (annotated_fine W (S n) (runs_expr W (S n)) a x ps0); [apply fine_more; exact H1 | exact N]|]. intros sc _.
    apply runs_bind; [apply runs_block; [intros z; apply runs_expr | apply fine_mores; exact H2]|]. intros e _.
    apply runs_bind; [apply runs_declare | intros; apply runs_ret]. }
  assert (Dat : forall r, match match_data rest with Some a => inl (let '(n, ps, cs) := a in SDData r n ps cs) | None => inr (NoMatch (sloc s) (t_ "<declaration>")) end = inl v -> runs
      match v with
      | SDData r x ps cs =>
        andthen (all (build_tparam W (S (S n))) ps) (fun ps => andthen (declare x) (fun b => andthen (all (build_con W (S (S n))) cs) (fun cs => ret (DeData r b ps cs))))
      | _ => tired
      end).
  { intros r G. unfold match_data in G. destruct rest as [|a cs0]; [discriminate|].
    destruct (as_type_header a) as [[x ps0]|] eqn:N; [|discriminate]. injection G as <-. inversion Hr as [|? ? H1 H2]; subst.
    apply runs_bind; [apply runs_all; eapply Forall_impl; [apply runs_tparam | apply (type_header_fine (S n) a x); [apply fine_more; exact H1 | exact N]]|]. intros ps _.
    apply runs_bind; [apply runs_declare|]. intros b _. apply runs_bind; [|intros; apply runs_ret].
    apply runs_all. eapply Forall_impl; [apply runs_con | apply fine_mores; exact H2]. }
  word_is E; [specialize (Fun false E); destruct v; try (destruct (match_function _ _); discriminate E); exact Fun|].
  word_is E; [specialize (Fun true E); destruct v; try (destruct (match_function _ _); discriminate E); exact Fun|].
  word_is E.
  { destruct (match_foreign rest) as [[[x sc0] c]|] eqn:G; [|discriminate]. injection E as <-. apply foreign_fine with (n := n) in G; [|exact Hr].
    apply runs_bind; [apply runs_scheme; exact G|]. intros sc _. destruct (is_monomorphic sc); [|apply runs_refuse]. apply runs_bind; [apply runs_declare | intros; apply runs_ret]. }
  word_is E.
  { destruct (match_foreign rest) as [[[x sc0] c]|] eqn:G; [|discriminate]. injection E as <-. apply foreign_fine with (n := n) in G; [|exact Hr].
    apply runs_bind; [apply runs_scheme; exact G|]. intros sc _. apply runs_bind; [apply runs_declare | intros; apply runs_ret]. }
  word_is E.
  { destruct (match_macro rest) as [[[x p] body]|] eqn:G; [|discriminate]. injection E as <-.
    unfold match_macro in G. destruct rest as [|[lh [| | | | |[|a [|b [|c ss]]]| | |]] rest]; try discriminate.
    destruct (as_name a) as [x'|]; [|discriminate]. destruct (as_name b) as [p'|]; [|discriminate]. injection G as -> -> ->.
    inversion Hr as [|? ? _ H2]; subst. apply runs_bind; [apply runs_declare|]. intros b0 _.
    apply runs_bind; [apply runs_block; [intros z; apply runs_expr | apply fine_mores; exact H2]|]. intros e _. apply runs_bind; [apply runs_declare | intros; apply runs_ret]. }
  word_is E; [specialize (Dat ReprDefault E); destruct v; try (destruct (match_data _) as [[[? ?] ?]|]; discriminate E); exact Dat|].
  word_is E; [specialize (Dat ReprValue E); destruct v; try (destruct (match_data _) as [[[? ?] ?]|]; discriminate E); exact Dat|].
  word_is E; [specialize (Dat ReprC E); destruct v; try (destruct (match_data _) as [[[? ?] ?]|]; discriminate E); exact Dat|].
  assert (Cls : forall b, match match_class rest with Some a => inl (let '(n, ps, ks, ms) := a in SDClass b n ps ks ms) | None => inr (NoMatch (sloc s) (t_ "<declaration>")) end = inl v -> runs
      match v with
      | SDClass sealed x ps ks ms =>
        andthen (all (build_tparam W (S (S n))) ps) (fun ps => andthen (all (build_constr W (S (S n))) ks) (fun ks => andthen next (fun _ => andthen (declare x) (fun b =>
        andthen (all (build_cmethod W (S (S n))) ms) (fun ms => ret (DeClass sealed b ps ks ms))))))
      | _ => tired
      end).
  { intros b G. unfold match_class in G. destruct rest as [|a ls]; [discriminate|].
    destruct (as_type_header a) as [[x ps0]|] eqn:N; [|discriminate]. destruct (take_where_first ls) as [[ks0 ms0]|] eqn:N2; [|discriminate].
    injection G as <-. inversion Hr as [|? ? H1 H2]; subst. apply (where_first_fine (S n)) in N2; [|apply fine_mores; exact H2]. destruct N2 as [N2 N3].
    apply runs_bind; [apply runs_all; eapply Forall_impl; [apply runs_tparam | apply (type_header_fine (S n) a x); [apply fine_more; exact H1 | exact N]]|]. intros ps _.
    apply runs_bind; [apply runs_all; eapply Forall_impl; [apply runs_constr | exact N2]|]. intros ks _.
    apply runs_bind; [apply runs_next|]. intros _ _. apply runs_bind; [apply runs_declare|]. intros b0 _. apply runs_bind; [|intros; apply runs_ret].
    apply runs_all. eapply Forall_impl; [apply runs_cmethod | exact N3]. }
  word_is E.
  { destruct (match_builtin_type rest) as [[[[x ps0] name] cs0]|] eqn:G; [|discriminate]. injection E as <-.
    unfold match_builtin_type in G. destruct rest as [|a [|[ls r] rest]]; try discriminate. destruct r; try discriminate.
    destruct (as_type_header a) as [[x' ps']|] eqn:N; [|discriminate]. injection G as -> -> -> ->. inversion Hr as [|? ? H1 H2]; subst. inversion H2 as [|? ? _ H3]; subst.
    apply runs_bind; [apply runs_all; eapply Forall_impl; [apply runs_tparam | apply (type_header_fine (S n) a x); [apply fine_more; exact H1 | exact N]]|]. intros ps _.
    apply runs_bind; [apply runs_declare|]. intros b0 _. apply runs_bind; [|intros; apply runs_ret].
    apply runs_all. eapply Forall_impl; [apply runs_builtin_con | apply fine_mores; exact H3]. }
  word_is E; [specialize (Cls false E); destruct v; try (destruct (match_class _) as [[[[? ?] ?] ?]|]; discriminate E); exact Cls|].
  word_is E; [specialize (Cls true E); destruct v; try (destruct (match_class _) as [[[[? ?] ?] ?]|]; discriminate E); exact Cls|].
  word_is E.
  { destruct (match_instance rest) as [[[[[x ps0] ks0] k0] ms0]|] eqn:G; [|discriminate]. injection E as <-.
    unfold match_instance in G. destruct rest as [|a ls]; [discriminate|]. destruct (as_name a) as [x'|] eqn:Na; [|discriminate].
    destruct (take_forall ls) as [[vs [|t0 ls']]|] eqn:T; try discriminate. destruct (match_constr t0) as [k'|] eqn:Mc; [|discriminate].
    destruct (take_where_first ls') as [[ks' ms']|] eqn:T2; [|discriminate]. injection G as -> -> -> -> ->. inversion Hr as [|? ? _ H2]; subst.
    apply (forall_fine (S n)) in T; [|apply fine_mores; exact H2]. destruct T as [T T3]. inversion T3 as [|? ? T4 T5]; subst.
    apply (match_constr_fine (S n)) in Mc; [|exact T4]. apply (where_first_fine (S n)) in T2; [|exact T5]. destruct T2 as [N2 N3].
    apply runs_bind; [apply runs_all; eapply Forall_impl; [apply runs_tparam | exact T]|]. intros ps _.
    apply runs_bind; [apply runs_all; eapply Forall_impl; [apply runs_constr | exact N2]|]. intros ks _.
    apply runs_bind; [apply runs_constr; exact Mc|]. intros k _. apply runs_bind; [apply runs_declare|]. intros b0 _. apply runs_bind; [|intros; apply runs_ret].
    apply runs_all. eapply Forall_impl; [apply runs_imethod | exact N3]. }
  word_is E; [destruct (match_import rest) as [[path ts]|]; [|discriminate]; injection E as <-; apply runs_ret|].
  word_is E; [injection E as <-; apply runs_ret|].
  destruct (existsb (text_eqb h) other_words) eqn:X.
  { apply existsb_exists in X. destruct X as [k [X1 X2]]. apply eqb_text in X2. subst k. destruct (O l lk h rest F X1). }
  word_is E; [destruct rest as [|a rest]|]; injection E as <-; [apply runs_ret | exact Ex | exact Ex].
Qed.
End Top.
