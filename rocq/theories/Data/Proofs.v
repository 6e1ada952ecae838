(** * Building a value and matching it *)
From Verif.Base Require Import Base.
From Verif.Ir Require Import Model Spec.
From Verif.Data Require Import Model Spec.

Lemma log2_up_bound n k : (N.of_nat n <= 2 ^ N.of_nat k)%N -> (Nat.log2_up n <= k)%nat.
Proof.
  intro H. destruct n as [|n]; [cbn; lia|]. apply Nat.log2_up_le_pow2; [lia|].
  replace 2%N with (N.of_nat 2) in H by reflexivity. rewrite <- Nat2N.inj_pow in H. lia.
Qed.

Lemma index_fits n i : (i < n)%nat -> (N.of_nat i < 2 ^ N.of_nat (Nat.log2_up n))%N.
Proof.
  intro H. replace 2%N with (N.of_nat 2) by reflexivity. rewrite <- Nat2N.inj_pow.
  enough (i < 2 ^ Nat.log2_up n)%nat by lia.
  eapply Nat.lt_le_trans; [exact H|]. apply Nat.log2_up_le_pow2; lia.
Qed.

Lemma int_bits_le k : (k <= 64)%nat -> (N.of_nat k <= int_bits k)%N.
Proof.
  unfold int_bits. intro.
  destruct (Nat.leb_spec k 8), (Nat.leb_spec k 16), (Nat.leb_spec k 32); lia.
Qed.

(** [b] is a body for the constructors [kons]. *)
Definition body_for (kons : list (list ct)) (b : body) : Prop :=
  match b with
  | BAlias i ty => nth_error kons i = Some [ty] /\ forall j f, nth_error kons j = Some f -> j <> i -> f = []
  | BStruct i _ =>
      (exists f, nth_error kons i = Some f /\ f <> []) /\
      forall j f, nth_error kons j = Some f -> j <> i -> f = []
  | BUnion _ ids => List.length ids = List.length kons
  end.

Lemma find_nonempty_spec kons : forall n,
  List.length (filter (fun fields : list ct => negb (is_empty fields)) kons) = 1%nat ->
  exists i f, find_nonempty n kons = Ret (n + i, f)%nat /\ nth_error kons i = Some f /\ f <> [] /\
    forall j g, nth_error kons j = Some g -> j <> i -> g = [].
Proof.
  induction kons as [|c kons IH]; intros n H; [discriminate H|].
  destruct c as [|t c]; cbn [find_nonempty].
  - destruct (IH (S n) H) as (i & f & E & Ni & Nf & O). exists (S i), f.
    rewrite E. replace (S n + i)%nat with (n + S i)%nat by lia. repeat split; try assumption.
    intros [|j] g Hj Ne; [now injection Hj as <-|]. apply (O j g Hj). lia.
  - exists 0%nat, (t :: c). rewrite Nat.add_0_r. repeat split; [discriminate|].
    intros [|j] g Hj Ne; [contradiction|]. cbn in H. injection H as H. apply length_zero_iff_nil in H.
    destruct g as [|u g]; [reflexivity|]. cbn [nth_error] in Hj. apply nth_error_In in Hj.
    assert (In (u :: g) []) as [] by (rewrite <- H; apply filter_In; split; [exact Hj|reflexivity]).
Qed.

Lemma add_structs_length kons : forall e ids e', add_structs e kons = (ids, e') ->
  List.length ids = List.length kons.
Proof.
  induction kons as [|c kons IH]; cbn [add_structs]; intros e ids e' H; [injection H as <- <-; reflexivity|].
  destruct (add_def e (DStruct SStandard c)) as [id e1].
  destruct (add_structs e1 kons) as [ids1 e2] eqn:E. injection H as <- <-. cbn. f_equal. eauto.
Qed.

(** [x] is an expansion for the constructors [kons]. *)
Definition expansion_for (kons : list (list ct)) (x : expansion) : Prop :=
  match x with
  | EUnit => kons = [] \/ kons = [[]]
  | EEnum n => n = List.length kons /\ forall j f, nth_error kons j = Some f -> f = []
  | EAlias t => kons = [[t]]
  | EBoxedStruct _ | EStruct _ => exists f, kons = [f]
  | EBoxedTagged _ n b | ETagged _ n b => n = List.length kons /\ body_for kons b
  end.

Lemma computed_for d named e x e' :
  compute_data_expansion d named e = Ret (x, e') -> expansion_for (d_cons d) x.
Proof.
  unfold compute_data_expansion. destruct d as [repr kons]. cbn [d_cons d_repr]. intro H.
  destruct kons as [|f [|g kons]].
  - injection H as <- <-. now left.
  - destruct repr, f as [|t [|]], named; injection H as <- <-; cbn; eauto.
  - set (ks := f :: g :: kons) in *. destruct repr; [| |discriminate H].
    all: set (c := List.length (filter _ ks)) in *; destruct c as [|[|c']] eqn:C; subst c.
    all: try (injection H as <- <-; split; [reflexivity|]; intros j u Hj;
      apply length_zero_iff_nil in C; destruct u as [|t u]; [reflexivity|]; apply nth_error_In in Hj;
      assert (In (t :: u) []) as [] by (rewrite <- C; apply filter_In; split; [exact Hj|reflexivity])).
    all: try (destruct (find_nonempty_spec ks 0 C) as (i & u & E & Hi & Nu & O); rewrite E in H;
      cbn [bind Nat.add] in H; destruct u as [|t [|t2 u]]; [contradiction| |];
      injection H as <- <-; (split; [reflexivity|]); split; eauto).
    all: unfold union_on in H; destruct (add_structs e ks) as [ids e1] eqn:A; injection H as <- <-;
      (split; [reflexivity|]); exact (add_structs_length _ _ _ _ A).
Qed.

Section Build.
Variables (scoped : bool) (round32 : fp -> fp) (prim : prim_op -> heap -> list val -> option (heap * val))
  (funs : nat -> option (list nat * list nat * rt)).
Notation ev := (ev scoped round32 prim funs).
Notation evs := (evs scoped round32 prim funs).
Notation pmatch := (pmatch round32).

Hypothesis uninit : forall t h, exists v, prim (QNullary (NUninitialized t)) h [] = Some (h, v).

(** The tag of constructor [i] among [n]. *)
Definition tag (n i : nat) : val :=
  match n with O | S O => VUnit | _ => VInt (N.of_nat i mod 2 ^ int_bits (Nat.log2_up n)) end.

Lemma tag_ev n i h e : ev h e (enum_rt n i) h (RsVal (tag n i)).
Proof.
  unfold enum_rt, enum_const, tag. destruct n as [|[|n]];
    (eapply ev_operation; [reflexivity|constructor|reflexivity]).
Qed.

Lemma tag_match n i j h : (N.of_nat n <= 2 ^ 64)%N -> (i < n)%nat -> (j < n)%nat ->
  pmatch h (enum_pat n j) (tag n i) = if (j =? i)%nat then MYes [] else MNo.
Proof.
  intros Hn Hi Hj. unfold enum_pat, enum_const, tag.
  destruct n as [|[|n]]; [lia| |].
  - replace (j =? i)%nat with true by (symmetry; apply Nat.eqb_eq; lia). reflexivity.
  - cbn [Spec.pmatch]. unfold equals_const, const_val, enum_ct.
    pose proof (index_fits _ _ Hi) as Fi. pose proof (index_fits _ _ Hj) as Fj.
    pose proof (int_bits_le _ (log2_up_bound _ 64 Hn)) as B.
    set (k := Nat.log2_up (S (S n))) in *.
    pose proof (N.pow_le_mono_r 2 (N.of_nat k) (int_bits k) ltac:(lia) B) as P.
    rewrite !N.mod_small by lia.
    destruct (Nat.eqb_spec j i) as [->|Ne]; [now rewrite N.eqb_refl|].
    destruct (N.eqb_spec (N.of_nat j) (N.of_nat i)); [lia|reflexivity].
Qed.

Lemma kept_refl h : unchanged h h. Proof. intros a c H; exact H. Qed.
Lemma kept_snoc h c : unchanged h (h ++ [c]).
Proof. intros a x H. rewrite nth_error_app1; [exact H|]. now apply nth_error_Some; rewrite H. Qed.

Lemma uninit_ev t h e : exists v, ev h e (RNullary (NUninitialized t)) h (RsVal v).
Proof.
  destruct (uninit t h) as [v E]. exists v. eapply ev_operation; [reflexivity|constructor|].
  cbn. unfold by_prim. now rewrite E.
Qed.

Lemma alloc_ev h e x h1 v l : ev h e x h1 (RsVal v) ->
  ev h e (RAlloc l x) (h1 ++ [Some v]) (RsVal (VPtr (List.length h1))).
Proof.
  intro E. eapply ev_operation; [reflexivity|eapply evs_cons; [exact E|constructor]|reflexivity].
Qed.

Lemma load_snoc h v : load (h ++ [Some v]) (List.length h) = Some v.
Proof. unfold load. rewrite nth_error_app2, Nat.sub_diag by lia. reflexivity. Qed.

Lemma struct_ev h e es h1 vs t : evs h e es h1 (inl vs) ->
  ev h e (RConstructStruct t es) h1 (RsVal (VStruct t vs)).
Proof. intro E. eapply ev_operation; [reflexivity|exact E|reflexivity]. Qed.

Lemma tagged_ev h e es h1 v id n i : ev h e es h1 (RsVal v) ->
  ev h e (RConstructStruct (CtId id) [enum_rt n i; es]) h1 (RsVal (VStruct (CtId id) [tag n i; v])).
Proof.
  intro E. apply struct_ev. eapply evs_cons; [apply tag_ev|]. eapply evs_cons; [exact E|constructor].
Qed.

Lemma one_field h p v : pmatch_fields (pmatch h) [p] [v] = pmatch h p v.
Proof. cbn. destruct (pmatch h p v); cbn; rewrite ?app_nil_r; reflexivity. Qed.

Lemma struct_match h t t' ps vs : pmatch h (PStruct t ps) (VStruct t' vs) = pmatch_fields (pmatch h) ps vs.
Proof. reflexivity. Qed.

Lemma evs_length h e es h1 vs : evs h e es h1 (inl vs) -> List.length vs = List.length es.
Proof.
  remember (inl vs) as r eqn:R. intro H. revert vs R.
  induction H; intros ws R; inversion R; subst; cbn; auto.
Qed.

Lemma evs_one h e x h1 vs : evs h e [x] h1 (inl vs) -> exists v, vs = [v] /\ ev h e x h1 (RsVal v).
Proof. intro H. inversion H; subst. match goal with K : evs _ _ [] _ _ |- _ => inversion K; subst end. eauto. Qed.

(** What a body must do, at index [i], given arguments that evaluate to [vs]; [patf j ps] is its
    pattern. *)
Definition builds (kons : list (list ct)) (i : nat) (h h1 : heap) (e : Spec.env) (vs : list val)
  (made : outcome rt) (pats : nat -> list rtpat -> outcome rtpat) : Prop :=
  exists x h2 w, made = Ret x /\ ev h e x h2 (RsVal w) /\ unchanged h1 h2 /\
    forall j fj ps, nth_error kons j = Some fj -> List.length ps = List.length fj ->
      exists p, pats j ps = Ret p /\
        (j = i -> forall h3, still_holds h1 h2 h3 -> pmatch h3 p w = pmatch_fields (pmatch h3) ps vs).

Lemma body_builds kons b i fi h e es h1 vs :
  body_for kons b -> nth_error kons i = Some fi ->
  List.length es = List.length fi -> evs h e es h1 (inl vs) ->
  builds kons i h h1 e vs (body_rt b i es) (body_pat b).
Proof.
  intros B Hi Le E. destruct b as [k ty|k id|id ids]; cbn [body_for body_rt body_pat] in *.
  - destruct B as [Bk Bo]. destruct (Nat.eqb_spec i k) as [->|Ne].
    + rewrite Bk in Hi. injection Hi as <-. destruct es as [|x [|]]; try discriminate Le.
      destruct (evs_one _ _ _ _ _ E) as (v & -> & Ex).
      exists x, h1, v. repeat split; [exact Ex|apply kept_refl|].
      intros j fj ps Hj Lp. cbn [body_pat]. destruct (Nat.eqb_spec j k) as [->|Nj].
      * rewrite Bk in Hj. injection Hj as <-. destruct ps as [|p [|]]; try discriminate Lp.
        exists p. split; [reflexivity|]. intros _ h3 _. symmetry. apply one_field.
      * eexists. split; [reflexivity|]. intro; contradiction.
    + rewrite (Bo _ _ Hi Ne) in Le. destruct es; [|discriminate Le]. inversion E; subst.
      destruct (uninit_ev ty h1 e) as [v Ev].
      exists (RNullary (NUninitialized ty)), h1, v. repeat split; [exact Ev|apply kept_refl|].
      intros j fj ps Hj Lp. cbn [body_pat]. destruct (Nat.eqb_spec j k) as [->|Nj].
      * rewrite Bk in Hj. injection Hj as <-. destruct ps as [|p [|]]; try discriminate Lp.
        exists p. split; [reflexivity|]. intros ->; contradiction.
      * eexists. split; [reflexivity|]. intros -> h3 _. rewrite (Bo _ _ Hj Nj) in Lp.
        destruct ps; [reflexivity|discriminate Lp].
  - destruct B as [Bk Bo]. destruct (Nat.eqb_spec i k) as [->|Ne].
    + eexists _, h1, _. repeat split; [apply struct_ev; exact E|apply kept_refl|].
      intros j fj ps Hj Lp. cbn [body_pat]. destruct (Nat.eqb_spec j k) as [->|Nj].
      * eexists. split; [reflexivity|]. intros _ h3 _. reflexivity.
      * eexists. split; [reflexivity|]. intro; contradiction.
    + rewrite (Bo _ _ Hi Ne) in Le. destruct es; [|discriminate Le]. inversion E; subst.
      destruct (uninit_ev (CtId id) h1 e) as [v Ev].
      eexists _, h1, v. repeat split; [exact Ev|apply kept_refl|].
      intros j fj ps Hj Lp. cbn [body_pat]. destruct (Nat.eqb_spec j k) as [->|Nj].
      * eexists. split; [reflexivity|]. intros ->; contradiction.
      * eexists. split; [reflexivity|]. intros -> h3 _. rewrite (Bo _ _ Hj Nj) in Lp.
        destruct ps; [reflexivity|discriminate Lp].
  - unfold at_index.
    assert (Ids : forall j f, nth_error kons j = Some f -> exists s, nth_error ids j = Some s).
    { intros j f Hj. destruct (nth_error ids j) eqn:N; [eauto|]. apply nth_error_None in N.
      assert (j < List.length kons)%nat by (apply nth_error_Some; congruence).
      lia. }
    destruct (Ids _ _ Hi) as [s Es]. rewrite Es. cbn [bind].
    eexists _, h1, _. repeat split; [|apply kept_refl|].
    + eapply ev_operation; [reflexivity|eapply evs_cons; [apply struct_ev; exact E|constructor]|reflexivity].
    + intros j fj ps Hj Lp. cbn [body_pat]. unfold at_index. destruct (Ids _ _ Hj) as [s' Es']. rewrite Es'. cbn [bind].
      eexists. split; [reflexivity|]. intros -> h3 _. rewrite Es in Es'. injection Es' as <-.
      cbn [Spec.pmatch pat_ty]. destruct (ct_eq_dec (CtId s) (CtId s)); [reflexivity|contradiction].
Qed.

Lemma body_pat_total kons b j fj ps : body_for kons b -> nth_error kons j = Some fj ->
  List.length ps = List.length fj -> exists p, body_pat b j ps = Ret p.
Proof.
  intros B Hj Lp. destruct b as [k ty|k id|id ids]; cbn [body_for body_pat] in *.
  - destruct B as [Bk Bo]. destruct (Nat.eqb_spec j k) as [->|Nj]; [|eauto].
    rewrite Bk in Hj. injection Hj as <-. destruct ps as [|p [|]]; try discriminate Lp. exists p. reflexivity.
  - destruct (Nat.eqb_spec j k); eauto.
  - unfold at_index. destruct (nth_error ids j) eqn:N; [cbn; eauto|]. apply nth_error_None in N.
    assert (j < List.length kons)%nat by (apply nth_error_Some; congruence). lia.
Qed.

Lemma boxed_builds kons b i fi h e es h1 vs :
  body_for kons b -> nth_error kons i = Some fi ->
  List.length es = List.length fi -> evs h e es h1 (inl vs) ->
  builds kons i h h1 e vs (body_rt_boxed b i es) (body_pat_boxed b).
Proof.
  intros B Hi Le E.
  destruct (body_builds _ _ _ _ _ _ _ _ _ B Hi Le E) as (x & h2 & w & Ex & Ew & K & P).
  (* when the body is allocated *)
  assert (Boxed : builds kons i h h1 e vs (let* y := body_rt b i es in Ret (RAlloc LHeap y))
                    (fun j ps => let* p := body_pat b j ps in Ret (PDeref p))).
  { rewrite Ex. eexists _, (h2 ++ [Some w]), _. repeat split; [apply alloc_ev; exact Ew| |].
    - intros a c Ha. apply kept_snoc. apply K. exact Ha.
    - intros j fj ps Hj Lp. destruct (P j fj ps Hj Lp) as (p & -> & M).
      eexists. split; [reflexivity|]. intros -> h3 St. cbn [Spec.pmatch].
      assert (L : (List.length h1 <= List.length h2)%nat).
      { destruct (Nat.le_gt_cases (List.length h1) (List.length h2)) as [|G]; [assumption|].
        destruct (nth_error h1 (List.length h2)) as [c|] eqn:N; [|apply nth_error_None in N; lia].
        apply K in N. enough (List.length h2 < List.length h2)%nat by lia. apply nth_error_Some. congruence. }
      rewrite (St (List.length h2) w L (load_snoc _ _)). apply M; [reflexivity|].
      intros a v La Ha. apply St; [exact La|]. unfold load in *.
      destruct (nth_error h2 a) as [c|] eqn:N; [|discriminate Ha].
      now rewrite (kept_snoc h2 (Some w) a c N). }
  destruct b as [k ty|k id|id ids]; [| |exact Boxed];
    cbn [body_rt_boxed body_pat_boxed]; (destruct (Nat.eqb_spec i k) as [->|Ne]; cbn [negb]).
  1,3: destruct Boxed as (y & g2 & w' & Ey & Ew' & K' & P');
    exists y, g2, w'; repeat split; [exact Ey|exact Ew'|exact K'|];
    intros j fj ps Hj Lp; cbn [body_pat_boxed]; destruct (Nat.eqb_spec j k) as [->|Nj]; cbn [negb];
    [exact (P' k fj ps Hj Lp)|eexists; split; [reflexivity|intro; contradiction]].
  all: clear Boxed P Ew Ex K;
    assert (Bo : forall j f, nth_error kons j = Some f -> j <> k -> f = []) by apply B;
    rewrite (Bo _ _ Hi Ne) in Le; destruct es; [|discriminate Le]; inversion E; subst;
    edestruct uninit_ev as [v Ev];
    eexists _, h1, v; split; [reflexivity|]; split; [exact Ev|]; split; [apply kept_refl|];
    intros j fj ps Hj Lp; cbn [body_pat_boxed]; destruct (Nat.eqb_spec j k) as [->|Nj]; cbn [negb];
    [destruct (body_pat_total _ _ _ _ _ B Hj Lp) as [p ->]; eexists; split; [reflexivity|intros ->; contradiction] |
    eexists; split; [reflexivity|]; intros -> h3 _; rewrite (Bo _ _ Hj Nj) in Lp;
      destruct ps; [reflexivity|discriminate Lp]].
Qed.

Lemma data_exact kons x i fi h e es h1 vs :
  expansion_for kons x -> (N.of_nat (List.length kons) <= 2 ^ 64)%N ->
  nth_error kons i = Some fi -> List.length es = List.length fi -> evs h e es h1 (inl vs) ->
  exists made h2 w, to_rt x i es = Ret made /\ ev h e made h2 (RsVal w) /\ unchanged h1 h2 /\
    forall j fj ps, nth_error kons j = Some fj -> List.length ps = List.length fj ->
    exists p, to_rt_pat x j ps = Ret p /\
      forall h3, still_holds h1 h2 h3 ->
        pmatch h3 p w = if (j =? i)%nat then pmatch_fields (pmatch h3) ps vs else MNo.
Proof.
  intros X Hn Hi Le E.
  assert (Lt : forall j f, nth_error kons j = Some f -> (j < List.length kons)%nat)
    by (intros j f Hj; apply nth_error_Some; congruence).
  destruct x as [|n|t|id|id|id n b|id n b]; cbn [expansion_for to_rt to_rt_pat] in *.
  - destruct X as [->| ->]; [destruct i; discriminate Hi|].
    destruct i as [|[|]]; try discriminate Hi. injection Hi as <-.
    destruct es; [|discriminate Le]. inversion E; subst.
    eexists _, h1, VUnit. split; [reflexivity|]. split; [eapply ev_operation; [reflexivity|constructor|reflexivity]|].
    split; [apply kept_refl|]. intros j fj ps Hj Lp. eexists. split; [reflexivity|]. intros h3 _.
    destruct j as [|[|]]; try discriminate Hj. injection Hj as <-. destruct ps; [reflexivity|discriminate Lp].
  - destruct X as [-> O]. rewrite (O _ _ Hi) in Le. destruct es; [|discriminate Le]. inversion E; subst.
    eexists _, h1, _. split; [reflexivity|]. split; [apply tag_ev|].
    split; [apply kept_refl|]. intros j fj ps Hj Lp. eexists. split; [reflexivity|]. intros h3 _.
    rewrite tag_match by eauto. rewrite (O _ _ Hj) in Lp. destruct ps; [reflexivity|discriminate Lp].
  - subst kons. destruct i as [|[|]]; try discriminate Hi. injection Hi as <-.
    destruct es as [|y [|]]; try discriminate Le. destruct (evs_one _ _ _ _ _ E) as (v & -> & Ey).
    eexists _, h1, v. split; [reflexivity|]. split; [exact Ey|].
    split; [apply kept_refl|]. intros j fj ps Hj Lp.
    destruct j as [|[|]]; try discriminate Hj. injection Hj as <-. destruct ps as [|p [|]]; try discriminate Lp.
    exists p. split; [reflexivity|]. intros h3 _. symmetry. apply one_field.
  - destruct X as [f ->]. destruct i as [|[|]]; try discriminate Hi.
    eexists _, _, _. split; [reflexivity|]. split; [apply alloc_ev; apply struct_ev; exact E|].
    split; [apply kept_snoc|]. intros j fj ps Hj Lp. destruct j as [|[|]]; try discriminate Hj.
    eexists. split; [reflexivity|]. intros h3 St. cbn [Spec.pmatch Nat.eqb].
    rewrite (St _ _ (Nat.le_refl _) (load_snoc _ _)). reflexivity.
  - destruct X as [f ->]. destruct i as [|[|]]; try discriminate Hi.
    eexists _, _, _. split; [reflexivity|]. split; [apply struct_ev; exact E|].
    split; [apply kept_refl|]. intros j fj ps Hj Lp. destruct j as [|[|]]; try discriminate Hj.
    eexists. split; [reflexivity|]. intros h3 St. reflexivity.
  - destruct X as [-> B].
    destruct (boxed_builds _ _ _ _ _ _ _ _ _ B Hi Le E) as (y & h2 & w & -> & Ew & K & P).
    eexists _, h2, _. split; [reflexivity|]. split; [apply tagged_ev; exact Ew|]. split; [exact K|].
    intros j fj ps Hj Lp. destruct (P j fj ps Hj Lp) as (p & -> & M).
    eexists. split; [reflexivity|]. intros h3 St.
    rewrite struct_match. cbn [pmatch_fields]. rewrite tag_match by eauto.
    destruct (Nat.eqb_spec j i) as [Eq|]; [|reflexivity]. cbn [and_then app].
    rewrite (M Eq h3 St). destruct (pmatch_fields (pmatch h3) ps vs); cbn; rewrite ?app_nil_r; reflexivity.
  - destruct X as [-> B].
    destruct (body_builds _ _ _ _ _ _ _ _ _ B Hi Le E) as (y & h2 & w & -> & Ew & K & P).
    eexists _, h2, _. split; [reflexivity|]. split; [apply tagged_ev; exact Ew|]. split; [exact K|].
    intros j fj ps Hj Lp. destruct (P j fj ps Hj Lp) as (p & -> & M).
    eexists. split; [reflexivity|]. intros h3 St.
    rewrite struct_match. cbn [pmatch_fields]. rewrite tag_match by eauto.
    destruct (Nat.eqb_spec j i) as [Eq|]; [|reflexivity]. cbn [and_then app].
    rewrite (M Eq h3 St). destruct (pmatch_fields (pmatch h3) ps vs); cbn; rewrite ?app_nil_r; reflexivity.
Qed.
End Build.
