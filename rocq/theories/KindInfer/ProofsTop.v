From Verif.Base Require Import Base BaseFacts Vec VecFacts.
From Verif.Kind Require Import Model Spec Proofs ProofsUnify ProofsApi.
From Verif.KindInfer Require Import Model Spec Proofs ProofsStep ProofsFix ProofsGroup ProofsRun.

(** * From terms to kinds and back *)
Lemma ast_of_gfun l r : ast_of (gfun l r) = ast_fun (map ast_of l) (ast_of r).
Proof. destruct l; reflexivity. Qed.

Lemma gh_ast K t : forall k, gh K t k -> has_kind (fun c => ast_of (K c)) t (ast_of k).
Proof.
  induction t as [c|c|f args IHf IHargs] using ty_ind'; intros k Hk; inversion Hk as [| |f' args' ks r Hf Hargs]; subst.
  - apply (hk_con (fun c => ast_of (K c))).
  - apply (hk_gen (fun c => ast_of (K c))).
  - apply IHf in Hf. rewrite ast_of_gfun in Hf. econstructor; [exact Hf|]. clear -IHargs Hargs. induction Hargs as [|a k args ks Ha Has IH]; constructor.
    + apply (Forall_inv IHargs), Ha.
    + apply IH, (Forall_inv_tail IHargs).
Qed.

Lemma ghs_ast K ts ks : Forall2 (gh K) ts ks -> Forall2 (has_kind (fun c => ast_of (K c))) ts (map ast_of ks).
Proof. induction 1; constructor; [apply gh_ast; assumption|assumption]. Qed.

Lemma ggroup_ast K g : ggroup K g -> group_fits (fun c => ast_of (K c)) g.
Proof.
  intros (H1 & H2). split; eapply Forall_impl; [|exact H1| |exact H2].
  - intros x (Ha & Hb). split.
    + eapply Forall_impl; [|exact Ha]. intros t Ht a Ea. rewrite (Ht a Ea). apply ast_of_term_of.
    + rewrite Hb, ast_of_gfun, map_app, map_map. f_equal; [|destruct (makes x); reflexivity]. f_equal.
      generalize (generic_constraints x). induction n as [|n IHn]; cbn; congruence.
  - intros [t|c]; cbn [gcheck]; [intros H; apply gh_ast in H; exact H|]. intros (ks & Hks & E). exists (map ast_of ks). split; [apply ghs_ast, Hks|]. rewrite E. apply ast_of_gfun.
Qed.

Lemma has_kind_term K t : forall k, has_kind K t k -> gh (fun c => term_of (K c)) t (term_of k).
Proof.
  induction t as [c|c|f args IHf IHargs] using ty_ind'; intros k Hk; inversion Hk as [| |f' args' ks r Hf Hargs]; subst.
  - apply (gh_con (fun c => term_of (K c))).
  - apply (gh_gen (fun c => term_of (K c))).
  - apply IHf in Hf. rewrite term_of_ast_fun in Hf. econstructor; [exact Hf|]. clear -IHargs Hargs. induction Hargs as [|a k args ks Ha Has IH]; constructor.
    + apply (Forall_inv IHargs), Ha.
    + apply IH, (Forall_inv_tail IHargs).
Qed.

Lemma has_kinds_term K ts ks : Forall2 (has_kind K) ts ks -> Forall2 (gh (fun c => term_of (K c))) ts (map term_of ks).
Proof. induction 1; constructor; [apply has_kind_term; assumption|assumption]. Qed.

Lemma term_of_collapse k : term_of (collapse k) = term_of k.
Proof. rewrite <- ast_of_term_of, term_of_ast_of. apply cl_term_of. Qed.

Lemma group_fits_term K g : group_fits K g -> ggroup (fun c => term_of (K c)) g.
Proof.
  intros (H1 & H2). split; eapply Forall_impl; [|exact H1| |exact H2].
  - intros x (Ha & Hb). split.
    + eapply Forall_impl; [|exact Ha]. intros t Ht a Ea. rewrite (Ht a Ea). apply term_of_collapse.
    + rewrite Hb, term_of_ast_fun, map_app, map_map. f_equal; [|destruct (makes x); reflexivity]. f_equal.
      generalize (generic_constraints x). induction n as [|n IHn]; cbn; congruence.
  - intros [t|c]; cbn [check_fits gcheck]; [intros H; apply has_kind_term in H; exact H|].
    intros (ks & Hks & E). exists (map term_of ks). split; [apply has_kinds_term, Hks|]. rewrite E. apply term_of_ast_fun.
Qed.

Lemma first_class_iff k : first_class k <-> is_first_class k = true.
Proof.
  induction k as [| | | | |args ret IHa IHr|v] using ast_kind_ind'; cbn [is_first_class]; try (split; [intros H; inversion H|discriminate]).
  - split; [reflexivity|constructor].
  - rewrite andb_true_iff, forallb_forall. rewrite Forall_forall in IHa. split.
    + intros H. inversion H as [|a r Ha Hr]; subst. rewrite Forall_forall in Ha. split; [intros x Hx; apply IHa; auto|apply IHr, Hr].
    + intros (H1 & H2). constructor; [apply Forall_forall; intros x Hx; apply IHa; auto|apply IHr, H2].
Qed.

Lemma first_class_collapse k : is_first_class (collapse k) = is_first_class k.
Proof.
  induction k as [| | | | |args ret IHa IHr|v] using ast_kind_ind'; cbn [collapse is_first_class]; try reflexivity.
  rewrite first_class_fun, IHr. f_equal. induction IHa as [|a args Ha Has IH]; [reflexivity|]. cbn. rewrite Ha, IH. reflexivity.
Qed.

Lemma gfirst_ast K g : gfirst K g -> params_first_class (fun c => ast_of (K c)) g.
Proof. intros H. eapply Forall_impl; [|exact H]. intros x Hx. eapply Forall_impl; [|exact Hx]. intros t Ht. apply first_class_iff, Ht. Qed.

Lemma params_first_class_term K g : params_first_class K g -> gfirst (fun c => term_of (K c)) g.
Proof.
  intros H. eapply Forall_impl; [|exact H]. intros x Hx. eapply Forall_impl; [|exact Hx]. intros t Ht. cbn beta. rewrite ast_of_term_of, first_class_collapse. apply first_class_iff, Ht.
Qed.

Lemma proper_fun args ret : Forall proper args -> proper ret -> proper (ast_fun args ret).
Proof. intros H1 H2. destruct args; [exact H2|]. constructor; auto. Qed.

Lemma filled_complete g : complete (ast_of (fill GType g)).
Proof.
  split.
  - induction g as [n| | | | | |args ret IHa IHr] using gkind_ind'; cbn [fill ast_of]; try constructor. apply proper_fun; [|exact IHr].
    rewrite map_map. apply Forall_forall. intros x Hx. apply in_map_iff in Hx. destruct Hx as (a & <- & Ha). rewrite Forall_forall in IHa. apply IHa, Ha.
  - generalize (fill GType g). clear g. induction g as [n| | | | | |args ret IHa IHr] using gkind_ind'; cbn [ast_of collapse]; try reflexivity.
    destruct args as [|a args]; [exact IHr|]. cbn [map ast_fun collapse]. rewrite IHr. rewrite Forall_forall in IHa. f_equal. f_equal; [apply IHa; left; reflexivity|].
    rewrite map_map. apply map_ext_in. intros x Hx. apply IHa. right. exact Hx.
Qed.

Lemma instantiate_subst s t : instantiate s t = subst s t.
Proof. reflexivity. Qed.

Section Top.
Context (mods : modules).
Hypothesis Hknown : known mods.

Lemma respects_ext K : respects mods K -> ext mods (fun c => term_of (K c)).
Proof. intros H c k Hl Hk. rewrite (H c k Hl Hk). reflexivity. Qed.

Lemma ext_respects K : ext mods K -> respects mods (fun c => ast_of (K c)).
Proof.
  intros H c k Hl Hk. rewrite (H c k Hl Hk), ast_of_term_of. destruct (Hknown c Hl) as (k' & Hk' & _ & E). congruence.
Qed.

Definition outcome_of (r : kerror + state) : kerror + list (nat * ast_kind) :=
  match r with inl e => inl e | inr st => inr (inferred st) end.

Lemma infer_groups_conv gs r : conv (fun n => each (infer_group mods n) start gs) r -> conv (fun n => infer_groups mods n gs) (outcome_of r).
Proof.
  intros Hc. unfold infer_groups. destruct r as [e|st]; [eapply conv_try_err; exact Hc|]. eapply conv_try_ok; [exact Hc|]. apply conv_ret.
Qed.

Lemma kind_inference_ends gs : Forall annotations_proper gs -> exists r, conv (fun n => infer_groups mods n gs) r.
Proof.
  intros Ha. destruct (run_any mods Hknown gs Ha start [] [] (run_inv_start mods)) as (r & Hc & _). eexists. apply infer_groups_conv, Hc.
Qed.

Lemma inferred_some st E gs c : run_inv mods st E gs -> assoc c (inferred st) = option_map ast_of (assoc c E).
Proof. intros (_ & H & _). rewrite H. apply assoc_map. Qed.

Lemma kind_inference_sound gs kinds : Forall annotations_proper gs -> conv (fun n => infer_groups mods n gs) (inr kinds) ->
  exists K, respects mods K /\ extends_kinds kinds K /\
    Forall (fun g => group_fits K g /\ params_first_class K g) gs /\
    (forall c, In c (flat_map declared gs) <-> exists k, assoc c kinds = Some k) /\
    (forall c k, assoc c kinds = Some k -> complete k).
Proof.
  intros Ha Hk. destruct (run_any mods Hknown gs Ha start [] [] (run_inv_start mods)) as (r & Hc & Hr).
  pose proof (conv_unique _ _ _ Hk (infer_groups_conv _ _ Hc)) as E. destruct r as [e|st]; [discriminate|]. injection E as ->. destruct Hr as (E & HR). cbn [app] in HR.
  destruct (fits_exists mods st (proj1 HR)) as (K & HK). exists (fun c => ast_of (K c)). split; [apply ext_respects, HK|]. split; [|split; [|split]].
  - intros c k Hck. rewrite (inferred_some _ _ _ c HR) in Hck. destruct (assoc c E) as [g|] eqn:Eg; [|discriminate]. injection Hck as <-.
    rewrite (fits_match mods st E gs K HR HK c g Eg). reflexivity.
  - destruct HR as (_ & _ & _ & HR & _). eapply Forall_impl; [|exact (HR K HK)]. intros g (H1 & H2). split; [apply ggroup_ast, H1|apply gfirst_ast, H2].
  - intros c. pose proof HR as (_ & _ & _ & _ & HD). rewrite HD, (inferred_some _ _ _ c HR). split; [intros (g & ->); eexists; reflexivity|].
    intros (k & Hck). destruct (assoc c E) as [g|]; [eauto|discriminate].
  - intros c k Hck. rewrite (inferred_some _ _ _ c HR) in Hck. destruct (assoc c E) as [g|] eqn:Eg; [|discriminate]. injection Hck as <-.
    pose proof HR as (_ & _ & HD & _). destruct (HD c g Eg) as ((g0 & ->) & _). apply filled_complete.
Qed.

Lemma seen_start : forall c, In c (@nil nat) <-> exists x : gkind, assoc c [] = Some x.
Proof. intros c. split; [intros []|intros (x & [=])]. Qed.

Lemma extends_matches st E gs K : run_inv mods st E gs -> ord_inv mods st E gs -> extends_kinds (inferred st) K -> matches E (fun c => term_of (K c)).
Proof.
  intros HR HO H c g Hc. rewrite (H c (ast_of g)); [|rewrite (inferred_some _ _ _ c HR), Hc; reflexivity].
  rewrite term_of_ast_of. apply (proj1 HO c g Hc).
Qed.

Lemma kind_inference_rejects gs e : Forall annotations_proper gs -> in_order mods [] gs -> conv (fun n => infer_groups mods n gs) (inl e) ->
  exists before g after kinds, gs = before ++ g :: after /\ conv (fun n => infer_groups mods n before) (inr kinds) /\
    forall K, respects mods K -> extends_kinds kinds K -> ~ (group_fits K g /\ params_first_class K g).
Proof.
  intros Ha Ho Hk. destruct (run_ordered mods Hknown gs Ha start [] [] [] (run_inv_start mods) (ord_inv_start mods) seen_start Ho) as (r & Hc & Hr).
  pose proof (conv_unique _ _ _ Hk (infer_groups_conv _ _ Hc)) as E. destruct r as [e'|st]; [|discriminate].
  destruct Hr as (before & g & after & st1 & E1 & -> & H1 & H2 & H3 & H4). exists before, g, after, (inferred st1). split; [reflexivity|]. split; [apply (infer_groups_conv _ _ H1)|].
  intros K HK HE (HG & HF). apply (H4 (fun c => term_of (K c))); [apply respects_ext, HK|eapply extends_matches; eauto|apply group_fits_term, HG|apply params_first_class_term, HF].
Qed.

(** Instances of terms that fit. *)
Lemma subst_gfun s l r : subst s (gfun l r) = gfun (map (subst s) l) (subst s r).
Proof. destruct l; reflexivity. Qed.

Lemma subst_term_of s k : proper k -> subst s (term_of k) = term_of k.
Proof.
  induction k as [| | | | |args ret IHa IHr|v] using ast_kind_ind'; intros Hp; cbn [term_of]; try reflexivity; inversion Hp as [| | | | |args' ret' Ha Hr]; subst.
  rewrite subst_gfun, map_map, (IHr Hr). f_equal. apply map_ext_in. intros x Hx. rewrite Forall_forall in IHa, Ha. apply IHa; auto.
Qed.

Lemma subst_filled s t : subst s (fill GType t) = fill GType t.
Proof.
  induction t as [n| | | | | |args ret IHa IHr] using gkind_ind'; cbn [fill subst]; try reflexivity. rewrite IHr, map_map. f_equal.
  apply map_ext_in. rewrite Forall_forall in IHa. exact IHa.
Qed.

Lemma gh_subst s K t : forall k, gh K t k -> gh (fun c => subst s (K c)) t (subst s k).
Proof.
  induction t as [c|c|f args IHf IHargs] using ty_ind'; intros k Hk; inversion Hk as [| |f' args' ks r Hf Hargs]; subst.
  - apply (gh_con (fun c => subst s (K c))).
  - apply (gh_gen (fun c => subst s (K c))).
  - apply IHf in Hf. rewrite subst_gfun in Hf. econstructor; [exact Hf|]. clear -IHargs Hargs. induction Hargs as [|a k args ks Ha Has IH]; constructor.
    + apply (Forall_inv IHargs), Ha.
    + apply IH, (Forall_inv_tail IHargs).
Qed.

Lemma ggroup_subst s K g : annotations_proper g -> ggroup K g -> ggroup (fun c => subst s (K c)) g.
Proof.
  intros Hp (H1 & H2). unfold annotations_proper in Hp. rewrite Forall_forall in Hp, H1. split.
  - apply Forall_forall. intros x Hx. destruct (H1 x Hx) as (Ha & Hb). pose proof (Hp x Hx) as Hpx. rewrite Forall_forall in Hpx, Ha. split.
    + apply Forall_forall. intros t Ht a Ea. rewrite (Ha t Ht a Ea). apply subst_term_of. exact (Hpx t Ht a Ea).
    + rewrite Hb, subst_gfun, map_app, map_map. f_equal; [|destruct (makes x); reflexivity]. f_equal.
      generalize (generic_constraints x). induction n as [|n IHn]; cbn; congruence.
  - eapply Forall_impl; [|exact H2]. intros [t|c]; cbn [gcheck]; [intros H; apply (gh_subst s) in H; exact H|]. intros (ks & Hks & E). exists (map (subst s) ks). split.
    + clear -Hks. induction Hks; constructor; [apply gh_subst; assumption|assumption].
    + rewrite E. apply subst_gfun.
Qed.

Lemma kind_inference_general gs kinds : Forall annotations_proper gs -> in_order mods [] gs -> conv (fun n => infer_groups mods n gs) (inr kinds) ->
  forall g, In g gs -> exists G : nat -> gkind,
    (forall c, In c (declared g) -> assoc c kinds = Some (ast_of (fill GType (G c)))) /\
    (forall K, respects mods K -> (forall c k, ~ In c (declared g) -> assoc c kinds = Some k -> K c = k) -> group_fits K g ->
       exists s, forall c, In c (declared g) -> collapse (K c) = ast_of (instantiate s (G c))) /\
    (forall s, exists K, respects mods K /\ (forall c k, ~ In c (declared g) -> assoc c kinds = Some k -> K c = k) /\ group_fits K g /\
       forall c, In c (declared g) -> K c = ast_of (instantiate s (G c))).
Proof.
  intros Ha Ho Hk g Hg. destruct (run_ordered mods Hknown gs Ha start [] [] [] (run_inv_start mods) (ord_inv_start mods) seen_start Ho) as (r & Hc & Hr).
  pose proof (conv_unique _ _ _ Hk (infer_groups_conv _ _ Hc)) as E. destruct r as [e|st]; [discriminate|]. injection E as ->.
  destruct Hr as (E & HR & HO). cbn [app] in HR, HO. pose proof HO as (O1 & O2 & O3 & O4 & O5). rewrite Forall_forall in O4, O5.
  destruct (O4 g Hg) as (G & KG & A1 & A2 & A3 & A4 & A5).
  assert (Hsome : forall c, In c (declared g) -> exists x, assoc c E = Some x).
  { intros c Hcd. pose proof HR as (_ & _ & _ & _ & HD). apply HD, in_flat_map. eauto. }
  exists G. split; [|split].
  - intros c Hcd. destruct (Hsome c Hcd) as (x & Hx). rewrite (inferred_some _ _ _ c HR), Hx. cbn. rewrite <- (proj1 (A1 c Hcd)). unfold denv. rewrite Hx. reflexivity.
  - intros K HK HE HG. destruct (A5 (fun c => term_of (K c))) as (s & Hs); [apply respects_ext, HK| |apply group_fits_term, HG|].
    + intros c Hcm Hcd. destruct (O5 g Hg c Hcm) as [(x & Hx)|Hl].
      * unfold denv. rewrite Hx. rewrite (HE c (ast_of x) Hcd); [|rewrite (inferred_some _ _ _ c HR), Hx; reflexivity]. rewrite term_of_ast_of. exact (O1 c x Hx).
      * destruct (Hknown c Hl) as (k & Hkc & _). rewrite (HK c k Hl Hkc). symmetry. apply (denv_ext mods E O2 c k Hl Hkc).
    + exists s. intros c Hcd. rewrite <- ast_of_term_of, (Hs c Hcd). reflexivity.
  - intros s. rewrite Forall_forall in Ha.
    set (K0 := fun c => if in_dec_nat c (declared g) then subst s (KG c) else denv mods E c).
    assert (HKe : ext mods K0).
    { intros c k Hl Hkc. unfold K0. destruct (in_dec_nat c (declared g)) as [Hd|_]; [|apply (denv_ext mods E O2); auto].
      exfalso. destruct (Hsome c Hd) as (x & Hx). pose proof (O2 c x Hx). congruence. }
    exists (fun c => ast_of (K0 c)). split; [apply ext_respects, HKe|]. split; [|split].
    + intros c k Hcd Hck. rewrite (inferred_some _ _ _ c HR) in Hck. destruct (assoc c E) as [x|] eqn:Ex; [|discriminate]. injection Hck as <-.
      unfold K0. destruct (in_dec_nat c (declared g)); [contradiction|]. unfold denv. rewrite Ex. reflexivity.
    + apply ggroup_ast. eapply ggroup_ext; [|apply (ggroup_subst s KG g (Ha g Hg) A4)]. intros c Hcc. unfold K0. destruct (in_dec_nat c (declared g)) as [|Hd]; [reflexivity|].
      destruct Hcc as [Hcc|Hcc]; [contradiction|]. rewrite (A3 c Hcc Hd). destruct (O5 g Hg c Hcc) as [(x & Hx)|Hl].
      * unfold denv. rewrite Hx. pose proof HR as (_ & _ & HD & _). destruct (HD c x Hx) as ((g0 & ->) & _). apply subst_filled.
      * destruct (Hknown c Hl) as (k & Hkc & Hp & _). rewrite (denv_ext mods E O2 c k Hl Hkc). apply subst_term_of, Hp.
    + intros c Hcd. unfold K0. destruct (in_dec_nat c (declared g)); [|contradiction]. rewrite (proj2 (A1 c Hcd)). reflexivity.
Qed.

Lemma reordered_in gs gs' g' : reordered gs gs' -> In g' gs' -> exists g, In g gs /\ same_group g g'.
Proof.
  intros (l & Hp & Hf) Hg. assert (exists g, In g l /\ same_group g g') as (g & H1 & H2).
  { clear Hp. induction Hf as [|a b l l' Hab Hf IH]; [contradiction|]. destruct Hg as [<-|Hg]; [exists a; split; [left; reflexivity|exact Hab]|].
    destruct (IH Hg) as (g & H1 & H2). exists g. split; [right; exact H1|exact H2]. }
  exists g. split; [eapply Permutation_in; [apply Permutation_sym, Hp|exact H1]|exact H2].
Qed.

Lemma reordered_in' gs gs' g : reordered gs gs' -> In g gs -> exists g', In g' gs' /\ same_group g g'.
Proof.
  intros (l & Hp & Hf) Hg. apply (Permutation_in _ Hp) in Hg. clear Hp. induction Hf as [|a b l l' Hab Hf IH]; [contradiction|].
  destruct Hg as [<-|Hg]; [exists b; split; [left; reflexivity|exact Hab]|]. destruct (IH Hg) as (g' & H1 & H2). exists g'. split; [right; exact H1|exact H2].
Qed.

Lemma kind_inference_order gs gs' kinds : Forall annotations_proper gs -> in_order mods [] gs -> in_order mods [] gs' -> reordered gs gs' ->
  conv (fun n => infer_groups mods n gs) (inr kinds) ->
  exists kinds', conv (fun n => infer_groups mods n gs') (inr kinds') /\ forall c, assoc c kinds' = assoc c kinds.
Proof.
  intros Ha Ho Ho' Hre Hk. destruct (run_ordered mods Hknown gs Ha start [] [] [] (run_inv_start mods) (ord_inv_start mods) seen_start Ho) as (r & Hc & Hr).
  pose proof (conv_unique _ _ _ Hk (infer_groups_conv _ _ Hc)) as E. destruct r as [e|st]; [discriminate|]. injection E as ->.
  destruct Hr as (E & HR & HO). cbn [app] in HR, HO. pose proof HO as (O1 & O2 & O3 & O4 & O5). set (D := denv mods E).
  assert (HD : ext mods D) by (apply denv_ext, O2). pose proof (O3 D HD (denv_matches mods E)) as Hfit.
  assert (Ha' : Forall annotations_proper gs').
  { rewrite Forall_forall in *. intros g' Hg'. destruct (reordered_in gs gs' g' Hre Hg') as (g & Hg & Hp & _). eapply Permutation_Forall; [exact Hp|]. apply Ha, Hg. }
  destruct (run_other mods Hknown gs' Ha' D HD) with (st := start) (E := @nil (nat * gkind)) (done := @nil group) (seen := @nil nat) as (st' & E' & Hc' & HR' & HM').
  { intros g' Hg'. destruct (reordered_in gs gs' g' Hre Hg') as (g & Hg & Hs). exists g. split; [exact Hs|]. rewrite Forall_forall in O4. split; [apply O4, Hg|].
    destruct HR as (_ & _ & _ & HR & _). pose proof (HR D Hfit) as HF. rewrite Forall_forall in HF. apply HF, Hg. }
  { apply run_inv_start. }
  { apply ord_inv_start. }
  { apply seen_start. }
  { exact Ho'. }
  { intros c x [=]. }
  exists (inferred st'). split; [apply (infer_groups_conv _ _ Hc')|]. cbn [app] in HR'. intros c. rewrite (inferred_some _ _ _ c HR), (inferred_some _ _ _ c HR').
  pose proof HR as (_ & _ & _ & _ & Hd1). pose proof HR' as (_ & _ & _ & _ & Hd2).
  destruct (assoc c E') as [x'|] eqn:Ex'.
  - assert (In c (flat_map declared gs')) as Hin by (apply Hd2; eauto). apply in_flat_map in Hin. destruct Hin as (g' & Hg' & Hcg).
    destruct (reordered_in gs gs' g' Hre Hg') as (g & Hg & Hs). assert (exists x, assoc c E = Some x) as (x & Ex).
    { apply Hd1, in_flat_map. exists g. split; [exact Hg|]. eapply same_declared; [apply same_sym, Hs|exact Hcg]. }
    rewrite Ex. cbn. f_equal. f_equal. rewrite <- (HM' c x' Ex'). unfold D, denv. rewrite Ex. reflexivity.
  - destruct (assoc c E) as [x|] eqn:Ex; [|reflexivity]. exfalso. assert (In c (flat_map declared gs)) as Hin by (apply Hd1; eauto). apply in_flat_map in Hin. destruct Hin as (g & Hg & Hcg).
    destruct (reordered_in' gs gs' g Hre Hg) as (g' & Hg' & Hs). assert (exists x, assoc c E' = Some x) as (x' & Ex'').
    { apply Hd2, in_flat_map. exists g'. split; [exact Hg'|]. eapply same_declared; eauto. }
    congruence.
Qed.
End Top.
