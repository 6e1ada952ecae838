From Verif.Base Require Import Base BaseFacts Vec VecFacts.
From Verif.Kind Require Import Model Spec Proofs ProofsUnify ProofsApi.
From Verif.KindInfer Require Import Model Spec Proofs ProofsStep ProofsFix ProofsGroup.

(** * Lookups *)
Lemma assoc_ids {A} (f : nat -> A) c F E :
  (In c F /\ assoc c (map (fun c => (c, f c)) F ++ E) = Some (f c)) \/ (~ In c F /\ assoc c (map (fun c => (c, f c)) F ++ E) = assoc c E).
Proof.
  induction F as [|d F IH]; cbn; [right; split; [tauto|reflexivity]|]. destruct (Nat.eqb_spec c d) as [->|Hne]; [left; auto|].
  destruct IH as [(H & E1)|(H & E1)]; [left; auto|right; split; [|exact E1]]. intros [<-|H']; [congruence|exact (H H')].
Qed.

Lemma assoc_map {A B} (h : A -> B) c (E : list (nat * A)) : assoc c (map (fun x => (fst x, h (snd x))) E) = option_map h (assoc c E).
Proof. induction E as [|(d, a) E IH]; cbn; [reflexivity|]. destruct (Nat.eqb c d); [reflexivity|exact IH]. Qed.

(** * Functions without arguments *)
Fixpoint cl (t : gkind) : gkind :=
  match t with GFun args ret => gfun (map cl args) (cl ret) | t => t end.

Lemma cl_gfun l r : cl (gfun l r) = gfun (map cl l) (cl r).
Proof. destruct l; reflexivity. Qed.

Lemma term_of_ast_fun ks r : term_of (ast_fun ks r) = gfun (map term_of ks) (term_of r).
Proof. destruct ks; reflexivity. Qed.

Lemma term_of_ast_of g : term_of (ast_of g) = cl g.
Proof.
  induction g as [n| | | | | |args ret IHa IHr] using gkind_ind'; cbn [ast_of cl]; try reflexivity.
  rewrite term_of_ast_fun, IHr, map_map. f_equal. apply map_ext_in. rewrite Forall_forall in IHa. exact IHa.
Qed.

Lemma cl_term_of k : cl (term_of k) = term_of k.
Proof.
  induction k as [| | | | |args ret IHa IHr|v] using ast_kind_ind'; cbn [term_of]; try reflexivity.
  rewrite cl_gfun, IHr, map_map. f_equal. apply map_ext_in. rewrite Forall_forall in IHa. exact IHa.
Qed.

Lemma cl_fill d t : cl d = d -> cl (fill d t) = fill d (cl t).
Proof.
  intros Hd. induction t as [n| | | | | |args ret IHa IHr] using gkind_ind'; cbn [fill cl]; try reflexivity; [exact Hd|].
  rewrite IHr, map_map. destruct args as [|a args]; [reflexivity|]. cbn [map gfun fill]. rewrite Forall_forall in IHa. f_equal. f_equal; [apply IHa; left; reflexivity|].
  rewrite map_map. apply map_ext_in. intros x Hx. apply IHa. right. exact Hx.
Qed.

Lemma size_gfun l r : (size (gfun l r) <= S (list_sum (map size l) + size r))%nat.
Proof. destruct l as [|a l]; cbn [gfun]; [lia|cbn [size]; lia]. Qed.

Lemma sum_le {A} (f g : A -> nat) l : Forall (fun a => (f a <= g a)%nat) l -> (list_sum (map f l) <= list_sum (map g l))%nat.
Proof. unfold list_sum. induction 1 as [|a l Ha Hl IH]; cbn [map fold_right]; lia. Qed.

Lemma size_cl t : (size (cl t) <= size t)%nat.
Proof.
  induction t as [n| | | | | |args ret IHa IHr] using gkind_ind'; cbn [cl size]; auto.
  pose proof (size_gfun (map cl args) (cl ret)) as H. rewrite map_map in H. pose proof (sum_le (fun x => size (cl x)) size args IHa). lia.
Qed.

Lemma size_subst s t : (size t <= size (subst s t))%nat.
Proof.
  induction t as [n| | | | | |args ret IHa IHr] using gkind_ind'; cbn [subst size]; auto; [apply size_pos|].
  rewrite map_map. pose proof (sum_le size (fun x => size (subst s x)) args IHa). lia.
Qed.

Lemma list_sum_cons x l : list_sum (x :: l) = (x + list_sum l)%nat.
Proof. reflexivity. Qed.

Lemma sum_eq_cl l : Forall (fun t => size (cl t) = size t -> cl t = t) l -> list_sum (map (fun x => size (cl x)) l) = list_sum (map size l) -> map cl l = l.
Proof.
  induction 1 as [|a l Ha Hl IH]; cbn [map]; [reflexivity|]. rewrite !list_sum_cons. intros E. pose proof (size_cl a).
  assert (list_sum (map (fun x => size (cl x)) l) <= list_sum (map size l))%nat by (apply sum_le, Forall_forall; intros x _; apply size_cl).
  f_equal; [apply Ha; lia|apply IH; lia].
Qed.

Lemma size_cl_eq t : size (cl t) = size t -> cl t = t.
Proof.
  induction t as [n| | | | | |args ret IHa IHr] using gkind_ind'; cbn [cl]; auto. intros E.
  assert (H1 : (list_sum (map (fun x => size (cl x)) args) <= list_sum (map size args))%nat) by (apply sum_le, Forall_forall; intros x _; apply size_cl).
  pose proof (size_cl ret) as H2. destruct args as [|a args]; [cbn in E; lia|].
  remember (a :: args) as l eqn:El. assert (E' : size (gfun (map cl l) (cl ret)) = S (list_sum (map (fun x => size (cl x)) l) + size (cl ret))).
  { subst l. cbn [map gfun size]. rewrite map_map. reflexivity. }
  rewrite E' in E. cbn [size] in E. assert (El' : map cl l = l) by (apply sum_eq_cl; [exact IHa|lia]). assert (Er : cl ret = ret) by (apply IHr; lia).
  rewrite El', Er. subst l. reflexivity.
Qed.

Lemma cl_instance s t : cl t = subst s t -> cl t = t.
Proof. intros E. apply size_cl_eq. pose proof (size_cl t). pose proof (size_subst s t). rewrite <- E in *. lia. Qed.

Lemma gh_cl K t : forall k, gh K t k -> gh (fun c => cl (K c)) t (cl k).
Proof.
  induction t as [c|c|f args IHf IHargs] using ty_ind'; intros k Hk; inversion Hk as [| |f' args' ks r Hf Hargs]; subst.
  - apply (gh_con (fun c => cl (K c))).
  - apply (gh_gen (fun c => cl (K c))).
  - apply IHf in Hf. rewrite cl_gfun in Hf. econstructor; [exact Hf|]. clear -IHargs Hargs. induction Hargs as [|a k args ks Ha Has IH]; constructor.
    + apply (Forall_inv IHargs), Ha.
    + apply IH, (Forall_inv_tail IHargs).
Qed.

Lemma ghs_cl K ts ks : Forall2 (gh K) ts ks -> Forall2 (gh (fun c => cl (K c))) ts (map cl ks).
Proof. induction 1 as [|t k ts ks Ht Hts IH]; constructor; [apply gh_cl, Ht|exact IH]. Qed.

Lemma ggroup_cl K g : ggroup K g -> ggroup (fun c => cl (K c)) g.
Proof.
  intros (H1 & H2). split; eapply Forall_impl; [|exact H1| |exact H2].
  - intros x (Ha & Hb). split.
    + eapply Forall_impl; [|exact Ha]. intros t Ht a Ea. rewrite (Ht a Ea). apply cl_term_of.
    + rewrite Hb, cl_gfun, map_app, map_map. f_equal; [|destruct (makes x); reflexivity]. f_equal.
      generalize (generic_constraints x). induction n as [|n IHn]; cbn; congruence.
  - intros [t|c]; cbn [gcheck]; [intros H; apply gh_cl in H; exact H|]. intros (ks & Hks & E). exists (map cl ks). split; [apply ghs_cl, Hks|]. rewrite E. apply cl_gfun.
Qed.

(** Two terms that are instances of each other differ in names only. *)
Lemma variants d t1 : forall t2 s1 s2, t2 = subst s1 t1 -> t1 = subst s2 t2 -> fill d t1 = fill d t2.
Proof.
  induction t1 as [n| | | | | |args ret IHa IHr] using gkind_ind'; intros t2 s1 s2 E1 E2; cbn [subst] in E1; try (subst t2; reflexivity).
  - destruct t2; try discriminate. reflexivity.
  - subst t2. cbn [subst] in E2. injection E2 as E2 E3. cbn [fill]. f_equal; [|eapply IHr; eauto].
    clear -IHa E2. rewrite map_map in *. revert E2. induction IHa as [|a args Ha Has IH]; intros E2; [reflexivity|]. cbn in *. injection E2 as E2 E3. f_equal; [|auto].
    eapply Ha; [reflexivity|exact E2].
Qed.

Section Infer.
Context (mods : modules).
Hypothesis Hknown : known mods.
Notation okst := (okst mods).
Notation ext := (ext mods).
Notation fits := (fits mods).

Definition denv (E : list (nat * gkind)) : env := fun c =>
  match assoc c E with
  | Some g => g
  | None => if is_local mods c then GType else match recorded mods c with Some k => term_of k | None => GType end
  end.

Definition matches (E : list (nat * gkind)) (K : env) : Prop := forall c g, assoc c E = Some g -> K c = g.

Definition run_inv (st : state) (E : list (nat * gkind)) (gs : list group) : Prop :=
  okst st /\ inferred st = map (fun x => (fst x, ast_of (snd x))) E /\
  (forall c g, assoc c E = Some g -> (exists g0, g = fill GType g0) /\
     exists k, assoc c (u_kinds st) = Some k /\ forall s, solution (pool st) s -> interp s k = g) /\
  (forall K, fits st K -> Forall (fun g => ggroup K g /\ gfirst K g) gs) /\
  (forall c, In c (flat_map declared gs) <-> exists g, assoc c E = Some g).

Definition outer (K D : env) (g : group) : Prop := forall c, In c (mentions g) -> ~ In c (declared g) -> K c = D c.

(** [D] gives the constructs of [g] the most general kinds, with [Type] for what is left open. *)
Definition resolved (D : env) (g : group) : Prop :=
  exists G KG, (forall c, In c (declared g) -> D c = fill GType (G c) /\ KG c = G c) /\
    ext KG /\ outer KG D g /\ ggroup KG g /\
    (forall K, ext K -> outer K D g -> ggroup K g -> exists s, forall c, In c (declared g) -> K c = subst s (G c)).

Definition ord_inv (st : state) (E : list (nat * gkind)) (gs : list group) : Prop :=
  (forall c g, assoc c E = Some g -> cl g = g) /\
  (forall c g, assoc c E = Some g -> is_local mods c = true) /\
  (forall K, ext K -> matches E K -> fits st K) /\
  Forall (resolved (denv E)) gs /\
  Forall (fun g => forall c, In c (mentions g) -> (exists x, assoc c E = Some x) \/ is_local mods c = false) gs.

Lemma fits_match st E gs K : run_inv st E gs -> fits st K -> matches E K.
Proof.
  intros (_ & _ & H & _) (_ & s & Hs & Ha) c g Hc. destruct (H c g Hc) as (_ & k & Hk & Hi). rewrite <- (Ha c k Hk). apply Hi, Hs.
Qed.

Lemma fits_exists st : okst st -> exists K, fits st K.
Proof.
  intros Hst. pose proof Hst as (Hwf & _). destruct (canonical_exists (pool st) Hwf) as (s & Hs & _).
  destruct (kinds_of_fits mods st s Hst Hs) as (H1 & H2). exists (kinds_of mods st s). split; [exact H1|]. eauto.
Qed.

Lemma run_inv_start : run_inv start [] [].
Proof.
  split; [|split; [reflexivity|split; [discriminate|split; [constructor|intros c; split; [intros []|intros (g & [=])]]]]].
  split; [apply new_wf|]. split; [split; [cbn; lia|intros s Hs; exact Hs]|]. split; discriminate.
Qed.

Lemma ord_inv_start : ord_inv start [] [].
Proof.
  split; [discriminate|]. split; [discriminate|]. split; [|split; constructor]. intros K HK _. split; [exact HK|].
  destruct (canonical_exists new_context new_wf) as (s & Hs & _). exists s. split; [exact Hs|]. discriminate.
Qed.

Lemma group_run st E gs g st' : run_inv st E gs -> group_result mods st g (inr st') ->
  exists F G, (forall c, In c F <-> In c (declared g)) /\ run_inv st' (map (fun c => (c, fill GType (G c))) F ++ E) (gs ++ [g]) /\
    (forall K, fits st' K -> fits st K) /\ (forall K, fits st' K -> forall c, In c F -> K c = fill GType (G c)) /\
    (forall K, fits st K -> ggroup K g -> (forall c, In c F -> K c = fill GType (G c)) -> fits st' K) /\
    (exists KG, fits st KG /\ ggroup KG g /\ forall c, In c F -> KG c = G c) /\
    (forall K, fits st K -> ggroup K g -> exists s, forall c, In c F -> K c = subst s (G c)).
Proof.
  intros (A1 & A2 & A3 & A4 & A5) (F & G & B1 & B2 & B3 & B4 & B5 & B6 & B7 & B8 & B9 & B10).
  assert (Hback : forall K, fits st' K -> fits st K).
  { intros K (He & s & Hs & Ha). split; [exact He|]. exists s. split; [apply B5, Hs|]. intros c k Hk. apply Ha, B3, Hk. }
  exists F, G. split; [exact B1|]. split; [|split; [exact Hback|split; [|split; [exact B8|split; [exact B9|exact B10]]]]].
  - split; [exact B2|]. split; [rewrite B4, A2, map_app, map_map; reflexivity|]. split; [|split].
    + intros c g' Hc. destruct (assoc_ids (fun c => fill GType (G c)) c F E) as [(Hin & Eq)|(Hin & Eq)]; rewrite Eq in Hc.
      * injection Hc as <-. split; [eauto|]. apply B6, Hin.
      * destruct (A3 c g' Hc) as (H1 & k & Hk & Hi). split; [exact H1|]. exists k. split; [apply B3, Hk|]. intros s Hs. apply Hi, B5, Hs.
    + intros K HF. apply Forall_app. split; [apply A4, Hback, HF|]. constructor; [apply B7, HF|constructor].
    + intros c. rewrite flat_map_app, in_app_iff. cbn. rewrite app_nil_r. destruct (assoc_ids (fun c => fill GType (G c)) c F E) as [(Hin & Eq)|(Hin & Eq)]; rewrite Eq.
      * split; [eauto|]. intros _. right. apply B1, Hin.
      * rewrite <- A5. split; [intros [H|H]; [exact H|exfalso; apply Hin, B1, H]|auto].
  - intros K (_ & s & Hs & Ha) c Hc. destruct (B6 c Hc) as (k & Hk & Hi). rewrite <- (Ha c k Hk). apply Hi, Hs.
Qed.

Lemma resolved_ext D D' g : (forall c, In c (declared g) \/ In c (mentions g) -> D c = D' c) -> resolved D g -> resolved D' g.
Proof.
  intros H (G & KG & H1 & H2 & H3 & H4 & H5). exists G, KG. split; [intros c Hc; rewrite <- H by (left; exact Hc); apply H1, Hc|]. split; [exact H2|].
  split; [intros c Hc Hd; rewrite <- H by (right; exact Hc); apply H3; auto|]. split; [exact H4|].
  intros K K1 K2 K3. apply H5; auto. intros c Hc Hd. rewrite H by (right; exact Hc). apply K2; auto.
Qed.

Lemma denv_matches E : matches E (denv E).
Proof. intros c g Hc. unfold denv. rewrite Hc. reflexivity. Qed.

Lemma denv_ext E : (forall c g, assoc c E = Some g -> is_local mods c = true) -> ext (denv E).
Proof.
  intros H c k Hl Hk. unfold denv. destruct (assoc c E) as [g|] eqn:Eg; [pose proof (H c g Eg); congruence|]. rewrite Hl, Hk. reflexivity.
Qed.

Lemma in_dec_nat (c : nat) l : {In c l} + {~ In c l}.
Proof. apply in_dec, Nat.eq_dec. Qed.

Lemma group_ordered st E gs g seen st' : run_inv st E gs -> ord_inv st E gs -> group_result mods st g (inr st') ->
  (forall c, In c seen <-> exists x, assoc c E = Some x) ->
  (forall c, In c (declared g) -> is_local mods c = true /\ ~ In c seen) ->
  (forall c, In c (mentions g) -> In c (declared g) \/ In c seen \/ is_local mods c = false) ->
  exists E', run_inv st' E' (gs ++ [g]) /\ ord_inv st' E' (gs ++ [g]) /\
    (forall c, In c (declared g ++ seen) <-> exists x, assoc c E' = Some x) /\
    (forall c x, assoc c E = Some x -> assoc c E' = Some x).
Proof.
  intros HR HO Hg Hseen Hdecl Hment. destruct (group_run st E gs g st' HR Hg) as (F & G & B1 & B2 & B3 & B4 & B5 & B6 & B7).
  destruct HO as (O1 & O2 & O3 & O4 & O5). set (E' := map (fun c => (c, fill GType (G c))) F ++ E) in *.
  assert (HE : forall c x, assoc c E = Some x -> assoc c E' = Some x).
  { intros c x Hc. unfold E'. destruct (assoc_ids (fun c => fill GType (G c)) c F E) as [(Hin & Eq)|(Hin & Eq)]; rewrite Eq; [|exact Hc].
    exfalso. apply B1 in Hin. apply (proj2 (Hdecl c Hin)). apply Hseen. eauto. }
  assert (HF : forall c, In c F -> assoc c E' = Some (fill GType (G c))).
  { intros c Hc. unfold E'. destruct (assoc_ids (fun c => fill GType (G c)) c F E) as [(Hin & Eq)|(Hin & Eq)]; [exact Eq|contradiction]. }
  assert (Hinv : forall c x, assoc c E' = Some x -> (In c F /\ x = fill GType (G c)) \/ (~ In c F /\ assoc c E = Some x)).
  { intros c x. unfold E'. destruct (assoc_ids (fun c => fill GType (G c)) c F E) as [(Hin & Eq)|(Hin & Eq)]; rewrite Eq; [intros [= <-]; auto|auto]. }
  assert (Hseen' : forall c, In c (declared g ++ seen) <-> exists x, assoc c E' = Some x).
  { intros c. rewrite in_app_iff, <- B1, Hseen. split.
    - intros [H|(x & H)]; [eauto|eauto].
    - intros (x & H). destruct (Hinv c x H) as [(H' & _)|(_ & H')]; eauto. }
  assert (Hloc : forall c x, assoc c E' = Some x -> is_local mods c = true).
  { intros c x Hc. destruct (Hinv c x Hc) as [(H & _)|(_ & H)]; [apply Hdecl, B1, H|exact (O2 c x H)]. }
  assert (Hcl : forall c, In c F -> cl (G c) = G c).
  { destruct B6 as (KG & F1 & F2 & F3). assert (Hfit : fits st (fun c => cl (KG c))).
    { apply O3.
      - intros c k Hl Hk. rewrite (proj1 F1 c k Hl Hk). apply cl_term_of.
      - intros c x Hc. rewrite (fits_match st E gs KG HR F1 c x Hc). exact (O1 c x Hc). }
    destruct (B7 _ Hfit (ggroup_cl _ _ F2)) as (s & Hs). intros c Hc. apply (cl_instance s). rewrite <- (F3 c Hc) at 1. apply Hs, Hc. }
  assert (Hext : ext (denv E')) by (apply denv_ext, Hloc).
  (* kinds that are right outside of the group *)
  assert (Hout : forall K, ext K -> outer K (denv E') g -> exists K', fits st K' /\ forall c, In c (declared g) \/ In c (mentions g) -> K c = K' c).
  { intros K HK Ho. exists (fun c => if in_dec_nat c (declared g ++ mentions g) then K c else denv E' c). split.
    - apply O3.
      + intros c k Hl Hk. destruct (in_dec_nat c (declared g ++ mentions g)); [apply HK; auto|apply Hext; auto].
      + intros c x Hc. destruct (in_dec_nat c (declared g ++ mentions g)) as [Hin|]; [|apply denv_matches, HE, Hc].
        assert (Hnd : ~ In c (declared g)) by (intros Hd; apply (proj2 (Hdecl c Hd)), Hseen; eauto).
        apply in_app_iff in Hin. destruct Hin as [Hin|Hin]; [contradiction|]. rewrite (Ho c Hin Hnd). apply denv_matches, HE, Hc.
    - intros c Hc. destruct (in_dec_nat c (declared g ++ mentions g)) as [|Hn]; [reflexivity|]. exfalso. apply Hn, in_app_iff. exact Hc. }
  assert (Hnew : resolved (denv E') g).
  { destruct B6 as (KG & F1 & F2 & F3). exists G, KG. split; [|split; [apply F1|split; [|split; [exact F2|]]]].
    - intros c Hc. apply B1 in Hc. split; [|apply F3, Hc]. apply denv_matches, HF, Hc.
    - intros c Hc Hd. destruct (Hment c Hc) as [H|[H|H]]; [contradiction| |].
      + apply Hseen in H. destruct H as (x & Hx). rewrite (fits_match st E gs KG HR F1 c x Hx). symmetry. apply denv_matches, HE, Hx.
      + destruct (Hknown c H) as (k & Hk & _). rewrite (proj1 F1 c k H Hk). symmetry. apply Hext; auto.
    - intros K HK Ho HG. destruct (Hout K HK Ho) as (K' & Hf & Heq). destruct (B7 K' Hf) as (s & Hs); [eapply ggroup_ext; [exact Heq|exact HG]|].
      exists s. intros c Hc. rewrite (Heq c (or_introl Hc)). apply Hs, B1, Hc. }
  exists E'. split; [exact B2|]. split; [|split; [exact Hseen'|exact HE]]. split; [|split; [exact Hloc|split; [|split]]].
  - intros c x Hc. destruct (Hinv c x Hc) as [(H & ->)|(_ & H)]; [|exact (O1 c x H)]. rewrite cl_fill by reflexivity. rewrite (Hcl c H). reflexivity.
  - intros K HK HM. apply B5.
    + apply O3; [exact HK|]. intros c x Hc. apply HM, HE, Hc.
    + destruct (fits_exists st') as (KD & HD); [apply B2|]. assert (HGD : ggroup KD g).
      { destruct B2 as (_ & _ & _ & B2 & _). pose proof (B2 KD HD) as HH. apply Forall_app in HH. destruct HH as (_ & HH). apply (Forall_inv HH). }
      eapply ggroup_ext; [|exact HGD]. intros c Hc. assert (Hcase : (exists x, assoc c E' = Some x) \/ is_local mods c = false).
      { destruct Hc as [Hc|Hc]; [left; exists (fill GType (G c)); apply HF, B1, Hc|]. destruct (Hment c Hc) as [H|[H|H]]; [left; exists (fill GType (G c)); apply HF, B1, H| |right; exact H].
        apply Hseen in H. destruct H as (x & Hx). left. eauto. }
      destruct Hcase as [(x & Hx)|Hl].
      * rewrite (HM c x Hx). exact (fits_match st' E' (gs ++ [g]) KD B2 HD c x Hx).
      * destruct (Hknown c Hl) as (k & Hk & _). rewrite (HK c k Hl Hk). exact (proj1 HD c k Hl Hk).
    + intros c Hc. apply HM, HF, Hc.
  - apply Forall_app. split; [|constructor; [exact Hnew|constructor]]. rewrite Forall_forall in *. intros g' Hg'. eapply resolved_ext; [|apply O4, Hg'].
    intros c Hc. assert (Hcase : (exists x, assoc c E = Some x) \/ is_local mods c = false).
    { destruct Hc as [Hc|Hc]; [|apply (O5 g' Hg' c Hc)]. left. destruct HR as (_ & _ & _ & _ & HR). apply HR, in_flat_map. eauto. }
    destruct Hcase as [(x & Hx)|Hl].
    + unfold denv. rewrite Hx, (HE c x Hx). reflexivity.
    + destruct (Hknown c Hl) as (k & Hk & _). rewrite (denv_ext E O2 c k Hl Hk). symmetry. apply Hext; auto.
  - apply Forall_app. split.
    + eapply Forall_impl; [|exact O5]. intros g' Hg' c Hc. destruct (Hg' c Hc) as [(x & Hx)|Hl]; [left; eauto|right; exact Hl].
    + constructor; [|constructor]. intros c Hc. destruct (Hment c Hc) as [H|[H|H]]; [left; eexists; apply HF, B1, H| |right; exact H].
      left. apply Hseen in H. destruct H as (x & Hx). eauto.
Qed.

(** * Runs *)
Lemma run_any gs : Forall annotations_proper gs -> forall st E done, run_inv st E done ->
  exists r, conv (fun n => each (infer_group mods n) st gs) r /\
    match r with inl _ => True | inr st' => exists E', run_inv st' E' (done ++ gs) end.
Proof.
  induction 1 as [|g gs Hg Hgs IH]; intros st E done HR; cbn [each].
  - exists (inr st). split; [apply conv_ret|]. exists E. rewrite app_nil_r. exact HR.
  - destruct (group_ok mods Hknown st g (proj1 HR) Hg) as (r & Hc & Hr). destruct r as [e|st1].
    + exists (inl e). split; [eapply conv_try_err; exact Hc|exact Logic.I].
    + destruct (group_run st E done g st1 HR Hr) as (F & G & _ & HR1 & _). destruct (IH st1 _ _ HR1) as (r & Hc2 & Hr2).
      exists r. split; [eapply conv_try_ok; [exact Hc|exact Hc2]|]. destruct r as [e|st2]; [exact Logic.I|]. rewrite <- app_assoc in Hr2. exact Hr2.
Qed.

Definition fails_at (st : state) (E : list (nat * gkind)) (g : group) : Prop :=
  forall K, ext K -> matches E K -> ggroup K g -> ~ gfirst K g.

Lemma run_ordered gs : Forall annotations_proper gs -> forall st E done seen, run_inv st E done -> ord_inv st E done ->
  (forall c, In c seen <-> exists x, assoc c E = Some x) -> in_order mods seen gs ->
  exists r, conv (fun n => each (infer_group mods n) st gs) r /\
    match r with
    | inl _ => exists before g after st1 E1, gs = before ++ g :: after /\ conv (fun n => each (infer_group mods n) st before) (inr st1) /\
        run_inv st1 E1 (done ++ before) /\ ord_inv st1 E1 (done ++ before) /\ fails_at st1 E1 g
    | inr st' => exists E', run_inv st' E' (done ++ gs) /\ ord_inv st' E' (done ++ gs)
    end.
Proof.
  induction 1 as [|g gs Hg Hgs IH]; intros st E done seen HR HO Hseen Hord; cbn [each].
  - exists (inr st). split; [apply conv_ret|]. exists E. rewrite app_nil_r. auto.
  - cbn [in_order] in Hord. destruct Hord as (Hd & Hm & Hord). destruct (group_ok mods Hknown st g (proj1 HR) Hg) as (r & Hc & Hr). destruct r as [e|st1].
    + exists (inl e). split; [eapply conv_try_err; exact Hc|]. exists [], g, gs, st, E. rewrite app_nil_r. split; [reflexivity|]. split; [apply conv_ret|]. split; [exact HR|].
      split; [exact HO|]. intros K HK HM. apply Hr. apply HO; auto.
    + destruct (group_ordered st E done g seen st1 HR HO Hr Hseen Hd Hm) as (E1 & HR1 & HO1 & Hseen1 & _).
      destruct (IH st1 E1 (done ++ [g]) (declared g ++ seen) HR1 HO1 Hseen1 Hord) as (r & Hc2 & Hr2).
      exists r. split; [eapply conv_try_ok; [exact Hc|exact Hc2]|]. destruct r as [e|st2].
      * destruct Hr2 as (before & g' & after & st2 & E2 & -> & H2 & H3 & H4 & H5). exists (g :: before), g', after, st2, E2. split; [reflexivity|].
        split; [cbn [each]; eapply conv_try_ok; [exact Hc|exact H2]|]. rewrite <- app_assoc in H3, H4. auto.
      * destruct Hr2 as (E2 & H3 & H4). exists E2. rewrite <- app_assoc in H3, H4. auto.
Qed.

(** * Other orders *)
Lemma Permutation_flat_in {A B} (f : A -> list B) l l' x : Permutation l l' -> In x (flat_map f l) -> In x (flat_map f l').
Proof. intros H. rewrite !in_flat_map. intros (y & Hy & Hx). exists y. split; [eapply Permutation_in; eauto|exact Hx]. Qed.

Lemma same_sym g g' : same_group g g' -> same_group g' g.
Proof. intros (H1 & H2). split; apply Permutation_sym; auto. Qed.

Lemma same_declared g g' c : same_group g g' -> In c (declared g) -> In c (declared g').
Proof. intros (H & _). apply Permutation_flat_in, H. Qed.

Lemma same_mentions g g' c : same_group g g' -> In c (mentions g) -> In c (mentions g').
Proof. intros (_ & H). apply Permutation_flat_in, H. Qed.

Lemma same_ggroup K g g' : same_group g g' -> ggroup K g -> ggroup K g'.
Proof. intros (H1 & H2) (G1 & G2). split; eapply Permutation_Forall; eauto. Qed.

Lemma same_gfirst K g g' : same_group g g' -> gfirst K g -> gfirst K g'.
Proof. intros (H1 & H2) HF. eapply Permutation_Forall; eauto. Qed.

Lemma resolved_unique D1 D2 g g' : same_group g g' -> resolved D1 g -> resolved D2 g' ->
  (forall c, In c (mentions g) -> ~ In c (declared g) -> D1 c = D2 c) -> forall c, In c (declared g) -> D1 c = D2 c.
Proof.
  intros Hs (G1 & K1 & A1 & A2 & A3 & A4 & A5) (G2 & K2 & B1 & B2 & B3 & B4 & B5) Ho.
  pose proof (same_sym _ _ Hs) as Hs'.
  destruct (A5 K2) as (s1 & H1); [exact B2| |eapply same_ggroup; eauto|].
  { intros c Hc Hd. rewrite (Ho c Hc Hd). apply B3; [eapply same_mentions; eauto|]. intros Hd'. apply Hd. eapply same_declared; eauto. }
  destruct (B5 K1) as (s2 & H2); [exact A2| |eapply same_ggroup; eauto|].
  { intros c Hc Hd. assert (Hc' : In c (mentions g)) by (eapply same_mentions; eauto). assert (Hd' : ~ In c (declared g)) by (intros Hd'; apply Hd; eapply same_declared; eauto).
    rewrite <- (Ho c Hc' Hd'). apply A3; auto. }
  intros c Hc. assert (Hc' : In c (declared g')) by (eapply same_declared; eauto).
  destruct (A1 c Hc) as (E1 & E2). destruct (B1 c Hc') as (E3 & E4). rewrite E1, E3. eapply variants.
  - rewrite <- E4. apply H1, Hc.
  - rewrite <- E2. apply H2, Hc'.
Qed.

Lemma run_other gs : Forall annotations_proper gs -> forall D, ext D ->
  (forall g', In g' gs -> exists g, same_group g g' /\ resolved D g /\ ggroup D g /\ gfirst D g) ->
  forall st E done seen, run_inv st E done -> ord_inv st E done ->
  (forall c, In c seen <-> exists x, assoc c E = Some x) -> in_order mods seen gs -> matches E D ->
  exists st' E', conv (fun n => each (infer_group mods n) st gs) (inr st') /\ run_inv st' E' (done ++ gs) /\ matches E' D.
Proof.
  induction 1 as [|g gs Hg Hgs IH]; intros D HD Hall st E done seen HR HO Hseen Hord HM; cbn [each].
  - exists st, E. rewrite app_nil_r. split; [apply conv_ret|auto].
  - cbn [in_order] in Hord. destruct Hord as (Hd & Hm & Hord). destruct (Hall g (or_introl eq_refl)) as (g0 & Hs & R1 & R2 & R3).
    destruct (group_ok mods Hknown st g (proj1 HR) Hg) as (r & Hc & Hr). destruct r as [e|st1].
    { exfalso. eapply Hr; [apply HO; [exact HD|exact HM]|eapply same_ggroup; eauto|eapply same_gfirst; eauto]. }
    destruct (group_ordered st E done g seen st1 HR HO Hr Hseen Hd Hm) as (E1 & HR1 & HO1 & Hseen1 & Hkeep).
    assert (HM1 : matches E1 D).
    { assert (Hres : resolved (denv E1) g) by (destruct HO1 as (_ & _ & _ & H & _); apply Forall_app in H; destruct H as (_ & H); apply (Forall_inv H)).
      assert (Hext1 : ext (denv E1)) by (apply denv_ext, HO1).
      intros c x Hx. destruct (in_dec_nat c (declared g)) as [Hin|Hin].
      - assert (Hu : D c = denv E1 c); [|rewrite Hu; apply denv_matches, Hx].
        eapply (resolved_unique D (denv E1) g0 g Hs R1 Hres); [|eapply same_declared; [apply same_sym, Hs|exact Hin]].
        intros d Hd1 Hd2. assert (Hd1' : In d (mentions g)) by (eapply same_mentions; eauto).
        assert (Hd2' : ~ In d (declared g)) by (intros H; apply Hd2; eapply same_declared; [apply same_sym, Hs|exact H]).
        destruct (Hm d Hd1') as [H|[H|H]]; [contradiction| |].
        + apply Hseen in H. destruct H as (y & Hy). rewrite (HM d y Hy). symmetry. apply denv_matches, Hkeep, Hy.
        + destruct (Hknown d H) as (k & Hk & _). rewrite (HD d k H Hk). symmetry. apply Hext1; auto.
      - assert (Hsn : In c seen). { assert (In c (declared g ++ seen)) as H by (apply Hseen1; eauto). apply in_app_iff in H. destruct H; [contradiction|assumption]. }
        apply Hseen in Hsn. destruct Hsn as (y & Hy). rewrite (HM c y Hy). rewrite (Hkeep c y Hy) in Hx. congruence. }
    destruct (IH D HD (fun g' Hg' => Hall g' (or_intror Hg')) st1 E1 (done ++ [g]) (declared g ++ seen) HR1 HO1 Hseen1 Hord HM1) as (st2 & E2 & Hc2 & HR2 & HM2).
    exists st2, E2. split; [eapply conv_try_ok; [exact Hc|exact Hc2]|]. rewrite <- app_assoc in HR2. auto.
Qed.
End Infer.
