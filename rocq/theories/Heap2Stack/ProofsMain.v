(** * Releasing what does not escape changes nothing: evaluation *)
From Verif.Base Require Import Base.
From Verif.Ir Require Import Model Spec Proofs RtInd.
From Verif.Heap2Stack Require Import Model Spec ProofsSafe ProofsErase ProofsSim.

(** The result of an allocation: nothing else refers to it. *)
Definition unshared (x : rt) (h : heap) (S1 : priv) (h1 : heap) (r : res) : Prop :=
  forall l a v, x = RAlloc l a -> r = RsVal v ->
  exists n w, v = VPtr n /\ (List.length h <= n)%nat /\ ~ S1 n /\ load h1 n = Some w /\
    forall b u, load h1 b = Some u -> ~ In n (addrs u).

Section Sim.
Variables (round32 : fp -> fp) (prim : prim_op -> heap -> list val -> option (heap * val)).
Variable funs : nat -> option (list nat * list nat * rt).
Hypothesis local : prims_local prim.
Hypothesis safe_funs : forall g ps cs b, funs g = Some (ps, cs, b) -> safe [] b = true.

Definition performed (S : priv) (o : op) (h h' : heap) (vs : list val) (h1 : heap) (r : res) : Prop :=
  exists h1', perform round32 prim o h' vs = Some (h1', r) /\ step S h h' S h1 h1' /\ res_ok S h1 r.

Lemma prim_sim S q h h' vs h1 r : inv S h h' -> Forall (val_ok S h) vs ->
  by_prim prim q h vs = Some (h1, r) ->
  exists h1', by_prim prim q h' vs = Some (h1', r) /\ step S h h' S h1 h1' /\ res_ok S h1 r.
Proof.
  unfold by_prim. intros I V E. destruct (prim q h vs) as [[k v]|] eqn:Q; [|discriminate]. injection E as -> <-.
  destruct (local q S h h' vs h1 v (i_heap _ _ _ I) (i_bound _ _ _ I) (i_agree _ _ _ I) V Q)
    as (L & Hk & Vk & Ek & k' & Q' & A' & Ek').
  rewrite Q'. exists k'. split; [reflexivity|]. split; [|exact Vk].
  split; [split; [exact A'|exact Hk|]|exact L|auto|auto|].
  - intros a Sa. pose proof (i_bound _ _ _ I a Sa). lia.
  - intros a Sa [E [w Lw]]. split; [rewrite Ek, Ek' by exact Sa; exact E|].
    exists w. unfold load. rewrite Ek by exact Sa. exact Lw.
Qed.

Lemma pure_sim S h h' v h1 r : inv S h h' -> val_ok S h v -> pure h v = Some (h1, r) ->
  exists h1', pure h' v = Some (h1', r) /\ step S h h' S h1 h1' /\ res_ok S h1 r.
Proof.
  intros I V E. injection E as <- <-. exists h'. split; [reflexivity|]. split; [apply step_refl; exact I|exact V].
Qed.

Lemma const_val_ok S h c v : const_val round32 c = Some v -> val_ok S h v.
Proof.
  intros E a Ia. destruct c as [t b n|t f|s|c|t s|]; cbn in E; try destruct t; try discriminate E;
    injection E as <-; destruct Ia.
Qed.

Lemma perform_sim S o h h' vs h1 r : inv S h h' -> Forall (val_ok S h) vs ->
  perform round32 prim o h vs = Some (h1, r) -> performed S o h h' vs h1 r.
Proof.
  intros I V E. unfold performed.
  assert (Triv : forall v, addrs v = [] -> val_ok S h v) by (intros v A a Ia; rewrite A in Ia; destruct Ia).
  assert (Fst : forall v l, vs = v :: l -> val_ok S h v) by (intros; subst; inversion V; assumption).
  assert (Snd : forall u v l, vs = u :: v :: l -> val_ok S h v)
    by (intros; subst; inversion V as [|? ? ? V2]; inversion V2; assumption).
  assert (Ld : forall a, val_ok S h (VPtr a) -> load h' a = load h a)
    by (intros a Va; apply (load_ok S); [exact I|apply (Va a); cbn; auto]).
  assert (Bl : forall b, of_bool h b = Some (h1, r) ->
    exists h1', of_bool h' b = Some (h1', r) /\ step S h h' S h1 h1' /\ res_ok S h1 r).
  { intros [b|] Eb; [|discriminate Eb]. cbn [of_bool] in *. eapply pure_sim; eauto. apply Triv. now destruct b. }
  destruct o as [o|o|o|o| |l t| |t| |f c|l t|k t| |k|c|t i]; cbn [perform] in *.
  - destruct o; destruct vs; try discriminate E; eauto using pure_sim, prim_sim.
  - destruct o; try (eapply prim_sim; eassumption); try discriminate E.
    all: destruct vs as [|v [|? ?]]; try discriminate E; try (eapply prim_sim; eassumption).
    all: destruct v; try discriminate E; try (eapply prim_sim; eassumption).
    all: specialize (Fst _ _ eq_refl).
    all: first
      [ eapply pure_sim; eauto; first [exact Fst|apply Triv; reflexivity]
      | match type of E with (match ?n with N0 => _ | _ => _ end) = _ => destruct n as [|[?|?|]]; try discriminate E end;
        eapply pure_sim; eauto; apply Triv; reflexivity
      | match type of E with (match load ?k ?a with _ => _ end) = _ =>
          rewrite (Ld a Fst); destruct (load k a) eqn:La; try discriminate E end;
        eapply pure_sim; eauto; exact (i_heap _ _ _ I _ _ La)
      | match type of E with (match nth_error ?l ?i with _ => _ end) = _ =>
          destruct (nth_error l i) eqn:La; try discriminate E end;
        eapply pure_sim; eauto; apply nth_error_In in La;
        exact (proj1 (Forall_forall _ _) (proj2 (val_ok_struct _ _ _) Fst) _ La)
      | match type of E with (if ?d then _ else _) = _ => destruct d; try discriminate E end;
        eapply pure_sim; eauto; exact Fst
      | injection E as <- <-; eexists; split; [reflexivity|]; split; [apply step_refl; exact I|exact Logic.I] ].
  - destruct o; try (eapply prim_sim; eassumption); try discriminate E.
    all: destruct vs as [|u [|v [|? ?]]]; try discriminate E; try (eapply prim_sim; eassumption); try (apply Bl; exact E).
    all: try (destruct u; try discriminate E).
    all: try (destruct v; try discriminate E).
    all: try (destruct f; try discriminate E).
    all: try (destruct f0; try discriminate E).
    all: try (apply Bl; exact E).
    all: specialize (Fst _ _ eq_refl); specialize (Snd _ _ _ eq_refl).
    all: rewrite (Ld _ Snd); destruct (load h a) as [?w|] eqn:La; try discriminate E.
    all: try (destruct (load h a0) as [?w|] eqn:La0; try discriminate E).
    all: injection E as <- <-; eexists; split; [reflexivity|]; split; [eapply store_step; eauto|intros ? []].
  - eapply prim_sim; eassumption.
  - destruct vs as [|v [|? ?]]; try discriminate E. injection E as <- <-.
    pose proof (alloc_step S h h' v I (Fst _ _ eq_refl)) as St.
    rewrite (proj1 (i_agree _ _ _ I)). eexists. split; [reflexivity|]. split; [exact St|].
    intros a [<-|[]]. rewrite app_length, <- (proj1 (i_agree _ _ _ I)). cbn. split; [|lia].
    intro K. apply (i_bound _ _ _ I) in K. lia.
  - eapply prim_sim; eassumption.
  - eapply pure_sim; eauto. exact (proj1 (val_ok_struct _ _ _) V).
  - eapply pure_sim; eauto. exact (proj1 (val_ok_struct _ _ _) V).
  - destruct vs as [|v [|? ?]]; try discriminate E. eapply pure_sim; eauto. exact (Fst _ _ eq_refl).
  - destruct f; try discriminate E; destruct c, vs as [|v [|? ?]]; try discriminate E;
      (eapply pure_sim; eauto); try (apply Triv; reflexivity). exact (Fst _ _ eq_refl).
  - eapply prim_sim; eassumption.
  - eapply prim_sim; eassumption.
  - destruct vs as [|v [|? ?]]; try discriminate E. injection E as <- <-. eexists. split; [reflexivity|].
    split; [apply step_refl; exact I|exact (Fst _ _ eq_refl)].
  - injection E as <- <-. eexists. split; [reflexivity|]. split; [apply step_refl; exact I|exact V].
  - destruct c; destruct vs as [|u us]; try discriminate E; try (eapply prim_sim; eassumption).
    all: match type of E with (match ?c with _ => _ end) = _ => destruct c eqn:C end; try discriminate E;
      eapply pure_sim; eauto; eapply const_val_ok; exact C.
  - eapply prim_sim; eassumption.
Qed.

(** ** Evaluation *)

Notation src := (ev false round32 prim funs).
Notation srcs := (evs false round32 prim funs).
Notation tgt := (ev true round32 prim funs).
Notation tgts := (evs true round32 prim funs).

Definition usable (P : list nat) (x : rt) : Prop := safe P x = true \/ is_rvar x = true.

Definition sim (h : heap) (e : env) (x : rt) (h1 : heap) (r : res) : Prop :=
  forall P S h', usable P x -> inv S h h' -> env_inv P S h h' e ->
  exists S1 h1', tgt h' e x h1' r /\ step S h h' S1 h1 h1' /\ (safe P x = true -> res_ok S1 h1 r) /\
    (forall id t, x = RVar id t -> exists v, r = RsVal v /\ lookup e id = Some v) /\
    unshared x h S1 h1 r.

Definition sims (h : heap) (e : env) (xs : list rt) (h1 : heap) (r : list val + res) : Prop :=
  forall P S h', Forall (usable P) xs -> inv S h h' -> env_inv P S h h' e ->
  exists S1 h1', tgts h' e xs h1' r /\ step S h h' S1 h1 h1' /\
    match r with
    | inl vs => Forall2 (fun x v => (safe P x = true -> val_ok S1 h1 v) /\
        (forall id t, x = RVar id t -> lookup e id = Some v)) xs vs
    | inr r => abrupt r /\ res_ok S1 h1 r
    end.

Lemma usable_abrupt P x h e h1 r S h' : usable P x -> abrupt r ->
  (exists S1 h1', tgt h' e x h1' r /\ step S h h' S1 h1 h1' /\ (safe P x = true -> res_ok S1 h1 r) /\
    (forall id t, x = RVar id t -> exists v, r = RsVal v /\ lookup e id = Some v) /\
    unshared x h S1 h1 r) ->
  safe P x = true.
Proof.
  intros [U|U] A (S1 & h1' & _ & _ & _ & V & _); [exact U|]. destruct x; try discriminate U.
  destruct (V _ _ eq_refl) as (v & -> & _). destruct A.
Qed.

(** The operands of a safe operation. *)
Lemma safe_operands P x o es : safe P x = true -> operation x = Some (o, es) ->
  Forall (fun y => safe P y = true) es \/
  (exists id t, o = OUnary ULoad /\ es = [RVar id t]) \/
  (exists a id t, o = OBinary BStore /\ es = [a; RVar id t] /\ safe P a = true).
Proof.
  intros Sx O.
  destruct x as [id t|f t c|c|f ys|lb r ys|k f r ys|k ys r|u|u a|u a b|u a b c|lo a|lo t a|lo ys|t i ys|t ys
    |m a|ys a|a b c|a b|a b|a b|a cs|a| |vs b|ks b]; try discriminate O; cbn in O, Sx.
  1: destruct c as [c|].
  all: injection O as <- <-.
  all: repeat match goal with K : (_ && _)%bool = true |- _ => apply andb_true_iff in K; destruct K end.
  all: try (left; repeat constructor; assumption).
  all: try (left; apply Forall_forall; apply forallb_forall; assumption).
  - left. constructor; [assumption|]. apply Forall_forall. apply forallb_forall. assumption.
  - destruct (is_rvar a) eqn:V.
    + destruct a; try discriminate V. destruct u; try (left; repeat constructor; exact Sx).
      right. left. eauto.
    + left. constructor; [|constructor]. destruct u, a; try discriminate V; exact Sx.
  - destruct (is_rvar b) eqn:V.
    + destruct b; try discriminate V.
      destruct u; try (apply andb_true_iff in Sx; destruct Sx; left; repeat constructor; assumption).
      right. right. eauto 6.
    + assert (K : (safe P a && safe P b)%bool = true) by (destruct u, b; try discriminate V; exact Sx).
      apply andb_true_iff in K. destruct K. left. repeat constructor; assumption.
Qed.

Lemma usables P es : Forall (fun y => safe P y = true) es -> Forall (usable P) es.
Proof. apply Forall_impl. intros y Y. left. exact Y. Qed.

Lemma vals_ok P S h e xs vs : Forall (fun y => safe P y = true) xs ->
  Forall2 (fun x v => (safe P x = true -> val_ok S h v) /\
    (forall id t, x = RVar id t -> lookup e id = Some v)) xs vs -> Forall (val_ok S h) vs.
Proof.
  intros F G. induction G as [|x v xs vs [A _] _ IH]; [constructor|]. inversion F; subst.
  constructor; [apply A; assumption|apply IH; assumption].
Qed.

Lemma not_var_alloc x h S1 h1 r : match x with RAlloc _ _ => False | _ => True end -> unshared x h S1 h1 r.
Proof. intros N l a v -> _. destruct N. Qed.

Lemma abrupt_unshared x h S1 h1 r : abrupt r -> unshared x h S1 h1 r.
Proof. intros A l a v _ ->. destruct A. Qed.

Lemma conclude P S h h' S1 h1 h1' e x r : match x with RVar _ _ | RAlloc _ _ => False | _ => True end ->
  tgt h' e x h1' r -> step S h h' S1 h1 h1' -> res_ok S1 h1 r ->
  exists S1 h1', tgt h' e x h1' r /\ step S h h' S1 h1 h1' /\ (safe P x = true -> res_ok S1 h1 r) /\
    (forall id t, x = RVar id t -> exists v, r = RsVal v /\ lookup e id = Some v) /\
    unshared x h S1 h1 r.
Proof.
  intros N T St R. exists S1, h1'. split; [exact T|]. split; [exact St|]. split; [auto|]. split.
  - intros id t ->. destruct N.
  - apply not_var_alloc. destruct x; auto.
Qed.

Lemma alloc_unshared S h h' S1 h1 h1' l a v h2 r : step S h h' S1 h1 h1' -> val_ok S1 h1 v ->
  perform round32 prim OAlloc h1 [v] = Some (h2, r) -> unshared (RAlloc l a) h S1 h2 r.
Proof.
  intros St V E l0 a0 v0 _ ->. injection E as <- <-. pose proof (s_inv _ _ _ _ _ _ St) as I.
  exists (List.length h1), v. split; [reflexivity|]. split; [apply (s_len _ _ _ _ _ _ St)|]. split; [|split].
  - intro K. apply (i_bound _ _ _ I) in K. lia.
  - apply load_some. rewrite nth_error_app2, Nat.sub_diag by lia. reflexivity.
  - intros b u Lb K. apply load_some in Lb. destruct (Nat.lt_ge_cases b (List.length h1)) as [Hb|Hb].
    + rewrite nth_error_app1 in Lb by exact Hb. apply load_some in Lb.
      destruct (i_heap _ _ _ I b u Lb _ K). lia.
    + rewrite nth_error_app2 in Lb by exact Hb. destruct (b - List.length h1)%nat as [|[|?]]; try discriminate Lb.
      injection Lb as <-. destruct (V _ K). lia.
Qed.

Lemma combine_vals ids vs id v : lookup (combine ids vs) id = Some v -> In v vs.
Proof.
  revert vs. induction ids as [|i ids IH]; intros [|w vs]; cbn; try discriminate.
  destruct (i =? id)%nat; [intro E; injection E as ->; auto|]. intro E. right. eapply IH; eauto.
Qed.

Lemma callee_inv S h h' ps cs cenv g vs e' : callee_env ps cs cenv vs = Some e' ->
  val_ok S h (VClos g cenv) -> Forall (val_ok S h) vs -> env_inv [] S h h' e'.
Proof.
  unfold callee_env. intros C Vc Vs. apply env_inv_nil. intros id v.
  destruct (List.length ps =? List.length vs)%nat; [|discriminate C].
  rewrite Forall_forall in Vs.
  destruct cenv as [w|].
  - destruct w as [| | | | | | | | |ws|]; try discriminate C.
    destruct (List.length cs =? List.length ws)%nat; [|discriminate C].
    injection C as <-. rewrite lookup_app. destruct (lookup (combine ps vs) id) as [u|] eqn:L.
    + intro E. injection E as <-. apply Vs. eapply combine_vals; eauto.
    + intro E. apply combine_vals in E. assert (F : Forall (val_ok S h) ws) by (apply val_ok_struct; exact Vc).
      rewrite Forall_forall in F. apply F, E.
  - destruct cs; [|discriminate C]. injection C as <-. intro E. apply Vs. eapply combine_vals; eauto.
Qed.

Lemma combine_fst (ids : list nat) (vs : list val) : List.length vs = List.length ids ->
  map fst (combine ids vs) = ids /\ map snd (combine ids vs) = vs.
Proof.
  revert vs. induction ids as [|i ids IH]; intros [|v vs]; cbn; try discriminate; [auto|].
  intro E. injection E as E. destruct (IH vs E) as [-> ->]. auto.
Qed.

Lemma nonvar P x : usable P x -> is_rvar x = false -> safe P x = true.
Proof. intros [U|U] N; congruence. Qed.

Lemma bool_res S h b : res_ok S h (RsVal (v_bool b)).
Proof. destruct b; intros a []. Qed.

Lemma simulation :
  (forall h e x h1 r, src h e x h1 r -> sim h e x h1 r) /\
  (forall h e xs h1 r, srcs h e xs h1 r -> sims h e xs h1 r).
Proof.
  apply (ev_evs_ind false round32 prim funs sim sims).
  - (* variable *)
    intros h e id t v L P S h' _ I E. exists S, h'. split; [constructor; exact L|].
    split; [apply step_refl; exact I|]. split; [|split].
    + cbn. intro N. apply negb_true_iff in N. apply (proj2 (E id v L)). intro K. apply mem_in in K. congruence.
    + intros id0 t0 K. injection K as <- <-. eauto.
    + apply not_var_alloc. exact Logic.I.
  - (* operation *)
    intros h e x o es h1 vs h2 r O _ IH Pf P S h' U I E.
    assert (Sx : safe P x = true) by (apply nonvar; [exact U|destruct x; try discriminate O; reflexivity]).
    assert (Ordinary : forall S1 h1', Forall (val_ok S1 h1) vs -> step S h h' S1 h1 h1' ->
      tgts h' e es h1' (inl vs) ->
      exists S1 h1', tgt h' e x h1' r /\ step S h h' S1 h2 h1' /\ (safe P x = true -> res_ok S1 h2 r) /\
        (forall id t, x = RVar id t -> exists v, r = RsVal v /\ lookup e id = Some v) /\
        unshared x h S1 h2 r).
    { intros S1 h1' V St T. destruct (perform_sim S1 o h1 h1' vs h2 r (s_inv _ _ _ _ _ _ St) V Pf) as (h2' & Q & St2 & R).
      exists S1, h2'. split; [eapply ev_operation; eauto|]. split; [eapply step_trans; eauto|].
      split; [auto|]. split; [intros id t ->; discriminate O|].
      destruct x; try (apply not_var_alloc; exact Logic.I). cbn in O. injection O as <- <-.
      destruct vs as [|v [|? ?]]; try discriminate Pf. inversion V; subst. eapply alloc_unshared; eauto. }
    destruct (safe_operands _ _ _ _ Sx O) as [F|[(id & t & -> & ->)|(a & id & t & -> & -> & Sa)]].
    + destruct (IH P S h' (usables _ _ F) I E) as (S1 & h1' & T & St & V).
      eapply Ordinary; eauto. eapply vals_ok; eauto.
    + destruct (IH P S h' (Forall_cons (RVar id t) (or_intror eq_refl : usable P (RVar id t)) (Forall_nil _)) I E) as (S1 & h1' & T & St & V).
      inversion V as [|? v ? vs0 [V1 V2] V3]; subst. inversion V3; subst. specialize (V2 _ _ eq_refl).
      destruct (in_dec Nat.eq_dec id P) as [Ip|Ip].
      * destruct (proj1 (E id v V2) Ip) as (a & -> & Sa & Lv). cbn in Pf.
        destruct (s_live _ _ _ _ _ _ St a Sa Lv) as [Eq [w Lw]]. rewrite Lw in Pf. injection Pf as <- <-.
        apply (conclude P S h h' S1 h1 h1'); [destruct x; try discriminate O; exact Logic.I| |exact St|].
        -- eapply ev_operation; eauto. cbn. unfold load. rewrite <- Eq. fold (load h1 a). rewrite Lw. reflexivity.
        -- cbn. exact (i_heap _ _ _ (s_inv _ _ _ _ _ _ St) _ _ Lw).
      * apply (Ordinary S1 h1'); auto. constructor; [|constructor]. apply V1. cbn. apply negb_true_iff.
        destruct (mem id P) eqn:M; [apply mem_in in M; contradiction|reflexivity].
    + destruct (IH P S h' (Forall_cons a (or_introl Sa : usable P a) (Forall_cons (RVar id t) (or_intror eq_refl : usable P (RVar id t)) (Forall_nil _))) I E)
        as (S1 & h1' & T & St & V).
      inversion V as [|? u ? vs0 [U1 _] V3]; subst. inversion V3 as [|? v ? vs1 [V1 V2] V4]; subst. inversion V4; subst.
      specialize (U1 Sa). specialize (V2 _ _ eq_refl).
      destruct (in_dec Nat.eq_dec id P) as [Ip|Ip].
      * destruct (proj1 (E id v V2) Ip) as (b & -> & Sb & Lv). cbn in Pf.
        destruct (s_live _ _ _ _ _ _ St b Sb Lv) as [Eq [w Lw]]. rewrite Lw in Pf. injection Pf as <- <-.
        apply (conclude P S h h' S1 (write h1 b (Some u)) (write h1' b (Some u)));
          [destruct x; try discriminate O; exact Logic.I| | |intros ? []].
        -- eapply ev_operation; eauto. cbn. unfold load. rewrite <- Eq. fold (load h1 b). rewrite Lw. reflexivity.
        -- eapply step_trans; [exact St|]. eapply store_step; eauto. apply (s_inv _ _ _ _ _ _ St).
      * apply (Ordinary S1 h1'); auto. constructor; [exact U1|constructor; [|constructor]]. apply V1. cbn.
        apply negb_true_iff. destruct (mem id P) eqn:M; [apply mem_in in M; contradiction|reflexivity].
  - intros h e x o es h1 r O _ IH P S h' U I E.
    assert (Sx : safe P x = true) by (apply nonvar; [exact U|destruct x; try discriminate O; reflexivity]).
    assert (F : Forall (usable P) es).
    { destruct (safe_operands _ _ _ _ Sx O) as [F|[(id & t & -> & ->)|(a & id & t & -> & -> & Sa)]].
      - apply usables, F.
      - constructor; [right; reflexivity|constructor].
      - constructor; [left; exact Sa|]. constructor; [right; reflexivity|constructor]. }
    destruct (IH P S h' F I E) as (S1 & h1' & T & St & A & R).
    exists S1, h1'. split; [eapply ev_operation_stop; eauto|]. split; [exact St|]. split; [auto|].
    split; [intros id t ->; discriminate O|apply abrupt_unshared, A].
  - (* call *)
    intros h e f args h1 g cenv vs params captured body e' r h3 r' _ IH G C _ IHb Rt P S h' U I E.
    apply nonvar in U; [|reflexivity]. cbn in U. apply andb_true_iff in U. destruct U as [U1 U2].
    assert (F : Forall (fun y => safe P y = true) (f :: args))
      by (constructor; [exact U1|apply Forall_forall; apply forallb_forall; exact U2]).
    destruct (IH P S h' (usables _ _ F) I E) as (S1 & h1' & T & St & V).
    apply vals_ok in V; [|exact F]. inversion V; subst.
    destruct (IHb [] S1 h1' (or_introl (safe_funs _ _ _ _ G)) (s_inv _ _ _ _ _ _ St)) as (S2 & h2' & T2 & St2 & R2 & _);
      [eapply callee_inv; eauto|].
    apply (conclude P S h h' S2 h3 h2'); [exact Logic.I|eapply ev_call; eauto|eapply step_trans; eauto|].
    specialize (R2 (safe_funs _ _ _ _ G)). destruct r; try discriminate Rt; injection Rt as <-; exact R2.
  - intros h e f args h1 r _ IH P S h' U I E.
    apply nonvar in U; [|reflexivity]. cbn in U. apply andb_true_iff in U. destruct U as [U1 U2].
    assert (F : Forall (fun y => safe P y = true) (f :: args))
      by (constructor; [exact U1|apply Forall_forall; apply forallb_forall; exact U2]).
    destruct (IH P S h' (usables _ _ F) I E) as (S1 & h1' & T & St & A & R).
    apply (conclude P S h h' S1 h1 h1'); [exact Logic.I|eapply ev_call_stop; eauto|exact St|exact R].
  - (* seq *)
    intros h e x h1 r _ IH P S h' U I E. apply nonvar in U; [|reflexivity]. cbn in U.
    destruct (IH P S h' (or_introl U) I E) as (S1 & h1' & T & St & R & _).
    apply (conclude P S h h' S1 h1 h1'); [exact Logic.I|constructor; exact T|exact St|exact (R U)].
  - intros h e s ss x h1 v h2 r _ IH1 _ IH2 P S h' U I E. apply nonvar in U; [|reflexivity].
    cbn in U. rewrite <- andb_assoc in U. apply andb_true_iff in U. destruct U as [U1 U2].
    destruct (IH1 P S h' (or_introl U1) I E) as (S1 & h1' & T & St & R & _).
    destruct (IH2 P S1 h1' (or_introl U2) (s_inv _ _ _ _ _ _ St) (step_env _ _ _ _ _ _ _ _ St E)) as (S2 & h2' & T2 & St2 & R2 & _).
    apply (conclude P S h h' S2 h2 h2');
      [exact Logic.I|eapply ev_seq_cons; eauto|eapply step_trans; eauto|exact (R2 U2)].
  - intros h e s ss x h1 r _ IH A P S h' U I E. apply nonvar in U; [|reflexivity].
    cbn in U. rewrite <- andb_assoc in U. apply andb_true_iff in U. destruct U as [U1 U2].
    destruct (IH P S h' (or_introl U1) I E) as (S1 & h1' & T & St & R & _).
    apply (conclude P S h h' S1 h1 h1'); [exact Logic.I|eapply ev_seq_stop; eauto|exact St|exact (R U1)].
  - (* if *)
    intros h e c t f h1 b h2 r _ IH1 _ IH2 P S h' U I E. apply nonvar in U; [|reflexivity].
    cbn in U. apply andb_true_iff in U. destruct U as [U1 U2]. apply andb_true_iff in U2.
    assert (Ub : safe P (if b then t else f) = true) by (destruct b; apply U2).
    destruct (IH1 P S h' (or_introl U1) I E) as (S1 & h1' & T & St & R & _).
    destruct (IH2 P S1 h1' (or_introl Ub) (s_inv _ _ _ _ _ _ St) (step_env _ _ _ _ _ _ _ _ St E)) as (S2 & h2' & T2 & St2 & R2 & _).
    apply (conclude P S h h' S2 h2 h2');
      [exact Logic.I|eapply ev_if; eauto|eapply step_trans; eauto|exact (R2 Ub)].
  - intros h e c t f h1 r _ IH A P S h' U I E. apply nonvar in U; [|reflexivity].
    cbn in U. apply andb_true_iff in U. destruct U as [U1 U2].
    destruct (IH P S h' (or_introl U1) I E) as (S1 & h1' & T & St & R & _).
    apply (conclude P S h h' S1 h1 h1'); [exact Logic.I|eapply ev_if_stop; eauto|exact St|exact (R U1)].
  - (* while *)
    intros h e c b h1 _ IH P S h' U I E. apply nonvar in U; [|reflexivity].
    cbn in U. apply andb_true_iff in U. destruct U as [U1 U2].
    destruct (IH P S h' (or_introl U1) I E) as (S1 & h1' & T & St & R & _).
    apply (conclude P S h h' S1 h1 h1'); [exact Logic.I|eapply ev_while_end; eauto|exact St|intros ? []].
  - intros h e c b h1 h2 v h3 r _ IH1 _ IH2 _ IH3 P S h' U I E. apply nonvar in U; [|reflexivity].
    pose proof U as U3. cbn in U. apply andb_true_iff in U. destruct U as [U1 U2].
    destruct (IH1 P S h' (or_introl U1) I E) as (S1 & h1' & T & St & R & _).
    destruct (IH2 P S1 h1' (or_introl U2) (s_inv _ _ _ _ _ _ St) (step_env _ _ _ _ _ _ _ _ St E)) as (S2 & h2' & T2 & St2 & R2 & _).
    pose proof (step_trans _ _ _ _ _ _ _ _ _ St St2) as St12.
    destruct (IH3 P S2 h2' (or_introl U3) (s_inv _ _ _ _ _ _ St12) (step_env _ _ _ _ _ _ _ _ St12 E)) as (S3 & h3' & T3 & St3 & R3 & _).
    apply (conclude P S h h' S3 h3 h3');
      [exact Logic.I|eapply ev_while_next; eauto|eapply step_trans; eauto|exact (R3 U3)].
  - intros h e c b h1 r _ IH A P S h' U I E. apply nonvar in U; [|reflexivity].
    cbn in U. apply andb_true_iff in U. destruct U as [U1 U2].
    destruct (IH P S h' (or_introl U1) I E) as (S1 & h1' & T & St & R & _).
    apply (conclude P S h h' S1 h1 h1'); [exact Logic.I|eapply ev_while_stop_cond; eauto|exact St|exact (R U1)].
  - intros h e c b h1 h2 r _ IH1 _ IH2 A P S h' U I E. apply nonvar in U; [|reflexivity].
    cbn in U. apply andb_true_iff in U. destruct U as [U1 U2].
    destruct (IH1 P S h' (or_introl U1) I E) as (S1 & h1' & T & St & R & _).
    destruct (IH2 P S1 h1' (or_introl U2) (s_inv _ _ _ _ _ _ St) (step_env _ _ _ _ _ _ _ _ St E)) as (S2 & h2' & T2 & St2 & R2 & _).
    apply (conclude P S h h' S2 h2 h2');
      [exact Logic.I|eapply ev_while_stop; eauto|eapply step_trans; eauto|exact (R2 U2)].
  - (* and *)
    intros h e a b h1 h2 r _ IH1 _ IH2 P S h' U I E. apply nonvar in U; [|reflexivity].
    cbn in U. apply andb_true_iff in U. destruct U as [U1 U2].
    destruct (IH1 P S h' (or_introl U1) I E) as (S1 & h1' & T & St & R & _).
    destruct (IH2 P S1 h1' (or_introl U2) (s_inv _ _ _ _ _ _ St) (step_env _ _ _ _ _ _ _ _ St E)) as (S2 & h2' & T2 & St2 & R2 & _).
    apply (conclude P S h h' S2 h2 h2');
      [exact Logic.I|eapply ev_and_true; eauto|eapply step_trans; eauto|exact (R2 U2)].
  - intros h e a b h1 _ IH P S h' U I E. apply nonvar in U; [|reflexivity].
    cbn in U. apply andb_true_iff in U. destruct U as [U1 U2].
    destruct (IH P S h' (or_introl U1) I E) as (S1 & h1' & T & St & R & _).
    apply (conclude P S h h' S1 h1 h1'); [exact Logic.I|eapply ev_and_false; eauto|exact St|exact (R U1)].
  - intros h e a b h1 r _ IH A P S h' U I E. apply nonvar in U; [|reflexivity].
    cbn in U. apply andb_true_iff in U. destruct U as [U1 U2].
    destruct (IH P S h' (or_introl U1) I E) as (S1 & h1' & T & St & R & _).
    apply (conclude P S h h' S1 h1 h1'); [exact Logic.I|eapply ev_and_stop; eauto|exact St|exact (R U1)].
  - (* or *)
    intros h e a b h1 _ IH P S h' U I E. apply nonvar in U; [|reflexivity].
    cbn in U. apply andb_true_iff in U. destruct U as [U1 U2].
    destruct (IH P S h' (or_introl U1) I E) as (S1 & h1' & T & St & R & _).
    apply (conclude P S h h' S1 h1 h1'); [exact Logic.I|eapply ev_or_true; eauto|exact St|exact (R U1)].
  - intros h e a b h1 h2 r _ IH1 _ IH2 P S h' U I E. apply nonvar in U; [|reflexivity].
    cbn in U. apply andb_true_iff in U. destruct U as [U1 U2].
    destruct (IH1 P S h' (or_introl U1) I E) as (S1 & h1' & T & St & R & _).
    destruct (IH2 P S1 h1' (or_introl U2) (s_inv _ _ _ _ _ _ St) (step_env _ _ _ _ _ _ _ _ St E)) as (S2 & h2' & T2 & St2 & R2 & _).
    apply (conclude P S h h' S2 h2 h2');
      [exact Logic.I|eapply ev_or_false; eauto|eapply step_trans; eauto|exact (R2 U2)].
  - intros h e a b h1 r _ IH A P S h' U I E. apply nonvar in U; [|reflexivity].
    cbn in U. apply andb_true_iff in U. destruct U as [U1 U2].
    destruct (IH P S h' (or_introl U1) I E) as (S1 & h1' & T & St & R & _).
    apply (conclude P S h h' S1 h1 h1'); [exact Logic.I|eapply ev_or_stop; eauto|exact St|exact (R U1)].
  - (* match *)
    intros h e target clauses h1 v binds body h2 r _ IH1 M _ IH2 P S h' U I E. apply nonvar in U; [|reflexivity].
    cbn in U. apply andb_true_iff in U. destruct U as [U1 U2].
    destruct (IH1 P S h' (or_introl U1) I E) as (S1 & h1' & T & St & R & _).
    pose proof (s_inv _ _ _ _ _ _ St) as I1.
    destruct (first_match_sim round32 S1 h1 h1' I1 v clauses (R U1) P) as [M1 M2].
    destruct (M2 _ _ M U2) as [Sb Vb]. rewrite <- M1 in M.
    destruct (IH2 (minus P (map fst binds)) S1 h1' (or_introl Sb) I1) as (S2 & h2' & T2 & St2 & R2 & _);
      [apply env_inv_bind; [eapply step_env; eauto|exact Vb]|].
    apply (conclude P S h h' S2 h2 h2');
      [exact Logic.I|eapply ev_match; eauto|eapply step_trans; eauto|exact (R2 Sb)].
  - intros h e target clauses h1 r _ IH A P S h' U I E. apply nonvar in U; [|reflexivity].
    cbn in U. apply andb_true_iff in U. destruct U as [U1 U2].
    destruct (IH P S h' (or_introl U1) I E) as (S1 & h1' & T & St & R & _).
    apply (conclude P S h h' S1 h1 h1'); [exact Logic.I|eapply ev_match_stop; eauto|exact St|exact (R U1)].
  - (* let *)
    intros h e x h1 r _ IH P S h' U I E. apply nonvar in U; [|reflexivity]. cbn in U.
    destruct (IH P S h' (or_introl U) I E) as (S1 & h1' & T & St & R & _).
    apply (conclude P S h h' S1 h1 h1'); [exact Logic.I|constructor; exact T|exact St|exact (R U)].
  - intros h e id t init vars x h1 v h2 r _ IH1 _ IH2 P S h' U I E. apply nonvar in U; [|reflexivity].
    cbn in U. apply andb_true_iff in U. destruct U as [U1 U2].
    destruct (IH1 P S h' (or_introl U1) I E) as (S1 & h1' & T & St & R & _ & Un).
    change (release false init v h2) with h2.
    destruct (promoted init) eqn:Pr.
    + destruct init as [| | | | | | | | | | |l a| | | | | | | | | | | | | | |]; try discriminate Pr.
      destruct l; try discriminate Pr.
      destruct (Un _ _ _ eq_refl eq_refl) as (n & w & -> & Ln & Nn & Lw & Out).
      set (S1' := fun b => S1 b \/ b = n).
      pose proof (s_inv _ _ _ _ _ _ St) as I1.
      assert (I1' : inv S1' h1 h1').
      { split.
        - split; [apply (i_agree _ _ _ I1)|]. intros b Nb. apply (i_agree _ _ _ I1). intro K. apply Nb. left. exact K.
        - intros b u Lb c Ic. destruct (i_heap _ _ _ I1 b u Lb c Ic) as [Nc Lc]. split; [|exact Lc].
          intros [K| ->]; [exact (Nc K)|exact (Out b u Lb Ic)].
        - intros b [K| ->]; [apply (i_bound _ _ _ I1), K|eapply load_len; eauto]. }
      assert (St' : step S h h' S1' h1 h1').
      { split; [exact I1'|apply (s_len _ _ _ _ _ _ St)| | |apply (s_live _ _ _ _ _ _ St)].
        - intros b K. left. apply (s_incl _ _ _ _ _ _ St), K.
        - intros b [K| ->] Lb; [apply (s_new _ _ _ _ _ _ St); assumption|lia]. }
      assert (E' : env_inv (id :: P) S1' h1 h1' ((id, VPtr n) :: e)).
      { intros i u. cbn [lookup]. destruct (Nat.eqb_spec id i) as [<-|Ni].
        - intro K. injection K as <-. split; [|intro K; destruct K; left; reflexivity]. intros _. exists n.
          split; [reflexivity|]. split; [right; reflexivity|]. split; [|eauto]. apply (i_agree _ _ _ I1), Nn.
        - intro K. destruct (step_env _ _ _ _ _ _ _ _ St' E i u K) as [A B]. split.
          + intros [->|K2]; [congruence|apply A, K2].
          + intro K2. apply B. intro K3. apply K2. right. exact K3. }
      destruct (IH2 (id :: P) S1' h1' (or_introl U2) I1' E') as (S2 & h2' & T2 & St2 & R2 & _).
      assert (Sn : S2 n) by (apply (s_incl _ _ _ _ _ _ St2); right; reflexivity).
      pose proof (step_trans _ _ _ _ _ _ _ _ _ St' St2) as St12. pose proof (s_inv _ _ _ _ _ _ St12) as I2.
      apply (conclude P S h h' S2 h2 (write h2' n None)); [exact Logic.I| | |exact (R2 U2)].
      * change (write h2' n None) with (release true (RAlloc LStackStatic a) (VPtr n) h2').
        eapply ev_let_cons; eauto.
      * split; [split|apply (s_len _ _ _ _ _ _ St12)|apply (s_incl _ _ _ _ _ _ St12)|apply (s_new _ _ _ _ _ _ St12)|].
        -- split; [rewrite write_length; apply (i_agree _ _ _ I2)|]. intros b Nb.
           rewrite write_other by (intros ->; contradiction). apply (i_agree _ _ _ I2), Nb.
        -- apply (i_heap _ _ _ I2).
        -- apply (i_bound _ _ _ I2).
        -- intros b Sb Lb. destruct (s_live _ _ _ _ _ _ St12 b Sb Lb) as [Eb Wb]. split; [|exact Wb].
           rewrite write_other; [exact Eb|]. intros ->. apply (i_bound _ _ _ I) in Sb. lia.
    + pose proof (s_inv _ _ _ _ _ _ St) as I1.
      assert (E' : env_inv (minus P [id]) S1 h1 h1' ((id, v) :: e)).
      { apply (env_inv_bind P S1 h1 h1' e [(id, v)]); [eapply step_env; eauto|].
        constructor; [exact (R U1)|constructor]. }
      destruct (IH2 (minus P [id]) S1 h1' (or_introl U2) I1 E') as (S2 & h2' & T2 & St2 & R2 & _).
      apply (conclude P S h h' S2 h2 h2'); [exact Logic.I| |eapply step_trans; eauto|exact (R2 U2)].
      assert (Rel : release true init v h2' = h2').
      { destruct init as [| | | | | | | | | | |l a| | | | | | | | | | | | | | |]; try reflexivity.
        destruct l; try discriminate Pr; reflexivity. }
      rewrite <- Rel. eapply ev_let_cons; eauto.
  - intros h e id t init vars x h1 r _ IH A P S h' U I E. apply nonvar in U; [|reflexivity].
    cbn in U. apply andb_true_iff in U. destruct U as [U1 U2].
    destruct (IH P S h' (or_introl U1) I E) as (S1 & h1' & T & St & R & _).
    apply (conclude P S h h' S1 h1 h1'); [exact Logic.I|eapply ev_let_stop; eauto|exact St|exact (R U1)].
  - (* continuations *)
    intros h e x h1 r _ IH P S h' U I E. apply nonvar in U; [|reflexivity]. cbn in U.
    destruct (IH P S h' (or_introl U) I E) as (S1 & h1' & T & St & R & _).
    apply (conclude P S h h' S1 h1 h1'); [exact Logic.I|constructor; exact T|exact St|exact (R U)].
  - intros h e id params body conts x h1 vs h2 r _ IH1 L _ IH2 P S h' U I E. apply nonvar in U; [|reflexivity].
    cbn in U. rewrite <- andb_assoc in U. apply andb_true_iff in U. destruct U as [U1 U2].
    destruct (IH1 P S h' (or_introl U2) I E) as (S1 & h1' & T & St & R & _).
    pose proof (s_inv _ _ _ _ _ _ St) as I1. specialize (R U2). cbn in R.
    destruct (combine_fst (map fst params) vs ltac:(rewrite map_length; exact L)) as [C1 C2].
    assert (E' : env_inv (minus P (map fst params)) S1 h1 h1' (bind_all (map fst params) vs e)).
    { unfold bind_all. rewrite <- C1 at 1. apply env_inv_bind; [eapply step_env; eauto|rewrite C2; exact R]. }
    destruct (IH2 _ S1 h1' (or_introl U1) I1 E') as (S2 & h2' & T2 & St2 & R2 & _).
    apply (conclude P S h h' S2 h2 h2');
      [exact Logic.I|eapply ev_cont_jump; eauto|eapply step_trans; eauto|exact (R2 U1)].
  - intros h e id params body conts x h1 r _ IH1 N P S h' U I E. apply nonvar in U; [|reflexivity].
    cbn in U. rewrite <- andb_assoc in U. apply andb_true_iff in U. destruct U as [U1 U2].
    destruct (IH1 P S h' (or_introl U2) I E) as (S1 & h1' & T & St & R & _).
    apply (conclude P S h h' S1 h1 h1'); [exact Logic.I|eapply ev_cont_other; eauto|exact St|exact (R U2)].
  - (* lists *)
    intros h e P S h' _ I E. exists S, h'. split; [constructor|]. split; [apply step_refl; exact I|constructor].
  - intros h e x xs h1 v h2 vs _ IH1 _ IH2 P S h' U I E. inversion U as [|? ? Ux Us]; subst.
    destruct (IH1 P S h' Ux I E) as (S1 & h1' & T & St & R & V & _).
    destruct (IH2 P S1 h1' Us (s_inv _ _ _ _ _ _ St) (step_env _ _ _ _ _ _ _ _ St E)) as (S2 & h2' & T2 & St2 & V2).
    exists S2, h2'. split; [econstructor; eauto|]. split; [eapply step_trans; eauto|].
    constructor; [|exact V2]. split.
    + intro Sx. eapply step_val; [exact St2|exact (R Sx)].
    + intros id t Ex. destruct (V id t Ex) as (w & Ew & Lw). injection Ew as ->. exact Lw.
  - intros h e x xs h1 r _ IH A P S h' U I E. inversion U as [|? ? Ux Us]; subst.
    pose proof (usable_abrupt P x h e h1 r S h' Ux A (IH P S h' Ux I E)) as Sx.
    destruct (IH P S h' Ux I E) as (S1 & h1' & T & St & R & _).
    exists S1, h1'. split; [constructor; assumption|]. split; [exact St|]. split; [exact A|exact (R Sx)].
  - intros h e x xs h1 v h2 r _ IH1 _ IH2 P S h' U I E. inversion U as [|? ? Ux Us]; subst.
    destruct (IH1 P S h' Ux I E) as (S1 & h1' & T & St & _).
    destruct (IH2 P S1 h1' Us (s_inv _ _ _ _ _ _ St) (step_env _ _ _ _ _ _ _ _ St E)) as (S2 & h2' & T2 & St2 & V2).
    exists S2, h2'. split; [eapply evs_stop_later; eauto|]. split; [eapply step_trans; eauto|exact V2].
Qed.
End Sim.
