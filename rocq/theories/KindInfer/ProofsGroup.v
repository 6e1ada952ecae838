From Verif.Base Require Import Base BaseFacts Vec VecFacts.
From Verif.Kind Require Import Model Spec Proofs ProofsUnify ProofsApi.
From Verif.KindInfer Require Import Model Spec Proofs ProofsStep ProofsFix.

Definition gfirst (K : env) (g : group) : Prop :=
  Forall (fun x => Forall (fun t => is_first_class (ast_of (K (tp t))) = true) (generic_types x)) (generics g).

(** * What fits depends on the constructs mentioned only *)
Lemma gh_ext K K' t : forall k, (forall c, In c (type_mentions t) -> K c = K' c) -> gh K t k -> gh K' t k.
Proof.
  induction t as [c|c|f args IHf IHargs] using ty_ind'; intros k H Hk.
  - inversion Hk; subst. rewrite (H c (or_introl eq_refl)). constructor.
  - inversion Hk; subst. rewrite (H c (or_introl eq_refl)). constructor.
  - inversion Hk as [| |f' args' ks r Hf Hargs]; subst. cbn [type_mentions] in H.
    econstructor; [apply IHf; [|exact Hf]; intros c Hc; apply H, in_app_iff; left; exact Hc|].
    assert (H' : forall c, In c (flat_map type_mentions args) -> K c = K' c) by (intros c Hc; apply H, in_app_iff; right; exact Hc).
    clear -IHargs Hargs H'. revert H'. induction Hargs as [|a k args ks Ha Has IH]; intros H'; constructor.
    + apply (Forall_inv IHargs); [|exact Ha]. intros c Hc. apply H'. cbn. apply in_app_iff. left. exact Hc.
    + apply IH; [apply (Forall_inv_tail IHargs)|]. intros c Hc. apply H'. cbn. apply in_app_iff. right. exact Hc.
Qed.

Lemma ghs_ext K K' ts ks : (forall c, In c (flat_map type_mentions ts) -> K c = K' c) -> Forall2 (gh K) ts ks -> Forall2 (gh K') ts ks.
Proof.
  intros H Hk. induction Hk as [|t k ts ks Ht Hts IH]; constructor.
  - eapply gh_ext; [|exact Ht]. intros c Hc. apply H. cbn. apply in_app_iff. left. exact Hc.
  - apply IH. intros c Hc. apply H. cbn. apply in_app_iff. right. exact Hc.
Qed.

Lemma gcheck_ext K K' x : (forall c, In c (check_mentions x) -> K c = K' c) -> gcheck K x -> gcheck K' x.
Proof.
  destruct x as [t|c]; cbn [gcheck check_mentions]; intros H Hx.
  - eapply gh_ext; eauto.
  - destruct Hx as (ks & H1 & H2). exists ks. split; [|rewrite <- H2; symmetry; apply H; left; reflexivity].
    eapply ghs_ext; [|exact H1]. intros d Hd. apply H. right. exact Hd.
Qed.

Lemma ggeneric_ext K K' x : (forall c, In c (construct x :: map tp (generic_types x)) -> K c = K' c) -> ggeneric K x -> ggeneric K' x.
Proof.
  intros H (H1 & H2). assert (Ht : forall t, In t (generic_types x) -> K (tp t) = K' (tp t)) by (intros t Ht; apply H; right; apply in_map, Ht). split.
  - rewrite Forall_forall in *. intros t Hin a Ha. rewrite <- (Ht t Hin). exact (H1 t Hin a Ha).
  - rewrite <- (H (construct x) (or_introl eq_refl)), H2. f_equal. f_equal. apply map_ext_in. exact Ht.
Qed.

Lemma ggroup_ext K K' g : (forall c, In c (declared g) \/ In c (mentions g) -> K c = K' c) -> ggroup K g -> ggroup K' g.
Proof.
  intros H (H1 & H2). rewrite Forall_forall in *. split; apply Forall_forall; intros x Hx.
  - eapply ggeneric_ext; [|apply H1, Hx]. intros c Hc. apply H. left. apply in_flat_map. eauto.
  - eapply gcheck_ext; [|apply H2, Hx]. intros c Hc. apply H. right. apply in_flat_map. eauto.
Qed.

Section Infer.
Context (mods : modules).
Hypothesis Hknown : known mods.
Notation okst := (okst mods).
Notation ext := (ext mods).

Definition fits (st : state) (K : env) : Prop := ext K /\ exists s, solution (pool st) s /\ agrees st s K.

Definition kinds_of (st : state) (s : var -> gkind) : env := fun c =>
  match assoc c (u_kinds st) with
  | Some k => interp s k
  | None => if is_local mods c then GType else match recorded mods c with Some k => term_of k | None => GType end
  end.

Lemma kinds_of_fits st s : okst st -> solution (pool st) s -> ext (kinds_of st s) /\ agrees st s (kinds_of st s).
Proof.
  intros (_ & _ & _ & H4) Hs. split.
  - intros c k Hl Hk. unfold kinds_of. destruct (assoc c (u_kinds st)) as [k'|] eqn:E; [eapply H4; eauto|]. rewrite Hl, Hk. reflexivity.
  - intros c k Hk. unfold kinds_of. rewrite Hk. reflexivity.
Qed.

Definition group_result (st : state) (g : group) (r : kerror + state) : Prop :=
  match r with
  | inl _ => forall K, fits st K -> ggroup K g -> ~ gfirst K g
  | inr st' => exists (F : list nat) (G : env),
      (forall c, In c F <-> In c (declared g)) /\ okst st' /\
      (forall c k, assoc c (u_kinds st) = Some k -> assoc c (u_kinds st') = Some k) /\
      inferred st' = map (fun c => (c, ast_of (fill GType (G c)))) F ++ inferred st /\
      (forall s, solution (pool st') s -> solution (pool st) s) /\
      (forall c, In c F -> exists k, assoc c (u_kinds st') = Some k /\ forall s, solution (pool st') s -> interp s k = fill GType (G c)) /\
      (forall K, fits st' K -> ggroup K g /\ gfirst K g) /\
      (forall K, fits st K -> ggroup K g -> (forall c, In c F -> K c = fill GType (G c)) -> fits st' K) /\
      (exists KG, fits st KG /\ ggroup KG g /\ forall c, In c F -> KG c = G c) /\
      (forall K, fits st K -> ggroup K g -> exists s, forall c, In c F -> K c = subst s (G c))
  end.

Lemma group_ok st g : okst st -> annotations_proper g -> exists r, conv (fun n => infer_group mods n st g) r /\ group_result st g r.
Proof.
  intros Hst Hann. unfold infer_group.
  destruct (each_done mods (fun n => setup_generic mods n) ggeneric (generics g)) with (st := st) as (r & Hc1 & Hr1); [|exact Hst|].
  { intros x st1 Hx H1. apply setup_generic_done; auto. unfold annotations_proper in Hann. rewrite Forall_forall in Hann. apply Hann, Hx. }
  destruct r as [e|st1].
  { exists (inl e). split; [eapply conv_try_err; exact Hc1|]. intros K (He & s & Hs & Ha) (HK & _) _. exact (Hr1 s K tt He Hs Ha HK). }
  destruct (each_done mods (fun n => infer_check mods n) gcheck (checks g)) with (st := st1) as (r & Hc2 & Hr2); [|apply (step_okst _ _ _ _ _ Hr1)|].
  { intros x st2 Hx H2. apply infer_check_done; auto. }
  destruct r as [e|st2].
  { exists (inl e). split; [eapply conv_try_ok; [exact Hc1|]; eapply conv_try_err; exact Hc2|]. intros K (He & s & Hs & Ha) (HK1 & HK2) _.
    exact (step_stuck mods _ _ _ _ _ Hr1 Hr2 s K (tt, tt) He Hs Ha (conj HK1 HK2)). }
  pose proof (step_trans mods _ _ _ _ _ _ _ Hr1 Hr2) as (A1 & A2 & A3 & A4 & A5 & A6 & A7 & A8). cbn beta in A5, A7, A8.
  assert (Hcov : forall c, In c (declared g) -> covers st2 c).
  { intros c Hc. destruct Hc1 as (n & Hn). destruct (setups_covers _ _ _ _ _ (Hn n (Nat.le_refl n))) as (H & _). destruct (H c Hc) as (k & Hk).
    exists k. apply Hr2, Hk. }
  assert (Hgr : forall s K, ext K -> solution (pool st2) s -> agrees st2 s K -> ggroup K g) by (intros s K He Hs Ha; exact (A7 s K He Hs Ha)).
  pose proof A1 as (Hwf & _ & Hbd & _). destruct (canonical_exists (pool st2) Hwf) as (s0 & Hs0).
  set (G := general st2 s0).
  assert (Hk : forall s c, covers st2 c -> kinds_of st2 s c = interp s (kst st2 c)).
  { intros s c (k & Hk). unfold kinds_of, kst. rewrite Hk. reflexivity. }
  assert (Hag : forall s K c, agrees st2 s K -> covers st2 c -> interp s (kst st2 c) = K c).
  { intros s K c Ha (k & Hk'). unfold kst. rewrite Hk'. apply Ha, Hk'. }
  destruct (fix_all_ok mods st2 s0 Hs0 (generics g) Hcov) with (st := st2) (F := @nil nat) as (r & Hc3 & Hr3).
  { intros x Hx s Hs Hp. pose proof (sstar_solution st2 s0 Hs0) as Hstar.
    destruct (kinds_of_fits st2 s A1 Hs) as (He & Ha). destruct (kinds_of_fits st2 _ A1 Hstar) as (He' & Ha').
    pose proof (proj1 (Hgr s _ He Hs Ha)) as HG. pose proof (proj1 (Hgr _ _ He' Hstar Ha')) as HG'. rewrite Forall_forall in HG, HG'.
    destruct (HG x Hx) as (_ & E1). destruct (HG' x Hx) as (_ & E2).
    assert (Hin : forall c, In c (construct x :: map tp (generic_types x)) -> covers st2 c) by (intros c Hc; apply Hcov, in_flat_map; eauto).
    rewrite Hk in E1, E2 by (apply Hin; left; reflexivity). rewrite E1, <- final_interp, E2. do 2 f_equal. apply map_ext_in. intros t Ht.
    rewrite !Hk by (apply Hin; right; apply in_map, Ht). rewrite (Hp t Ht). symmetry. apply final_interp. }
  { apply fixing_start; auto. }
  assert (Hcmp : forall K, fits st K -> ggroup K g -> exists s, solution (pool st2) s /\ agrees st2 s K).
  { intros K (He & s & Hs & Ha) HK. destruct (A8 s K (tt, tt) He Hs Ha HK) as (s' & C1 & C2 & _). eauto. }
  assert (Hprin : forall K, fits st K -> ggroup K g -> exists s, forall c, In c (declared g) -> K c = subst s (G c)).
  { intros K HF HK. destruct (Hcmp K HF HK) as (s & Hs & Ha). exists s. intros c Hc. rewrite <- (Hag s K c Ha (Hcov c Hc)).
    apply (canonical_subst_k (pool st2) s0 s (kst st2 c) Hwf Hs0 Hs). eapply kst_bound; [exact A1|reflexivity|apply Hcov, Hc]. }
  exists (match r with inl e => inl e | inr st3 => inr st3 end). split.
  { eapply conv_try_ok; [exact Hc1|]. eapply conv_try_ok; [exact Hc2|]. destruct r; exact Hc3. }
  destruct r as [e|st3].
  - destruct Hr3 as (x & t & Hx & Ht & E). intros K HF HK Hfc. destruct (Hprin K HF HK) as (s & Hs). unfold gfirst in Hfc. rewrite Forall_forall in Hfc.
    pose proof (Hfc x Hx) as Hfc'. rewrite Forall_forall in Hfc'. pose proof (Hfc' t Ht) as Ef. rewrite Hs in Ef.
    + apply first_class_instance in Ef. unfold final in E. fold G in E. congruence.
    + apply in_flat_map. exists x. split; [exact Hx|]. right. apply in_map, Ht.
  - destruct Hr3 as ((F1 & F2 & F3 & F4 & F5 & F6 & F7 & F8) & Hfc). set (F := fixed_ids (generics g) []) in *.
    assert (HFin : forall c, In c F <-> In c (declared g)) by (intros c; unfold F; rewrite fixed_ids_in; cbn; tauto).
    exists F, G. split; [exact HFin|]. split; [exact F1|]. split; [rewrite F2; exact A3|]. split; [rewrite F8, A4; reflexivity|]. split; [intros s Hs; apply A6, F4, Hs|].
    split; [|split; [|split; [|split]]].
    + intros c Hc. destruct (Hcov c (proj1 (HFin c) Hc)) as (k & Ek). exists k. split; [congruence|]. intros s Hs. pose proof (F6 s Hs c Hc) as E. unfold kst in E. rewrite Ek in E. exact E.
    + intros K (He & s & Hs & Ha). assert (Ha2 : agrees st2 s K) by (intros c k Hk'; apply Ha; congruence). split; [apply (Hgr s K He (F4 s Hs) Ha2)|].
      unfold gfirst. rewrite Forall_forall in *. intros x Hx. pose proof (Hfc x Hx) as Hfx. rewrite Forall_forall in *. intros t Ht.
      assert (Hd : In (tp t) (declared g)) by (apply in_flat_map; exists x; split; [exact Hx|]; right; apply in_map, Ht).
      rewrite <- (Hag s K (tp t) Ha2 (Hcov _ Hd)), (F6 s Hs (tp t) (proj2 (HFin _) Hd)). apply Hfx, Ht.
    + intros K HF HK HE. destruct (Hcmp K HF HK) as (s & Hs & Ha). split; [apply HF|]. exists s. split; [|intros c k Hk'; apply Ha; congruence].
      apply F7; [exact Hs|]. intros c Hc. rewrite (Hag s K c Ha (Hcov c (proj1 (HFin c) Hc))). apply HE, Hc.
    + destruct (kinds_of_fits st2 s0 A1 (proj1 Hs0)) as (He & Ha). exists (kinds_of st2 s0). split; [|split; [apply (Hgr s0 _ He (proj1 Hs0) Ha)|]].
      * split; [exact He|]. exists s0. split; [apply A6, Hs0|]. intros c k Hk'. apply Ha, A3, Hk'.
      * intros c Hc. apply Hk, Hcov, HFin, Hc.
    + intros K HF HK. destruct (Hprin K HF HK) as (s & Hs). exists s. intros c Hc. apply Hs, HFin, Hc.
Qed.
End Infer.
