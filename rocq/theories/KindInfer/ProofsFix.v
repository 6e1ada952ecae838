From Verif.Base Require Import Base BaseFacts Vec VecFacts.
From Verif.Kind Require Import Model Spec Proofs ProofsUnify ProofsApi.
From Verif.KindInfer Require Import Model Spec Proofs ProofsStep.

(** * Terms without names *)
Lemma fill_fill d t : fill d d = d -> fill d (fill d t) = fill d t.
Proof.
  intros Hd. induction t as [n| | | | | |args ret IHa IHr] using gkind_ind'; cbn [fill]; auto. f_equal; [|exact IHr].
  rewrite map_map. apply map_ext_in. intros a Ha. rewrite Forall_forall in IHa. apply IHa, Ha.
Qed.

Lemma interp_fill d s k : interp (fun i => fill d (s i)) k = fill d (interp s k).
Proof. destruct k as [v| | | | | |args ret]; cbn; try reflexivity. rewrite map_map. reflexivity. Qed.

Lemma contains_error_fun args ret : contains_error (ast_fun args ret) = existsb contains_error args || contains_error ret.
Proof. destruct args; reflexivity. Qed.

Lemma first_class_fun args ret : is_first_class (ast_fun args ret) = forallb is_first_class args && is_first_class ret.
Proof. destruct args; reflexivity. Qed.

Lemma filled_no_error t : contains_error (ast_of (fill GType t)) = false.
Proof.
  induction t as [n| | | | | |args ret IHa IHr] using gkind_ind'; cbn [fill ast_of]; try reflexivity.
  rewrite contains_error_fun, IHr, orb_false_r. rewrite map_map. induction IHa as [|a args Ha Has IH]; [reflexivity|]. cbn. rewrite Ha. exact IH.
Qed.

Lemma first_class_instance s t : is_first_class (ast_of (subst s t)) = true -> is_first_class (ast_of (fill GType t)) = true.
Proof.
  induction t as [n| | | | | |args ret IHa IHr] using gkind_ind'; cbn [subst fill ast_of]; try reflexivity; try discriminate.
  rewrite !first_class_fun, !andb_true_iff. intros (H1 & H2). split; [|apply IHr, H2]. rewrite !map_map in *.
  induction IHa as [|a args Ha Has IH]; [reflexivity|]. cbn in *. rewrite andb_true_iff in *. destruct H1 as (H0 & H1). auto.
Qed.

(** * Constructs with a kind *)
Definition covers (st : state) (c : nat) : Prop := exists k, assoc c (u_kinds st) = Some k.

Lemma kind_of_covers mods st c k st' : kind_of mods st c = Ret (k, st') -> assoc c (u_kinds st') = Some k /\ forall d, covers st d -> covers st' d.
Proof.
  unfold kind_of. destruct (assoc c (u_kinds st)) as [k0|] eqn:E; [intros [= <- <-]; auto|].
  destruct (if is_local mods c then Ret (new_var (pool st)) else _) as [(k2, p2)| |]; try discriminate. cbn. intros [= <- <-]. cbn. rewrite Nat.eqb_refl.
  split; [reflexivity|]. intros d (k' & Hk). unfold covers. cbn. destruct (Nat.eqb d c); eauto.
Qed.

Lemma unify_kinds_covers n st a b st' : unify_kinds n st a b = Ret (inr st') -> u_kinds st' = u_kinds st.
Proof.
  unfold unify_kinds. destruct (unify n (pool st) a b) as [(p, r)| |]; try discriminate. cbn. destruct r; [intros [= <-]; reflexivity|].
  destruct (export n p a) as [(x, p1)| |]; try discriminate. cbn. destruct (export n p1 b) as [(y, p2)| |]; discriminate.
Qed.

Lemma covers_eq st st' c : u_kinds st' = u_kinds st -> covers st c -> covers st' c.
Proof. intros E (k & H). exists k. congruence. Qed.

Lemma setup_params_covers mods n tps : forall st ks st', setup_params mods n st tps = Ret (inr (ks, st')) ->
  (forall c, In c (map tp tps) -> covers st' c) /\ forall d, covers st d -> covers st' d.
Proof.
  induction tps as [|t tps IH]; intros st ks st'; cbn [setup_params]; [intros [= <- <-]; split; [intros c []|auto]|].
  destruct (kind_of mods st (tp t)) as [(k, st1)| |] eqn:E; try discriminate. cbn [bind]. destruct (kind_of_covers _ _ _ _ _ E) as (H1 & H2).
  destruct (match ann t with Some _ => _ | None => _ end) as [[e|st2]| |] eqn:E2; cbn [try_ bind]; try discriminate.
  assert (E3 : u_kinds st2 = u_kinds st1).
  { destruct (ann t) as [a|]; [|congruence]. destruct (import (pool st1) a) as [(ka, p)| |]; try discriminate. cbn [bind] in E2. apply unify_kinds_covers in E2. exact E2. }
  destruct (setup_params mods n st2 tps) as [[e|(ks1, st3)]| |] eqn:E4; cbn [try_ bind]; try discriminate. intros [= <- <-].
  destruct (IH _ _ _ E4) as (I1 & I2). split.
  - intros c [<-|Hc]; [|auto]. apply I2. exists k. congruence.
  - intros d Hd. apply I2. eapply covers_eq; [exact E3|auto].
Qed.

Lemma setup_generic_covers mods n st g st' : setup_generic mods n st g = Ret (inr st') ->
  (forall c, In c (construct g :: map tp (generic_types g)) -> covers st' c) /\ forall d, covers st d -> covers st' d.
Proof.
  unfold setup_generic. destruct (kind_of mods st (construct g)) as [(ka, st1)| |] eqn:E; try discriminate. cbn [bind]. destruct (kind_of_covers _ _ _ _ _ E) as (H1 & H2).
  destruct (is_monomorphic g) eqn:Em.
  - cbn [try_ bind]. intros H. apply unify_kinds_covers in H. assert (generic_types g = []) as E1 by (unfold is_monomorphic in Em; destruct (generic_types g); [reflexivity|discriminate]).
    rewrite E1. split; [intros c [<-|[]]; exists ka; congruence|]. intros d Hd. eapply covers_eq; eauto.
  - destruct (setup_params mods n st1 (generic_types g)) as [[e|(ks, st2)]| |] eqn:E2; cbn [try_ bind]; try discriminate.
    destruct (new_fun _ _ _) as (k, p). cbn [try_ bind]. intros H. apply unify_kinds_covers in H. cbn in H. destruct (setup_params_covers _ _ _ _ _ _ E2) as (I1 & I2). split.
    + intros c Hc. eapply covers_eq; [exact H|]. destruct Hc as [<-|Hc]; [apply I2; exists ka; exact H1|apply I1, Hc].
    + intros d Hd. eapply covers_eq; [exact H|]. apply I2, H2, Hd.
Qed.

Lemma setups_covers mods n gs : forall st st', each (setup_generic mods n) st gs = Ret (inr st') ->
  (forall c, In c (flat_map (fun x => construct x :: map tp (generic_types x)) gs) -> covers st' c) /\ forall d, covers st d -> covers st' d.
Proof.
  induction gs as [|g gs IH]; intros st st'; cbn [each]; [intros [= <-]; split; [intros c []|auto]|].
  destruct (setup_generic mods n st g) as [[e|st1]| |] eqn:E; cbn [try_ bind]; try discriminate. intros H.
  destruct (setup_generic_covers _ _ _ _ _ E) as (H1 & H2). destruct (IH _ _ H) as (I1 & I2). split; [|auto].
  intros c Hc. cbn [flat_map] in Hc. apply in_app_iff in Hc. destruct Hc as [Hc|Hc]; [apply I2, H1, Hc|apply I1, Hc].
Qed.

Section Fix.
Context (mods : modules).
Hypothesis Hknown : known mods.
Notation okst := (okst mods).

(** The state before kinds are fixed, and its solutions. *)
Context (st0 : state) (s0 : var -> gkind).
Hypothesis Hst0 : okst st0.
Hypothesis Hs0 : canonical (pool st0) s0.

Definition sstar : var -> gkind := fun i => fill GType (s0 i).
Definition kst (c : nat) : kind := match assoc c (u_kinds st0) with Some k => k | None => KType end.
Definition general (c : nat) : gkind := interp s0 (kst c).
Definition final (c : nat) : gkind := fill GType (general c).

Lemma final_interp c : interp sstar (kst c) = final c.
Proof. apply interp_fill. Qed.

Lemma sstar_solution : solution (pool st0) sstar.
Proof. intros i k Hk. unfold sstar at 1. rewrite (proj1 Hs0 i k Hk). symmetry. apply interp_fill. Qed.

Definition fixing (st : state) (F I : list nat) : Prop :=
  okst st /\ u_kinds st = u_kinds st0 /\ solution (pool st) sstar /\
  (forall s, solution (pool st) s -> solution (pool st0) s) /\
  (forall i, unresolved (pool st) i -> unresolved (pool st0) i) /\
  (forall s, solution (pool st) s -> forall c, In c F -> interp s (kst c) = final c) /\
  (forall s, solution (pool st0) s -> (forall c, In c F -> interp s (kst c) = final c) -> solution (pool st) s) /\
  inferred st = map (fun c => (c, ast_of (final c))) I ++ inferred st0.

Lemma fixing_start : fixing st0 [] [].
Proof.
  split; [exact Hst0|]. split; [reflexivity|]. split; [apply sstar_solution|]. split; [auto|]. split; [auto|]. split; [intros s _ c []|]. split; [auto|reflexivity].
Qed.

Lemma kind_of_covered st c : u_kinds st = u_kinds st0 -> covers st0 c -> kind_of mods st c = Ret (kst c, st).
Proof. intros E (k & Hk). unfold kind_of, kst. rewrite E, Hk. reflexivity. Qed.

Lemma kst_bound st c : okst st -> u_kinds st = u_kinds st0 -> covers st0 c -> kbound (len (pool st)) (kst c).
Proof. intros (_ & _ & H & _) E (k & Hk). unfold kst. rewrite Hk. apply (H c). congruence. Qed.

Lemma fix_kind_ok st F I c b : fixing st F I -> covers st0 c -> (forall s, solution (pool st) s -> interp s (kst c) = final c) ->
  exists r, conv (fun n => fix_kind_of mods n st c b) r /\
    match r with
    | inl _ => b = true /\ is_first_class (ast_of (final c)) = false
    | inr st' => fixing st' (c :: F) (c :: I) /\ (b = true -> is_first_class (ast_of (final c)) = true)
    end.
Proof.
  intros (A1 & A2 & A3 & A4 & A5 & A6 & A7 & A8) Hc Hd. unfold fix_kind_of. rewrite (kind_of_covered st c A2 Hc). cbn [bind].
  pose proof A1 as (Hwf & Hb & H3 & H4). destruct (canonical_exists (pool st) Hwf) as (s1 & Hs1).
  destruct (export_exact (pool st) s1 (kst c) Hwf Hs1 (kst_bound st c A1 A2 Hc)) as (p & E & Hsm). rewrite (Hd s1 (proj1 Hs1)) in E.
  destruct (b && negb (is_first_class (ast_of (final c)))) eqn:Eb.
  - exists (inl (UnsupportedKind (ast_of (final c)))). split.
    + eapply conv_bind'; [exact E|]. cbn beta iota. unfold final in *. rewrite filled_no_error. rewrite Eb. apply conv_ret.
    + apply andb_true_iff in Eb. destruct Eb as (-> & Eb). rewrite negb_true_iff in Eb. auto.
  - eexists (inr _). split.
    + eapply conv_bind'; [exact E|]. cbn beta iota. unfold final in *. rewrite filled_no_error. rewrite Eb. apply conv_ret.
    + pose proof Hsm as (Hl & Hwf' & Hsol & Hun). split.
      * split.
        { split; [exact Hwf'|]. split; [eapply extends_based; [exact Hb|apply same_extends, Hsm]|]. cbn. split.
          - intros d k Hk. rewrite Hl. eapply H3; eauto.
          - intros d k a Hk Hlc Ha s Hs. eapply H4; eauto. apply Hsol, Hs. }
        cbn. split; [exact A2|]. split; [apply Hsol, A3|]. split; [intros s Hs; apply A4, Hsol, Hs|]. split; [intros i Hi; apply A5, Hun, Hi|]. split; [|split].
        -- intros s Hs d [<-|Hd']; [apply Hd, Hsol, Hs|apply A6; [apply Hsol, Hs|exact Hd']].
        -- intros s Hs HF. apply Hsol. apply A7; auto.
        -- rewrite A8. reflexivity.
      * intros ->. cbn in Eb. apply negb_false_iff in Eb. exact Eb.
Qed.

Lemma default_ok_fix st F I c : fixing st F I -> covers st0 c -> exists p, conv (fun n => default_vars n (pool st) (kst c) KType) (p, Ok) /\
  okst (with_pool st p) /\ solution p sstar /\ (forall i, unresolved p i -> unresolved (pool st) i) /\
  (forall s, solution p s <-> solution (pool st) s /\ interp s (kst c) = final c).
Proof.
  intros (A1 & A2 & A3 & A4 & A5 & A6 & A7 & A8) Hc. pose proof A1 as (Hwf & Hb & H3 & H4). destruct (canonical_exists (pool st) Hwf) as (s1 & Hs1).
  pose proof (kst_bound st c A1 A2 Hc) as Bk.
  destruct (default_exact (pool st) (kst c) KType s1 Hwf Bk) as (p & E & He & Hsol); [left; reflexivity|exact Hs1|]. cbn [interp] in Hsol.
  assert (Ef : fill GType (interp s1 (kst c)) = final c).
  { rewrite <- final_interp, (canonical_subst_k (pool st) s1 sstar (kst c) Hwf Hs1 A3 Bk). symmetry. apply subst_fill.
    intros v Hv. assert (Hu : unresolved (pool st) v) by (eapply canonical_occ_k; eauto). apply A5 in Hu. unfold sstar. rewrite (proj2 Hs0 v Hu). reflexivity. }
  rewrite Ef in Hsol. exists p. split; [exact E|]. split; [|split; [apply Hsol; split; [exact A3|apply final_interp]|split; [apply He|exact Hsol]]].
  split; [apply He|]. split; [eapply extends_based; eauto|]. cbn. split.
  - intros d k Hk. eapply extends_kbound; eauto.
  - intros d k a Hk Hlc Ha s Hs. eapply H4; eauto. apply Hsol, Hs.
Qed.

Lemma fixing_same st F F' I : (forall c, In c F <-> In c F') -> fixing st F I -> fixing st F' I.
Proof.
  intros H (A1 & A2 & A3 & A4 & A5 & A6 & A7 & A8). split; [exact A1|]. split; [exact A2|]. split; [exact A3|]. split; [exact A4|]. split; [exact A5|]. split; [|split; [|exact A8]].
  - intros s Hs c Hc. apply A6; [exact Hs|apply H, Hc].
  - intros s Hs Hall. apply A7; [exact Hs|]. intros c Hc. apply Hall, H, Hc.
Qed.

Lemma fix_params_ok tps : (forall t, In t tps -> covers st0 (tp t)) -> forall st F, fixing st F F ->
  exists r, conv (fun n => fix_params mods n st tps) r /\
    match r with
    | inl _ => exists t, In t tps /\ is_first_class (ast_of (final (tp t))) = false
    | inr st' => fixing st' (rev (map tp tps) ++ F) (rev (map tp tps) ++ F) /\ Forall (fun t => is_first_class (ast_of (final (tp t))) = true) tps
    end.
Proof.
  induction tps as [|t tps IH]; intros Hcov st F HF; cbn [fix_params].
  - exists (inr st). split; [apply conv_ret|]. split; [exact HF|constructor].
  - pose proof (Hcov t (or_introl eq_refl)) as Ht. rewrite (kind_of_covered st (tp t) (proj1 (proj2 HF)) Ht). cbn [bind].
    destruct (default_ok_fix st F F (tp t) HF Ht) as (p & Ed & D1 & D2 & D3 & D4).
    destruct (fix_kind_ok (with_pool st p) (tp t :: F) F (tp t) true) as (r & Hc & Hr).
    { destruct HF as (A1 & A2 & A3 & A4 & A5 & A6 & A7 & A8). split; [exact D1|]. split; [exact A2|]. split; [exact D2|]. cbn.
      split; [intros s Hs; apply A4, D4, Hs|]. split; [auto|]. split; [|split].
      - intros s Hs c [<-|Hc]; [apply D4, Hs|apply A6; [apply D4, Hs|exact Hc]].
      - intros s Hs Hall. apply D4. split; [|apply Hall; left; reflexivity]. apply A7; auto.
      - exact A8. }
    { exact Ht. }
    { cbn. intros s Hs. apply D4, Hs. }
    destruct r as [e|st1].
    + exists (inl e). split; [eapply conv_bind'; [exact Ed|]; cbn beta iota; eapply conv_try_err; exact Hc|]. exists t. split; [left; reflexivity|apply Hr].
    + destruct Hr as (H1 & H2). destruct (IH (fun t' Ht' => Hcov t' (or_intror Ht')) st1 (tp t :: F)) as (r & Hc2 & Hr).
      { eapply fixing_same; [|exact H1]. cbn. tauto. }
      exists r. split; [eapply conv_bind'; [exact Ed|]; cbn beta iota; eapply conv_try_ok; [exact Hc|exact Hc2]|].
      destruct r as [e|st2].
      * destruct Hr as (t' & Ht' & E'). exists t'. split; [right; exact Ht'|exact E'].
      * destruct Hr as (H3 & H4). split; [|constructor; auto]. cbn [map rev]. rewrite <- app_assoc. exact H3.
Qed.

Lemma fix_generic_ok g : covers st0 (construct g) -> (forall t, In t (generic_types g) -> covers st0 (tp t)) ->
  (forall s, solution (pool st0) s -> (forall t, In t (generic_types g) -> interp s (kst (tp t)) = final (tp t)) -> interp s (kst (construct g)) = final (construct g)) ->
  forall st F, fixing st F F ->
  exists r, conv (fun n => fix_generic mods n st g) r /\
    match r with
    | inl _ => exists t, In t (generic_types g) /\ is_first_class (ast_of (final (tp t))) = false
    | inr st' => fixing st' (construct g :: rev (map tp (generic_types g)) ++ F) (construct g :: rev (map tp (generic_types g)) ++ F) /\
        Forall (fun t => is_first_class (ast_of (final (tp t))) = true) (generic_types g)
    end.
Proof.
  intros Hcon Htps Hdet st F HF. unfold fix_generic. destruct (fix_params_ok (generic_types g) Htps st F HF) as (r & Hc & Hr). destruct r as [e|st1].
  - exists (inl e). split; [eapply conv_try_err; exact Hc|exact Hr].
  - destruct Hr as (H1 & H2). destruct (fix_kind_ok st1 _ _ (construct g) false H1 Hcon) as (r & Hc2 & Hr).
    { intros s Hs. destruct H1 as (A1 & A2 & A3 & A4 & A5 & A6 & A7 & A8). apply Hdet; [apply A4, Hs|]. intros t Ht. apply A6; [exact Hs|].
      apply in_app_iff. left. rewrite <- in_rev. apply in_map, Ht. }
    exists r. split; [eapply conv_try_ok; [exact Hc|exact Hc2]|]. destruct r as [e|st2]; [destruct Hr; discriminate|]. split; [apply Hr|exact H2].
Qed.

Definition fixed_ids (gs : list generic) (F : list nat) : list nat :=
  fold_left (fun F g => construct g :: rev (map tp (generic_types g)) ++ F) gs F.

Lemma fixed_ids_in gs : forall F c, In c (fixed_ids gs F) <-> In c (flat_map (fun x => construct x :: map tp (generic_types x)) gs) \/ In c F.
Proof.
  induction gs as [|g gs IH]; intros F c; cbn [fixed_ids fold_left flat_map]; [cbn; tauto|]. unfold fixed_ids in IH. rewrite IH.
  cbn. rewrite !in_app_iff, <- in_rev. tauto.
Qed.

Lemma fix_all_ok gs : (forall c, In c (flat_map (fun x => construct x :: map tp (generic_types x)) gs) -> covers st0 c) ->
  (forall g, In g gs -> forall s, solution (pool st0) s -> (forall t, In t (generic_types g) -> interp s (kst (tp t)) = final (tp t)) -> interp s (kst (construct g)) = final (construct g)) ->
  forall st F, fixing st F F ->
  exists r, conv (fun n => each (fix_generic mods n) st gs) r /\
    match r with
    | inl _ => exists g t, In g gs /\ In t (generic_types g) /\ is_first_class (ast_of (final (tp t))) = false
    | inr st' => fixing st' (fixed_ids gs F) (fixed_ids gs F) /\
        Forall (fun g => Forall (fun t => is_first_class (ast_of (final (tp t))) = true) (generic_types g)) gs
    end.
Proof.
  induction gs as [|g gs IH]; intros Hcov Hdet st F HF; cbn [each].
  - exists (inr st). split; [apply conv_ret|]. split; [exact HF|constructor].
  - destruct (fix_generic_ok g) with (st := st) (F := F) as (r & Hc & Hr); [apply Hcov; left; reflexivity| |apply Hdet; left; reflexivity|exact HF|].
    { intros t Ht. apply Hcov. cbn. right. apply in_app_iff. left. apply in_map, Ht. }
    destruct r as [e|st1].
    + exists (inl e). split; [eapply conv_try_err; exact Hc|]. destruct Hr as (t & Ht & E). exists g, t. split; [left; reflexivity|auto].
    + destruct Hr as (H1 & H2). destruct (IH) with (st := st1) (F := construct g :: rev (map tp (generic_types g)) ++ F) as (r & Hc2 & Hr); [| |exact H1|].
      { intros c Hc'. apply Hcov. cbn [flat_map]. apply in_app_iff. right. exact Hc'. }
      { intros g' Hg'. apply Hdet. right. exact Hg'. }
      exists r. split; [eapply conv_try_ok; [exact Hc|exact Hc2]|]. destruct r as [e|st2].
      * destruct Hr as (g' & t & Hg' & Ht & E). exists g', t. split; [right; exact Hg'|auto].
      * destruct Hr as (H3 & H4). split; [exact H3|constructor; auto].
Qed.
End Fix.
