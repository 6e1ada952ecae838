From Verif.Base Require Import Base BaseFacts VecFacts.
From Verif.Kind Require Import Model Spec Proofs ProofsUnify.

(** * Defaulting *)
Definition atoms := [KType; KConstraint; KSatisfaction; KValue; KMacro].

Lemma atom_kbound n d : In d atoms -> kbound n d.
Proof. intros H j Hj. cbn in H. decompose [or] H; subst; contradiction. Qed.

Lemma atom_interp s s' d : In d atoms -> interp s d = interp s' d.
Proof. intros H. cbn in H. decompose [or] H; subst; reflexivity || contradiction. Qed.

Lemma default_ok d : In d atoms -> forall m p k s, wf p -> solution p s ->
  (forall v, unresolved p v -> s v = interp s d) -> kbound (len p) k -> (size (interp s k) < m)%nat ->
  exists p', conv (fun n => default_vars n p k d) (p', Ok) /\ extends p p' /\
    (forall s', solution p' s' <-> solution p s' /\ interp s' k = interp s k).
Proof.
  intros Hd. induction m as [|m IH]; intros p k s Hwf Hs Hun Hk Hm; [lia|].
  destruct (resolve_ok p k Hwf Hk) as (k1 & p1 & Hr & Hs1 & Hn1 & Hi1).
  pose proof Hs1 as (Hl1 & Hwf1 & Hsol1 & Hun1).
  assert (Hwrap : (exists p', conv (fun n => match k1 with
    | KVar v => unify n p1 (KVar v) d
    | KFun args ret =>
      let* r := for_each (fun pool v => default_vars n pool (KVar v) d) p1 (vars_iter args) in
      match r with
      | (pool, Ok) => default_vars n pool (KVar ret) d
      | (pool, Err e) => Ret (pool, Err e)
      end
    | _ => Ret (p1, Ok)
    end) (p', Ok) /\ extends p1 p' /\ (forall s', solution p' s' <-> solution p1 s' /\ interp s' k1 = interp s k1)) ->
    exists p', conv (fun n => default_vars n p k d) (p', Ok) /\ extends p p' /\
    (forall s', solution p' s' <-> solution p s' /\ interp s' k = interp s k)).
  { intros (p' & Hc & He & Hx). exists p'. split; [|split].
    - eapply conv_step; [intros n; reflexivity|]. eapply (conv_bind (fun n => resolve n p k)); [exact Hr|]. exact Hc.
    - eapply extends_trans; [apply same_extends, Hs1|exact He].
    - intros s'. rewrite Hx, Hsol1, <- (Hi1 s Hs). split; intros (H1 & H2); (split; [exact H1|]);
        rewrite (Hi1 s' H1) in *; exact H2. }
  apply Hwrap. clear Hwrap. apply Hsol1 in Hs.
  assert (Hun' : forall v, unresolved p1 v -> s v = interp s d) by (intros v Hv; apply Hun, Hun1, Hv).
  assert (Hm1 : (size (interp s k1) <= m)%nat) by (rewrite (Hi1 s); [lia|apply Hsol1, Hs]).
  clear p k Hwf Hun Hk Hm Hr Hs1 Hi1 Hl1 Hsol1 Hun1.
  assert (Hatom : (forall s, interp s k1 = interp s k1 -> True) -> (forall s s', interp s k1 = interp s' k1) ->
    exists p', conv (fun n => Ret (p1, @Ok error)) (p', Ok) /\ extends p1 p' /\
    (forall s', solution p' s' <-> solution p1 s' /\ interp s' k1 = interp s k1)).
  { intros _ H. exists p1. split; [apply conv_ret|]. split; [apply same_extends, same_refl, Hwf1|].
    intros s'. split; [|tauto]. intros H'. split; [exact H'|apply H]. }
  destruct k1 as [v| | | | | |args ret]; try (apply Hatom; [intros; exact I|reflexivity]).
  - destruct (unify_ok p1 (KVar v) d Hwf1 (proj1 Hn1) (atom_kbound _ _ Hd)) as (p2 & r & Hc & He & Hx).
    pose proof (Hun' v (proj2 Hn1)) as Hv. destruct r as [|e].
    + exists p2. split; [exact Hc|]. split; [exact He|]. intros s'. cbn [exact_for interp] in *. rewrite Hx, Hv.
      rewrite (atom_interp s' s d Hd). reflexivity.
    + exfalso. apply (Hx s Hs). exact Hv.
  - clear Hatom. assert (Hsz : forall j, kchild (KFun args ret) j -> (size (s j) < m)%nat).
    { intros j Hj. pose proof (interp_child_size s (KFun args ret) j Hj). specialize (H ltac:(discriminate)). lia. }
    assert (Hl : forall l p, incl l (vars_iter args) -> extends p1 p -> solution p s ->
      exists p', conv (fun n => for_each (fun pool v => default_vars n pool (KVar v) d) p l) (p', Ok) /\ extends p p' /\
      (forall s', solution p' s' <-> solution p s' /\ forall j, In j l -> s' j = s j)).
    { induction l as [|j l IHl]; intros p Hincl He Hsp.
      - exists p. split; [apply conv_ret|]. split; [apply same_extends, same_refl; apply He|]. intros s'. split; [|tauto].
        intros H. split; [exact H|]. intros j [].
      - assert (Hj : kchild (KFun args ret) j) by (left; apply Hincl; left; reflexivity).
        destruct (IH p (KVar j) s) as (p2 & Hc2 & He2 & Hx2).
        + apply He.
        + exact Hsp.
        + intros v Hv. apply Hun'. apply He, Hv.
        + apply (extends_kbound p1); [exact He|]. intros x ->. apply (proj1 Hn1), Hj.
        + apply Hsz, Hj.
        + destruct (IHl p2) as (p3 & Hc3 & He3 & Hx3).
          * intros x Hx. apply Hincl. right. exact Hx.
          * eapply extends_trans; eauto.
          * apply Hx2. split; [exact Hsp|reflexivity].
          * exists p3. split; [|split; [eapply extends_trans; eauto|]].
            -- cbn [for_each]. eapply (conv_bind (fun n => default_vars n p (KVar j) d)); [exact Hc2|]. exact Hc3.
            -- intros s'. rewrite Hx3, Hx2. cbn [interp]. split.
               ++ intros ((H1 & H2) & H3). split; [exact H1|]. intros x [<-|Hx]; [exact H2|exact (H3 x Hx)].
               ++ intros (H1 & H2). split; [split; [exact H1|apply H2; left; reflexivity]|]. intros x Hx. apply H2. right. exact Hx. }
    destruct (Hl (vars_iter args) p1 (incl_refl _) (same_extends _ _ (same_refl _ Hwf1)) Hs) as (p2 & Hc2 & He2 & Hx2).
    assert (Hs2 : solution p2 s) by (apply Hx2; split; [exact Hs|reflexivity]).
    destruct (IH p2 (KVar ret) s) as (p3 & Hc3 & He3 & Hx3).
    + apply He2.
    + exact Hs2.
    + intros v Hv. apply Hun', He2, Hv.
    + apply (extends_kbound p1); [exact He2|]. intros x ->. apply (proj1 Hn1). right. reflexivity.
    + apply Hsz. right. reflexivity.
    + exists p3. split; [|split; [eapply extends_trans; eauto|]].
      * eapply (conv_bind (fun n => for_each (fun pool v => default_vars n pool (KVar v) d) p1 (vars_iter args))); [exact Hc2|]. exact Hc3.
      * intros s'. rewrite Hx3, Hx2. cbn [interp]. split.
        -- intros ((H1 & H2) & H3). split; [exact H1|]. f_equal; [|exact H3]. apply map_ext_in. exact H2.
        -- intros (H1 & H2). injection H2 as H2 H3. split; [split; [exact H1|]|exact H3].
           clear -H2. revert H2. generalize (vars_iter args) as l. induction l as [|x l IH]; cbn; intros H j Hj; [contradiction|].
           injection H as H1 H2. destruct Hj as [<-|Hj]; [exact H1|exact (IH H2 j Hj)].
Qed.

Lemma canonical_occ p s0 v : wf p -> canonical p s0 -> forall i, (i < len p)%nat -> occ v (s0 i) -> unresolved p v.
Proof.
  intros (Hb & Ha) (Hs & Hu) i. induction (Ha i) as [i _ IH]. intros Hi Ho.
  destruct (nth_error p i) as [k|] eqn:Hk; [|apply nth_error_None in Hk; lia].
  destruct (kind_eqb k (KVar i)) eqn:Ek.
  - apply kind_eqb_eq in Ek. subst k. rewrite (Hu i Hk) in Ho. cbn in Ho. subst. exact Hk.
  - assert (Hc : exists j, kchild k j /\ occ v (s0 j)).
    { rewrite (Hs i k Hk) in Ho. destruct k as [w| | | | | |args ret]; try contradiction.
      - exists w. split; [reflexivity|exact Ho].
      - apply (occ_interp s0 p v (KFun args ret)); [split; assumption|discriminate|exact Ho]. }
    destruct Hc as (j & Hj & Hoj). apply (IH j); [|exact (Hb i k Hk j Hj)|exact Hoj].
    exists k. split; [exact Hk|]. split; [exact Hj|]. intros ->. rewrite (proj2 (kind_eqb_eq _ _) eq_refl) in Ek. discriminate.
Qed.

Lemma canonical_occ_k p s0 v k : wf p -> canonical p s0 -> kbound (len p) k -> occ v (interp s0 k) -> unresolved p v.
Proof.
  intros Hwf Hc Hk Ho. assert (exists j, kchild k j /\ occ v (s0 j)) as (j & Hj & Hoj).
  { destruct k as [w| | | | | |args ret]; try contradiction.
    - exists w. split; [reflexivity|exact Ho].
    - apply (occ_interp s0 p v (KFun args ret)); [exact Hc|discriminate|exact Ho]. }
  exact (canonical_occ p s0 v Hwf Hc j (Hk j Hj) Hoj).
Qed.

Lemma default_exact p k d s0 : wf p -> kbound (len p) k -> In d atoms -> canonical p s0 ->
  exists p', conv (fun n => default_vars n p k d) (p', Ok) /\ extends p p' /\
    (forall s, solution p' s <-> solution p s /\ interp s k = fill (interp s0 d) (interp s0 k)).
Proof.
  intros Hwf Hk Hd Hc. destruct (solution_exists p (fun _ => interp s0 d) Hwf) as (s & Hs & Hu).
  destruct (default_ok d Hd (S (size (interp s k))) p k s Hwf Hs) as (p' & H1 & H2 & H3); auto.
  { intros v Hv. rewrite (Hu v Hv). apply atom_interp, Hd. }
  exists p'. split; [exact H1|]. split; [exact H2|]. intros s'. rewrite H3.
  assert (interp s k = fill (interp s0 d) (interp s0 k)) as E; [|rewrite E; reflexivity].
  rewrite (canonical_subst_k p s0 s k Hwf Hc Hs Hk).
  apply subst_fill. intros v Hv. apply Hu. eapply canonical_occ_k; eauto.
Qed.

(** * Exporting *)
Lemma export_ok m : forall p s0 k, wf p -> canonical p s0 -> kbound (len p) k -> (size (interp s0 k) < m)%nat ->
  exists p', conv (fun n => export n p k) (ast_of (interp s0 k), p') /\ same p p'.
Proof.
  induction m as [|m IH]; intros p s0 k Hwf Hc Hk Hm; [lia|].
  destruct (resolve_ok p k Hwf Hk) as (k1 & p1 & Hr & Hs1 & Hn1 & Hi1).
  rewrite <- (Hi1 s0 (proj1 Hc)) in *. clear Hi1.
  pose proof (same_canonical _ _ _ Hs1 Hc) as Hc1.
  assert (Hwrap : forall body t p', (forall n, export (S n) p k = let* r := resolve n p k in let '(k, pool) := r in body k pool n) ->
     conv (body k1 p1) (t, p') -> conv (fun n => export n p k) (t, p')).
  { intros body t p' Eb Hb. eapply conv_step; [exact Eb|]. eapply (conv_bind (fun n => resolve n p k)); [exact Hr|]. exact Hb. }
  destruct k1 as [w| | | | | |args ret];
    try (exists p1; split; [|exact Hs1]; eapply (Hwrap (fun k pool n => _)); [intros n; reflexivity|]; apply conv_ret).
  - exists p1; split; [|exact Hs1]. cbn [interp]. rewrite (proj2 Hc1 w (proj2 Hn1)).
    eapply (Hwrap (fun k pool n => _)); [intros n; reflexivity|]; apply conv_ret.
  - assert (Hsz : forall j, kchild (KFun args ret) j -> (size (s0 j) < m)%nat).
    { intros j Hj. pose proof (interp_child_size s0 (KFun args ret) j Hj). specialize (H ltac:(discriminate)). lia. }
    assert (Hl : forall l p1, incl l (vars_iter args) -> same p p1 ->
      exists p', conv (fun n => map_ctx (fun pool v => export n pool (KVar v)) p1 l) (map ast_of (map s0 l), p') /\ same p p').
    { induction l as [|j l IHl]; intros q Hincl Hsq; [exists q; split; [apply conv_ret|exact Hsq]|].
      assert (Hj : kchild (KFun args ret) j) by (left; apply Hincl; left; reflexivity).
      destruct (IH q s0 (KVar j)) as (q2 & Hc2 & Hs2).
      - apply Hsq.
      - eapply same_canonical; eauto.
      - intros x ->. rewrite (proj1 Hsq), <- (proj1 Hs1). apply (proj1 Hn1), Hj.
      - apply Hsz, Hj.
      - destruct (IHl q2) as (q3 & Hc3 & Hs3).
        + intros x Hx. apply Hincl. right. exact Hx.
        + eapply same_trans; eauto.
        + exists q3. split; [|exact Hs3]. cbn [map_ctx]. eapply (conv_bind (fun n => export n q (KVar j))); [exact Hc2|].
          cbn beta iota. eapply (conv_bind (fun n => map_ctx (fun pool v => export n pool (KVar v)) q2 l)); [exact Hc3|].
          apply conv_ret. }
    destruct (Hl (vars_iter args) p1 (incl_refl _) Hs1) as (p2 & Hc2 & Hs2).
    destruct (IH p2 s0 (KVar ret)) as (p3 & Hc3 & Hs3).
    + apply Hs2.
    + eapply same_canonical; eauto.
    + intros x ->. rewrite (proj1 Hs2), <- (proj1 Hs1). apply (proj1 Hn1). right. reflexivity.
    + apply Hsz. right. reflexivity.
    + exists p3. split; [|eapply same_trans; eauto].
      eapply (Hwrap (fun k pool n => _)); [intros n; reflexivity|]. cbn beta iota.
      eapply (conv_bind (fun n => map_ctx (fun pool v => export n pool (KVar v)) p1 (vars_iter args))); [exact Hc2|].
      cbn beta iota. eapply (conv_bind (fun n => export n p2 (KVar ret))); [exact Hc3|]. apply conv_ret.
Qed.

Lemma export_exact p s0 k : wf p -> canonical p s0 -> kbound (len p) k ->
  exists p', conv (fun n => export n p k) (ast_of (interp s0 k), p') /\ same p p'.
Proof. intros H1 H2 H3. apply (export_ok (S (size (interp s0 k)))); auto. Qed.

(** * Allocation *)
(** [grows p p']: [p'] has more entries, says the same about the old ones and nothing wrong. *)
Definition grows (p p' : context) : Prop :=
  (len p <= len p')%nat /\ wf p' /\ (forall s, solution p' s -> solution p s) /\
  (forall s, solution p s -> exists s', solution p' s' /\ forall i, (i < len p)%nat -> s' i = s i) /\
  (forall i, unresolved p' i -> (i < len p)%nat -> unresolved p i) /\ (forall i, unresolved p i -> unresolved p' i).

Lemma grows_refl p : wf p -> grows p p.
Proof. intros H. split; [reflexivity|]. split; [exact H|]. split; [auto|]. split; [|split; auto]. intros s Hs. exists s. auto. Qed.

Lemma grows_trans p q r : grows p q -> grows q r -> grows p r.
Proof.
  intros (H1 & H2 & H3 & H4 & H5 & H6) (G1 & G2 & G3 & G4 & G5 & G6). split; [lia|]. split; [exact G2|]. split; [auto|]. split; [|split].
  - intros s Hs. destruct (H4 s Hs) as (s1 & Hs1 & E1). destruct (G4 s1 Hs1) as (s2 & Hs2 & E2). exists s2. split; [exact Hs2|].
    intros i Hi. rewrite E2 by lia. apply E1, Hi.
  - intros i Hi Hl. apply H5; [|exact Hl]. apply G5; [exact Hi|lia].
  - auto.
Qed.

Lemma nth_error_app_case {A} (l l' : list A) i x : nth_error (l ++ l') i = Some x ->
  ((i < List.length l)%nat /\ nth_error l i = Some x) \/ ((List.length l <= i)%nat /\ nth_error l' (i - List.length l) = Some x).
Proof.
  intros H. destruct (Nat.ltb_spec i (List.length l)) as [Hi|Hi].
  - left. rewrite nth_error_app1 in H by exact Hi. auto.
  - right. rewrite nth_error_app2 in H by exact Hi. auto.
Qed.

Lemma grows_app p ks : wf p -> Forall (kbound (len p)) ks -> grows p (p ++ ks).
Proof.
  intros (Hb & Ha) Hks. rewrite Forall_forall in Hks.
  assert (Hold : forall i k, nth_error p i = Some k -> nth_error (p ++ ks) i = Some k).
  { intros i k Hk. rewrite nth_error_app1; [exact Hk|]. apply nth_error_Some. congruence. }
  split; [rewrite app_length; lia|]. split; [split|split; [|split; [|split]]].
  - intros i k Hk j Hj. rewrite app_length. apply nth_error_app_case in Hk. destruct Hk as [(Hi & Hk)|(Hi & Hk)].
    + pose proof (Hb i k Hk j Hj). lia.
    + apply nth_error_In in Hk. pose proof (Hks k Hk j Hj). lia.
  - assert (H1 : forall i, (i < len p)%nat -> Acc (step (p ++ ks)) i).
    { intros i. induction (Ha i) as [i _ IH]. intros Hi. constructor. intros j (k & Hk & Hj & Hne).
      apply nth_error_app_case in Hk. destruct Hk as [(_ & Hk)|(Hle & _)]; [|lia].
      apply IH; [exists k; auto|exact (Hb i k Hk j Hj)]. }
    intros i. constructor. intros j (k & Hk & Hj & Hne). apply H1. apply nth_error_app_case in Hk.
    destruct Hk as [(_ & Hk)|(Hle & Hk)]; [exact (Hb i k Hk j Hj)|]. apply nth_error_In in Hk. exact (Hks k Hk j Hj).
  - intros s Hs i k Hk. apply Hs, Hold, Hk.
  - intros s Hs.
    set (s' := fun i => if Nat.ltb i (len p) then s i else match nth_error ks (i - len p) with Some k => interp s k | None => s i end).
    assert (Hs' : forall i, (i < len p)%nat -> s' i = s i).
    { intros i Hi. unfold s'. destruct (Nat.ltb_spec i (len p)); [reflexivity|lia]. }
    exists s'. split; [|exact Hs']. intros i k Hk. apply nth_error_app_case in Hk.
    assert (Hext : kbound (len p) k -> interp s' k = interp s k).
    { intros Hkb. apply interp_ext. intros j Hj. apply Hs', Hkb, Hj. }
    destruct Hk as [(Hi & Hk)|(Hi & Hk)].
    + rewrite (Hext (Hb i k Hk)), (Hs' i Hi). apply Hs, Hk.
    + rewrite Hext by (apply Hks; eapply nth_error_In; eauto). unfold s'. destruct (Nat.ltb_spec i (len p)); [lia|]. rewrite Hk. reflexivity.
  - intros i Hi Hl. unfold unresolved in *. rewrite nth_error_app1 in Hi by exact Hl. exact Hi.
  - intros i Hi. apply Hold, Hi.
Qed.

Lemma grows_var p : wf p -> grows p (p ++ [KVar (len p)]) /\ unresolved (p ++ [KVar (len p)]) (len p).
Proof.
  intros (Hb & Ha). assert (Hnew : unresolved (p ++ [KVar (len p)]) (len p)).
  { unfold unresolved. rewrite nth_error_app2 by lia. rewrite Nat.sub_diag. reflexivity. }
  assert (Hold : forall i k, nth_error p i = Some k -> nth_error (p ++ [KVar (len p)]) i = Some k).
  { intros i k Hk. rewrite nth_error_app1; [exact Hk|]. apply nth_error_Some. congruence. }
  assert (Hcase : forall i k, nth_error (p ++ [KVar (len p)]) i = Some k -> nth_error p i = Some k \/ (i = len p /\ k = KVar (len p))).
  { intros i k Hk. apply nth_error_app_case in Hk. destruct Hk as [(_ & Hk)|(Hle & Hk)]; [left; exact Hk|right].
    destruct (i - len p)%nat as [|x] eqn:E; cbn in Hk; [|destruct x; discriminate]. split; [lia|congruence]. }
  split; [|exact Hnew]. split; [rewrite app_length; lia|]. split; [split|split; [|split; [|split]]].
  - intros i k Hk j Hj. rewrite app_length. cbn. apply Hcase in Hk. destruct Hk as [Hk|(-> & ->)].
    + pose proof (Hb i k Hk j Hj). lia.
    + cbn in Hj. lia.
  - intros i. induction (Ha i) as [i _ IH]. constructor. intros j (k & Hk & Hj & Hne). apply Hcase in Hk.
    destruct Hk as [Hk|(-> & ->)]; [|congruence]. apply IH. exists k. auto.
  - intros s Hs i k Hk. apply Hs, Hold, Hk.
  - intros s Hs. exists s. split; [|reflexivity]. intros i k Hk. apply Hcase in Hk.
    destruct Hk as [Hk|(-> & ->)]; [exact (Hs i k Hk)|reflexivity].
  - intros i Hi Hl. apply Hcase in Hi. destruct Hi as [Hi|(-> & _)]; [exact Hi|lia].
  - intros i Hi. apply Hold, Hi.
Qed.

(** The shared entries at the bottom of the pool mean what they should. *)
Definition based (p : context) : Prop :=
  (21 <= len p)%nat /\ forall s, solution p s -> forall i k, nth_error new_context i = Some k -> s i = interp s k.

Lemma grows_based p p' : based p -> grows p p' -> based p'.
Proof. intros (H1 & H2) (G1 & _ & G2 & _). split; [lia|]. intros s Hs. apply H2, G2, Hs. Qed.

Lemma extends_based p p' : based p -> extends p p' -> based p'.
Proof. intros (H1 & H2) (G1 & _ & _ & G2 & _). split; [lia|]. intros s Hs. apply H2, G2, Hs. Qed.

Lemma grows_kbound p p' k : grows p p' -> kbound (len p) k -> kbound (len p') k.
Proof. intros (H & _) Hk j Hj. pose proof (Hk j Hj). lia. Qed.

Lemma alloc_bind_ok p k v p' : wf p -> based p -> kbound (len p) k -> alloc_bind p k = (v, p') ->
  grows p p' /\ (v < len p')%nat /\ forall s, solution p' s -> s v = interp s k.
Proof.
  intros Hwf (Hb1 & Hb2) Hk H.
  assert (Hfix : forall i k, nth_error new_context i = Some k -> grows p p /\ (i < len p)%nat /\ forall s, solution p s -> s i = interp s k).
  { intros i k' Hi. split; [apply grows_refl, Hwf|]. split; [|intros s Hs; exact (Hb2 s Hs i k' Hi)].
    assert (i < len new_context)%nat by (apply nth_error_Some; congruence). cbn in *. lia. }
  destruct k as [w| | | | | |args ret]; cbn [alloc_bind] in H; injection H as <- <-;
    try (apply Hfix; reflexivity).
  - split; [apply grows_refl, Hwf|]. split; [apply Hk; reflexivity|]. reflexivity.
  - split; [apply grows_app; auto|]. split; [rewrite app_length; cbn; lia|]. intros s Hs. apply Hs.
    rewrite nth_error_app2 by lia. rewrite Nat.sub_diag. reflexivity.
Qed.

Lemma map_seq_nth (s : var -> gkind) (f : kind -> gkind) b ks : (forall j k, nth_error ks j = Some k -> s (b + j)%nat = f k) ->
  map s (seq b (List.length ks)) = map f ks.
Proof.
  revert b. induction ks as [|k ks IH]; intros b H; [reflexivity|]. cbn [List.length seq map]. f_equal.
  - rewrite <- (H 0%nat k eq_refl). f_equal. lia.
  - apply IH. intros j k' Hj. rewrite <- (H (S j) k' Hj). f_equal. lia.
Qed.

Lemma alloc_binds_ok p ks vs p' : wf p -> based p -> Forall (kbound (len p)) ks -> alloc_binds p ks = (vs, p') ->
  grows p p' /\ (forall v, In v (vars_iter vs) -> (v < len p')%nat) /\
  forall s, solution p' s -> map s (vars_iter vs) = map (interp s) ks.
Proof.
  intros Hwf Hbased Hks H. unfold alloc_binds in H.
  destruct (Nat.leb (List.length ks) 16 && forallb (fun k => kind_eqb k KType) ks) eqn:E.
  - injection H as <- <-. rewrite andb_true_iff, Nat.leb_le, forallb_forall in E. destruct E as (E1 & E2).
    assert (Hit : vars_iter (from_index_count 5 (List.length ks)) = seq 5 (List.length ks)).
    { unfold from_index_count, vars_iter. destruct (Nat.eqb_spec (List.length ks) 0) as [->|Hn]; [reflexivity|].
      cbn [fst snd]. f_equal. lia. }
    rewrite Hit. destruct Hbased as (Hb1 & Hb2). split; [apply grows_refl, Hwf|]. split.
    + intros v Hv. apply in_seq in Hv. lia.
    + intros s Hs. apply map_seq_nth. intros j k Hj.
      pose proof (nth_error_In _ _ Hj) as Hin. apply E2, kind_eqb_eq in Hin. subst k.
      apply (Hb2 s Hs). assert (j < List.length ks)%nat by (apply nth_error_Some; congruence).
      unfold new_context. rewrite nth_error_app2 by (cbn; lia). rewrite nth_error_repeat; [reflexivity|]. cbn [List.length]. lia.
  - assert (Hmany : (from_index_count (List.length p) (List.length ks), p ++ ks) = (vs, p') ->
      grows p p' /\ (forall v, In v (vars_iter vs) -> (v < len p')%nat) /\
      forall s, solution p' s -> map s (vars_iter vs) = map (interp s) ks).
    { intros H0. injection H0 as <- <-. split; [apply grows_app; auto|].
      assert (Hit : vars_iter (from_index_count (len p) (List.length ks)) = seq (len p) (List.length ks) \/ ks = []).
      { unfold from_index_count, vars_iter. destruct (Nat.eqb_spec (List.length ks) 0) as [Hz|Hn]; [right; destruct ks; [reflexivity|discriminate]|].
        left. cbn [fst snd]. f_equal. lia. }
      destruct Hit as [Hit| ->]; [|split; [intros v []|reflexivity]]. rewrite Hit. split.
      - intros v Hv. apply in_seq in Hv. rewrite app_length. lia.
      - intros s Hs. apply map_seq_nth. intros j k Hj. apply Hs. rewrite nth_error_app2 by lia. rewrite <- Hj. f_equal. lia. }
    destruct ks as [|k [|k2 ks]]; try (apply Hmany; exact H). clear Hmany.
    destruct (alloc_bind p k) as (v & p1) eqn:Ev. injection H as <- <-. inversion_clear Hks as [|x l Hk _].
    destruct (alloc_bind_ok p k v p1 Hwf Hbased Hk Ev) as (H1 & H2 & H3). split; [exact H1|].
    assert (Hit : vars_iter (v, S v) = [v]) by (unfold vars_iter; cbn [fst snd]; replace (S v - v)%nat with 1%nat by lia; reflexivity).
    rewrite Hit. split; [intros x [<-|[]]; exact H2|]. intros s Hs. cbn. rewrite (H3 s Hs). reflexivity.
Qed.

Lemma new_fun_ok p args ret k p' : wf p -> based p -> Forall (kbound (len p)) args -> kbound (len p) ret ->
  new_fun p args ret = (k, p') ->
  grows p p' /\ kbound (len p') k /\ forall s, solution p' s -> interp s k = gfun (map (interp s) args) (interp s ret).
Proof.
  intros Hwf Hb Hargs Hret H. unfold new_fun in H.
  destruct args as [|a args]; [injection H as <- <-; split; [apply grows_refl, Hwf|]; split; [exact Hret|reflexivity]|].
  remember (a :: args) as as_ eqn:Eas. destruct (alloc_binds p as_) as (vs & p1) eqn:E1.
  destruct (alloc_bind p1 ret) as (v & p2) eqn:E2. injection H as <- <-.
  destruct (alloc_binds_ok p as_ vs p1 Hwf Hb Hargs E1) as (G1 & B1 & S1).
  destruct (alloc_bind_ok p1 ret v p2) as (G2 & B2 & S2); [apply G1|eapply grows_based; eauto|eapply grows_kbound; eauto|exact E2|].
  split; [eapply grows_trans; eauto|]. split.
  - intros j [Hj| ->]; [|exact B2]. pose proof (B1 j Hj). destruct G2. lia.
  - intros s Hs. cbn [interp]. rewrite (S2 s Hs), S1; [|apply G2, Hs]. subst as_. reflexivity.
Qed.

(** * Importing *)
Lemma ast_kind_ind' (P : ast_kind -> Prop) :
  P AType -> P AConstraint -> P ASatisfaction -> P AValue -> P AMacro ->
  (forall args ret, Forall P args -> P ret -> P (AFun args ret)) -> (forall v, P (AError v)) -> forall t, P t.
Proof.
  intros H1 H2 H3 H4 H5 Hf He. fix IH 1. intros [| | | | |args ret|v].
  - exact H1.
  - exact H2.
  - exact H3.
  - exact H4.
  - exact H5.
  - apply Hf; [|apply IH]. induction args as [|a args IHa]; constructor; [apply IH|exact IHa].
  - apply He.
Qed.

Fixpoint term_of (k : ast_kind) : gkind :=
  match k with
  | AType => GType | AConstraint => GConstraint | ASatisfaction => GSatisfaction | AValue => GValue | AMacro => GMacro
  | AFun args ret => gfun (map term_of args) (term_of ret)
  | AError v => GName v
  end.

Lemma ast_of_term_of k : ast_of (term_of k) = collapse k.
Proof.
  induction k as [| | | | |args ret IHa IHr|v] using ast_kind_ind'; cbn [term_of collapse]; try reflexivity.
  destruct args as [|a args]; [exact IHr|]. cbn [map gfun ast_of]. rewrite Forall_forall in IHa. f_equal; [|exact IHr].
  cbn [map]. f_equal; [apply IHa; left; reflexivity|]. rewrite map_map. apply map_ext_in. intros x Hx. apply IHa. right. exact Hx.
Qed.

Lemma import_ok a : proper a -> forall p, wf p -> based p -> exists k p', import p a = Ret (k, p') /\ grows p p' /\
  kbound (len p') k /\ forall s, solution p' s -> interp s k = term_of a.
Proof.
  assert (Hatom : forall k p, (forall n, kbound n k) -> wf p -> exists k' p', Ret (k, p) = Ret (k', p') /\ grows p p' /\
    kbound (len p') k' /\ forall s, solution p' s -> interp s k' = interp s k).
  { intros k p Hk Hwf. exists k, p. split; [reflexivity|]. split; [apply grows_refl, Hwf|]. split; [apply Hk|reflexivity]. }
  induction a as [| | | | |args ret IHa IHr|v] using ast_kind_ind'; intros Hp p Hwf Hb.
  1-5: cbn [import]; eexists _, p; split; [reflexivity|]; split; [apply grows_refl, Hwf|]; split; [intros j []|reflexivity].
  2: inversion Hp.
  inversion Hp as [| | | | |x y Hpa Hpr]; subst. cbn [import].
  set (go := fix go (pool : context) (args : list ast_kind) : outcome (list kind * context) :=
         match args with
         | [] => Ret ([], pool)
         | a :: args =>
           let* r := import pool a in
           let '(k, pool) := r in
           let* r := go pool args in
           let '(ks, pool) := r in
           Ret (k :: ks, pool)
         end).
  assert (Hgo : forall p, wf p -> based p -> exists ks p', go p args = Ret (ks, p') /\ grows p p' /\ Forall (kbound (len p')) ks /\
    forall s, solution p' s -> map (interp s) ks = map term_of args).
  { clear -IHa Hpa. induction args as [|a args IH]; intros p Hwf Hb.
    - exists [], p. split; [reflexivity|]. split; [apply grows_refl, Hwf|]. split; [constructor|reflexivity].
    - inversion_clear IHa as [|x l IHa1 IHa2]. inversion_clear Hpa as [|x l Hpa1 Hpa2].
      destruct (IHa1 Hpa1 p Hwf Hb) as (k & p1 & E1 & G1 & B1 & S1).
      destruct (IH IHa2 Hpa2 p1) as (ks & p2 & E2 & G2 & B2 & S2); [apply G1|eapply grows_based; eauto|].
      exists (k :: ks), p2. split; [|split; [eapply grows_trans; eauto|split]].
      + cbn [go]. rewrite E1. cbn [bind]. fold go. rewrite E2. reflexivity.
      + constructor; [eapply grows_kbound; eauto|exact B2].
      + intros s Hs. cbn [map]. rewrite (S2 s Hs), (S1 s); [reflexivity|]. apply G2, Hs. }
  destruct (Hgo p Hwf Hb) as (ks & p1 & E1 & G1 & B1 & S1). rewrite E1. cbn [bind].
  destruct (IHr Hpr p1) as (k & p2 & E2 & G2 & B2 & S2); [apply G1|eapply grows_based; eauto|]. rewrite E2. cbn [bind].
  destruct (new_fun p2 ks k) as (kf & p3) eqn:E3.
  destruct (new_fun_ok p2 ks k kf p3) as (G3 & B3 & S3); [apply G2|eapply grows_based; [eapply grows_based; eauto|exact G2]| |exact B2|exact E3|].
  { eapply Forall_impl; [|exact B1]. intros x Hx. eapply grows_kbound; eauto. }
  exists kf, p3. split; [reflexivity|]. split; [eapply grows_trans; [|exact G3]; eapply grows_trans; eauto|]. split; [exact B3|].
  intros s Hs. rewrite (S3 s Hs). cbn [term_of]. rewrite (S2 s), (S1 s); [reflexivity|apply G2, G3, Hs|apply G3, Hs].
Qed.

Lemma import_proper p a k p' : import p a = Ret (k, p') -> proper a.
Proof.
  revert p k p'. induction a as [| | | | |args ret IHa IHr|v] using ast_kind_ind'; intros p k p' H; try constructor.
  - cbn [import] in H. revert H. generalize p. clear p.
    match goal with |- forall p, bind (?g p args) _ = _ -> _ => set (go := g) end.
    intros p H. destruct (go p args) as [(ks, p1)| |] eqn:E; try discriminate. clear H.
    revert p ks p1 E. induction args as [|a args IH]; intros p ks p1 E; constructor.
    + cbn [go] in E. destruct (import p a) as [(k1, p2)| |] eqn:E1; try discriminate. inversion_clear IHa as [|x l IHa1 IHa2]. eapply IHa1; eauto.
    + cbn [go] in E. destruct (import p a) as [(k1, p2)| |] eqn:E1; try discriminate. inversion_clear IHa as [|x l IHa1 IHa2].
      cbn [bind] in E. fold go in E. destruct (go p2 args) as [(ks2, p3)| |] eqn:E2; try discriminate. eapply IH; eauto.
  - cbn [import] in H.
    match type of H with bind (?g p args) _ = _ => destruct (g p args) as [(ks, p1)| |]; try discriminate end.
    cbn [bind] in H. destruct (import p1 ret) as [(k1, p2)| |] eqn:E; try discriminate. eapply IHr; eauto.
  - discriminate.
Qed.

(** * Reachable contexts *)
Lemma new_wf : wf new_context.
Proof.
  assert (H : forall i k, nth_error new_context i = Some k -> In k atoms).
  { intros i k Hk. apply nth_error_In in Hk. unfold new_context in Hk. apply in_app_iff in Hk. destruct Hk as [Hk|Hk]; [exact Hk|].
    apply repeat_spec in Hk. subst. left. reflexivity. }
  split; [intros i k Hk; apply atom_kbound; eauto|]. intros i. constructor. intros j (k & Hk & Hj & _).
  apply H in Hk. exfalso. exact (Nat.nlt_0_r _ (atom_kbound 0 k Hk j Hj)).
Qed.

Definition good (p : context) (ks : list kind) : Prop := wf p /\ based p /\ Forall (kbound (len p)) ks.

Lemma good_grows p ks p' : good p ks -> grows p p' -> good p' ks.
Proof.
  intros (H1 & H2 & H3) G. split; [apply G|]. split; [eapply grows_based; eauto|].
  eapply Forall_impl; [|exact H3]. intros k Hk. eapply grows_kbound; eauto.
Qed.

Lemma good_extends p ks p' : good p ks -> extends p p' -> good p' ks.
Proof.
  intros (H1 & H2 & H3) G. split; [apply G|]. split; [eapply extends_based; eauto|].
  eapply Forall_impl; [|exact H3]. intros k Hk. eapply extends_kbound; eauto.
Qed.

Lemma good_cons p ks k : good p ks -> kbound (len p) k -> good p (k :: ks).
Proof. intros (H1 & H2 & H3) Hk. split; [exact H1|]. split; [exact H2|]. constructor; auto. Qed.

Lemma good_in p ks k : good p ks -> In k ks -> kbound (len p) k.
Proof. intros (_ & _ & H). rewrite Forall_forall in H. apply H. Qed.

Lemma reachable_good p ks : reachable p ks -> good p ks.
Proof.
  induction 1 as [|p ks k p' Hr IH E|p ks args ret k p' Hr IH Ha Hret E|p ks a k p' Hr IH Ha Hc|p ks a b p' r Hr IH Ha Hb Hc
                  |p ks a d p' r Hr IH Ha Hd Hc|p ks a k p' Hr IH E|p ks a t p' Hr IH Ha Hc].
  - split; [apply new_wf|]. split; [split; [cbn; lia|intros s Hs; exact Hs]|]. apply Forall_forall. apply atom_kbound.
  - unfold new_var, alloc_var in E. injection E as <- <-. destruct (grows_var p (proj1 IH)) as (G & _).
    apply good_cons; [eapply good_grows; eauto|]. intros j ->. rewrite app_length. cbn. lia.
  - destruct (new_fun_ok p args ret k p') as (G & B & _); try apply IH; auto.
    { apply Forall_forall. intros x Hx. eapply good_in; eauto. }
    { eapply good_in; eauto. }
    apply good_cons; [eapply good_grows; eauto|exact B].
  - destruct (resolve_ok p a (proj1 IH) (good_in _ _ _ IH Ha)) as (k1 & p1 & Hc1 & Hs & Hn & _).
    pose proof (conv_unique _ _ _ Hc Hc1) as E. injection E as -> ->.
    apply good_cons; [eapply good_extends; [exact IH|apply same_extends, Hs]|apply Hn].
  - destruct (unify_ok p a b (proj1 IH) (good_in _ _ _ IH Ha) (good_in _ _ _ IH Hb)) as (p1 & r1 & Hc1 & He & _).
    pose proof (conv_unique _ _ _ Hc Hc1) as E. injection E as -> ->. eapply good_extends; eauto.
  - destruct (canonical_exists p (proj1 IH)) as (s0 & Hs0).
    destruct (default_exact p a d s0 (proj1 IH) (good_in _ _ _ IH Ha) Hd Hs0) as (p1 & Hc1 & He & _).
    pose proof (conv_unique _ _ _ Hc Hc1) as E. injection E as -> ->. eapply good_extends; eauto.
  - destruct (import_ok a (import_proper _ _ _ _ E) p (proj1 IH) (proj1 (proj2 IH))) as (k1 & p1 & E1 & G & B & _).
    rewrite E in E1. injection E1 as -> ->. apply good_cons; [eapply good_grows; eauto|exact B].
  - destruct (canonical_exists p (proj1 IH)) as (s0 & Hs0).
    destruct (export_exact p s0 a (proj1 IH) Hs0 (good_in _ _ _ IH Ha)) as (p1 & Hc1 & Hs).
    pose proof (conv_unique _ _ _ Hc Hc1) as E. injection E as -> ->. eapply good_extends; [exact IH|apply same_extends, Hs].
Qed.

(** * The statements of Properties.v *)
Lemma unify_exact : forall pool ks a b, reachable pool ks -> In a ks -> In b ks ->
  exists pool' r, conv (fun n => unify n pool a b) (pool', r) /\
    (forall s, solution pool' s -> solution pool s) /\
    match r with
    | Ok => forall s, solution pool' s <-> solution pool s /\ interp s a = interp s b
    | Err _ => ~ exists s, solution pool s /\ interp s a = interp s b
    end.
Proof.
  intros p ks a b Hr Ha Hb. apply reachable_good in Hr.
  destruct (unify_ok p a b (proj1 Hr) (good_in _ _ _ Hr Ha) (good_in _ _ _ Hr Hb)) as (p' & r & Hc & He & Hx).
  exists p', r. split; [exact Hc|]. split; [apply He|]. destruct r as [|e]; cbn in Hx; [exact Hx|].
  intros (s & H1 & H2). exact (Hx s H1 H2).
Qed.

Lemma solvable : forall pool ks (t : var -> gkind), reachable pool ks ->
  exists s, solution pool s /\ (forall v, unresolved pool v -> s v = t v) /\
    forall s', solution pool s' -> (forall v, unresolved pool v -> s' v = t v) ->
      forall k, In k ks -> interp s' k = interp s k.
Proof.
  intros p ks t Hr. apply reachable_good in Hr. destruct (solution_exists p t (proj1 Hr)) as (s & H1 & H2).
  exists s. split; [exact H1|]. split; [exact H2|]. intros s' H1' H2' k Hk. apply interp_ext. intros j Hj.
  apply (solution_unique p); auto; [apply Hr| |exact (good_in _ _ _ Hr Hk j Hj)].
  intros v Hv. rewrite (H2 v Hv). apply H2', Hv.
Qed.

Lemma resolve_exact : forall pool ks a, reachable pool ks -> In a ks ->
  exists k pool', conv (fun n => resolve n pool a) (k, pool') /\ head_normal pool' k /\
    (forall s, solution pool' s <-> solution pool s) /\ (forall v, unresolved pool' v <-> unresolved pool v) /\
    (forall s, solution pool s -> interp s k = interp s a).
Proof.
  intros p ks a Hr Ha. apply reachable_good in Hr.
  destruct (resolve_ok p a (proj1 Hr) (good_in _ _ _ Hr Ha)) as (k & p' & Hc & (_ & _ & H1 & H2) & Hn & Hi).
  exists k, p'. split; [exact Hc|]. split; [apply Hn|]. auto.
Qed.

Lemma default_vars_exact : forall pool ks a d s0, reachable pool ks -> In a ks -> In d atoms -> canonical pool s0 ->
  exists pool', conv (fun n => default_vars n pool a d) (pool', Ok) /\
    forall s, solution pool' s <-> solution pool s /\ interp s a = fill (interp s0 d) (interp s0 a).
Proof.
  intros p ks a d s0 Hr Ha Hd Hs0. apply reachable_good in Hr.
  destruct (default_exact p a d s0 (proj1 Hr) (good_in _ _ _ Hr Ha) Hd Hs0) as (p' & H1 & _ & H2). eauto.
Qed.

Lemma constructors_exact : forall pool ks, reachable pool ks ->
  (forall k pool', new_var pool = (k, pool') -> exists v, k = KVar v /\ unresolved pool' v /\ ~ unresolved pool v /\
     (forall s, solution pool' s <-> solution pool s)) /\
  (forall args ret k pool', incl args ks -> In ret ks -> new_fun pool args ret = (k, pool') ->
     (forall s, solution pool' s -> solution pool s /\ interp s k = gfun (map (interp s) args) (interp s ret)) /\
     (forall s, solution pool s -> exists s', solution pool' s' /\ forall a, In a ks -> interp s' a = interp s a)).
Proof.
  intros p ks Hr. apply reachable_good in Hr. split.
  - intros k p' E. unfold new_var, alloc_var in E. injection E as <- <-.
    destruct (grows_var p (proj1 Hr)) as ((_ & _ & G1 & G2 & G3 & G4) & Hu). exists (len p). split; [reflexivity|]. split; [exact Hu|]. split.
    + intros H. assert (len p < len p)%nat by (apply nth_error_Some; unfold unresolved in H; congruence). lia.
    + intros s. split; [apply G1|]. intros Hs i k Hk. apply nth_error_app_case in Hk. destruct Hk as [(_ & Hk)|(Hle & Hk)]; [exact (Hs i k Hk)|].
      destruct (i - len p)%nat as [|x] eqn:E; cbn in Hk; [|destruct x; discriminate]. injection Hk as <-. cbn. f_equal. lia.
  - intros args ret k p' Ha Hret E. destruct (new_fun_ok p args ret k p') as (G & _ & S); try apply Hr; auto.
    { apply Forall_forall. intros x Hx. eapply good_in; eauto. }
    { eapply good_in; eauto. }
    split; [intros s Hs; split; [apply G, Hs|apply S, Hs]|].
    intros s Hs. destruct G as (_ & _ & _ & G & _). destruct (G s Hs) as (s' & Hs' & E'). exists s'. split; [exact Hs'|].
    intros a Hin. apply interp_ext. intros j Hj. apply E'. exact (good_in _ _ _ Hr Hin j Hj).
Qed.

Lemma export_is_exact : forall pool ks a s0, reachable pool ks -> In a ks -> canonical pool s0 ->
  exists pool', conv (fun n => export n pool a) (ast_of (interp s0 a), pool') /\
    forall s, solution pool' s <-> solution pool s.
Proof.
  intros p ks a s0 Hr Ha Hs0. apply reachable_good in Hr.
  destruct (export_exact p s0 a (proj1 Hr) Hs0 (good_in _ _ _ Hr Ha)) as (p' & H1 & (_ & _ & H2 & _)). eauto.
Qed.

Lemma import_then_export : forall pool ks a, reachable pool ks -> proper a ->
  exists k pool' pool'', import pool a = Ret (k, pool') /\
    conv (fun n => export n pool' k) (collapse a, pool'') /\
    (forall s, solution pool' s -> solution pool s) /\
    (forall s, solution pool s -> exists s', solution pool' s' /\ forall a, In a ks -> interp s' a = interp s a).
Proof.
  intros p ks a Hr Hp. apply reachable_good in Hr.
  destruct (import_ok a Hp p (proj1 Hr) (proj1 (proj2 Hr))) as (k & p1 & E & G & B & S).
  destruct (canonical_exists p1) as (s0 & Hs0); [apply G|].
  destruct (export_exact p1 s0 k) as (p2 & Hc & _); [apply G|exact Hs0|exact B|].
  exists k, p1, p2. split; [exact E|]. split; [|split; [apply G|]].
  - rewrite <- ast_of_term_of, <- (S s0 (proj1 Hs0)). exact Hc.
  - intros s Hs. destruct G as (_ & _ & _ & G & _). destruct (G s Hs) as (s' & Hs' & E'). exists s'. split; [exact Hs'|].
    intros x Hin. apply interp_ext. intros j Hj. apply E'. exact (good_in _ _ _ Hr Hin j Hj).
Qed.
