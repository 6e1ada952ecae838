From Verif.Base Require Import Base BaseFacts VecFacts.
From Verif.Types Require Import Model Spec Proofs ProofsUnify ProofsMain ProofsApi.

Section Reach.
  Variable env : kind_env.
  Notation typed := (typed env).
  Notation wf := (wf env).

  (** [grows]: more entries, none of them unresolved, saying the same about the old ones. *)
  Definition grows (kap : var -> ast_kind) (p : context) (kap' : var -> ast_kind) (p' : context) : Prop :=
    (len p <= len p')%nat /\ wf kap' p' /\ (forall i, (i < len p)%nat -> kap' i = kap i) /\
    (forall s, equations p' s -> equations p s) /\
    (forall s, equations p s -> exists s', equations p' s' /\ forall i, (i < len p)%nat -> s' i = s i) /\
    (forall i k lv, unresolved p' i k lv <-> unresolved p i k lv).

  Lemma grows_refl kap p : wf kap p -> grows kap p kap p.
  Proof. intros H. split; [reflexivity|]. split; [exact H|]. split; [auto|]. split; [auto|]. split; [|reflexivity]. intros s Hs. exists s. auto. Qed.

  Lemma grows_trans k1 p k2 q k3 r : grows k1 p k2 q -> grows k2 q k3 r -> grows k1 p k3 r.
  Proof.
    intros (H1 & H2 & H3 & H4 & H5 & H6) (G1 & G2 & G3 & G4 & G5 & G6). split; [lia|]. split; [exact G2|]. split; [|split; [auto|split]].
    - intros i Hi. rewrite G3 by lia. apply H3, Hi.
    - intros s Hs. destruct (H5 s Hs) as (s1 & Hs1 & E1). destruct (G5 s1 Hs1) as (s2 & Hs2 & E2). exists s2. split; [exact Hs2|].
      intros i Hi. rewrite E2 by lia. apply E1, Hi.
    - intros i k lv. rewrite G6. apply H6.
  Qed.

  Lemma hask_ext kap kap' n t k : tbound n t -> (forall i, (i < n)%nat -> kap' i = kap i) -> hask env kap t k -> hask env kap' t k.
  Proof.
    intros Hb He. destruct t as [v k' lv|c|callee args|g lv]; cbn; auto.
    - rewrite He by (apply Hb; reflexivity). auto.
    - rewrite He by (apply Hb; left; reflexivity). auto.
  Qed.

  Lemma grows_tbound kap p kap' p' t : grows kap p kap' p' -> tbound (len p) t -> tbound (len p') t.
  Proof. intros (H & _) Hb j Hj. pose proof (Hb j Hj). lia. Qed.

  Lemma grows_hask kap p kap' p' t k : grows kap p kap' p' -> tbound (len p) t -> hask env kap t k -> hask env kap' t k.
  Proof. intros (_ & _ & H & _) Hb. apply (hask_ext kap kap' (len p)); auto. Qed.

  Lemma grows_typed kap p kap' p' t : grows kap p kap' p' -> typed kap p t -> typed kap' p' t.
  Proof.
    intros G (Hb & k & Hk). split; [eapply grows_tbound; eauto|]. exists k. eapply grows_hask; eauto.
  Qed.

  Lemma grows_canonical kap p kap' p' s : grows kap p kap' p' -> canonical p s ->
    exists s', canonical p' s' /\ forall i, (i < len p)%nat -> s' i = s i.
  Proof.
    intros (_ & _ & _ & _ & G & Hu) (Hs & Hc). destruct (G s Hs) as (s' & Hs' & E). exists s'. split; [|exact E].
    split; [exact Hs'|]. intros v k lv Hv. apply Hu in Hv. rewrite E; [apply Hc, Hv|].
    apply nth_error_Some. unfold unresolved in Hv. congruence.
  Qed.

  Lemma nth_error_app_case {A} (l l' : list A) i x : nth_error (l ++ l') i = Some x ->
    ((i < List.length l)%nat /\ nth_error l i = Some x) \/ ((List.length l <= i)%nat /\ nth_error l' (i - List.length l) = Some x).
  Proof.
    intros H. destruct (Nat.ltb_spec i (List.length l)) as [Hi|Hi].
    - left. rewrite nth_error_app1 in H by exact Hi. auto.
    - right. rewrite nth_error_app2 in H by exact Hi. auto.
  Qed.

  Lemma kinds_exist kap p (ts : list ty) : Forall (typed kap p) ts ->
    exists ks : nat -> ast_kind, forall j t, nth_error ts j = Some t -> hask env kap t (ks j).
  Proof.
    induction 1 as [|t ts (_ & k & Hk) _ (ks & IH)].
    - exists (fun _ => AType). intros [|j] t H; discriminate.
    - exists (fun j => match j with O => k | S j => ks j end). intros [|j] t' H; cbn in H; [injection H as <-; exact Hk|exact (IH j t' H)].
  Qed.

  Lemma grows_app kap p ts : wf kap p -> Forall (typed kap p) ts ->
    exists kap', grows kap p kap' (p ++ ts).
  Proof.
    intros ((Hb & Ha) & Hk) Hts. destruct (kinds_exist kap p ts Hts) as (ks & Hks). rewrite Forall_forall in Hts.
    assert (Hold : forall i t, nth_error p i = Some t -> nth_error (p ++ ts) i = Some t).
    { intros i t Ht. rewrite nth_error_app1; [exact Ht|]. apply nth_error_Some. congruence. }
    set (kap' := fun i => if Nat.ltb i (len p) then kap i else ks (i - len p)%nat).
    assert (Ekap : forall i, (i < len p)%nat -> kap' i = kap i).
    { intros i Hi. unfold kap'. destruct (Nat.ltb_spec i (len p)); [reflexivity|lia]. }
    exists kap'. split; [rewrite app_length; lia|]. split; [split; [split|]|split; [exact Ekap|split; [|split]]].
    - intros i t Ht j Hj. rewrite app_length. apply nth_error_app_case in Ht. destruct Ht as [(Hi & Ht)|(Hi & Ht)].
      + pose proof (Hb i t Ht j Hj). lia.
      + apply nth_error_In in Ht. pose proof (proj1 (Hts t Ht) j Hj). lia.
    - assert (H1 : forall i, (i < len p)%nat -> Acc (step (p ++ ts)) i).
      { intros i. induction (Ha i) as [i _ IH]. intros Hi. constructor. intros j (t & Ht & Hj & Hne).
        apply nth_error_app_case in Ht. destruct Ht as [(_ & Ht)|(Hle & _)]; [|lia].
        apply IH; [exists t; auto|exact (Hb i t Ht j Hj)]. }
      intros i. constructor. intros j (t & Ht & Hj & Hne). apply H1. apply nth_error_app_case in Ht.
      destruct Ht as [(_ & Ht)|(Hle & Ht)]; [exact (Hb i t Ht j Hj)|]. apply nth_error_In in Ht. exact (proj1 (Hts t Ht) j Hj).
    - intros i t Ht. apply nth_error_app_case in Ht. destruct Ht as [(Hi & Ht)|(Hi & Ht)].
      + rewrite (Ekap i Hi). destruct (Hk i t Ht) as (H1 & H2). split; [|exact H2]. apply (hask_ext kap kap' (len p)); auto. exact (Hb i t Ht).
      + split.
        * unfold kap' at 2. destruct (Nat.ltb_spec i (len p)); [lia|]. apply (hask_ext kap kap' (len p)); auto.
          apply nth_error_In in Ht. exact (proj1 (Hts t Ht)).
        * intros k lv ->. exfalso. apply nth_error_In in Ht. pose proof (proj1 (Hts _ Ht) i eq_refl). lia.
    - intros s Hs i t Ht. apply Hs, Hold, Ht.
    - intros s Hs.
      set (s' := fun i => if Nat.ltb i (len p) then s i else match nth_error ts (i - len p) with Some t => interp s t | None => s i end).
      assert (Hs' : forall i, (i < len p)%nat -> s' i = s i).
      { intros i Hi. unfold s'. destruct (Nat.ltb_spec i (len p)); [reflexivity|lia]. }
      exists s'. split; [|exact Hs']. intros i t Ht. apply nth_error_app_case in Ht.
      assert (Hext : tbound (len p) t -> interp s' t = interp s t).
      { intros Hkb. apply interp_ext. intros j Hj. apply Hs', Hkb, Hj. }
      destruct Ht as [(Hi & Ht)|(Hi & Ht)].
      + rewrite (Hext (Hb i t Ht)), (Hs' i Hi). apply Hs, Ht.
      + rewrite Hext by (eapply Hts, nth_error_In; eauto). unfold s'. destruct (Nat.ltb_spec i (len p)); [lia|]. rewrite Ht. reflexivity.
    - intros i k lv. split; [|apply Hold]. intros Hu. unfold unresolved in Hu. apply nth_error_app_case in Hu.
      destruct Hu as [(_ & Hu)|(Hi & Hu)]; [exact Hu|]. exfalso. apply nth_error_In in Hu. pose proof (proj1 (Hts _ Hu) i eq_refl). lia.
  Qed.

  Lemma alloc_bind_ok kap p t v p' : wf kap p -> typed kap p t -> alloc_bind p t = (v, p') ->
    exists kap', grows kap p kap' p' /\ (v < len p')%nat /\ (forall k, hask env kap t k -> kap' v = k) /\ forall s, equations p' s -> s v = interp s t.
  Proof.
    intros Hwf Ht H.
    assert (Hnew : (len p, p ++ [t]) = (v, p') -> exists kap', grows kap p kap' p' /\ (v < len p')%nat /\
      (forall k, hask env kap t k -> kap' v = k) /\ forall s, equations p' s -> s v = interp s t).
    { intros E. injection E as <- <-. destruct (grows_app kap p [t] Hwf ltac:(auto)) as (kap' & G).
      assert (Hn : nth_error (p ++ [t]) (len p) = Some t) by (rewrite nth_error_app2 by lia; rewrite Nat.sub_diag; reflexivity).
      exists kap'. split; [exact G|]. split; [rewrite app_length; cbn; lia|]. split; [|intros s Hs; apply Hs, Hn].
      intros k Hk. assert (Hk' : hask env kap' t k) by (eapply grows_hask; eauto; apply Ht).
      pose proof (proj1 (proj2 (proj1 (proj2 G)) (len p) t Hn)) as Hk2.
      clear -Hk' Hk2. destruct t as [w k' lv|c|callee args|g lv]; cbn in *; try congruence.
      destruct Hk' as (ks1 & E1 & _), Hk2 as (ks2 & E2 & _). congruence. }
    destruct t as [w k lv|c|callee args|g lv]; cbn [alloc_bind] in H; try (apply Hnew; exact H).
    injection H as <- <-. exists kap. split; [apply grows_refl, Hwf|]. split; [apply Ht; reflexivity|]. split; [|reflexivity].
    intros k' Hk. exact Hk.
  Qed.

  Lemma map_seq_nth (s : var -> gty) (f : ty -> gty) b ts : (forall j t, nth_error ts j = Some t -> s (b + j)%nat = f t) ->
    map s (seq b (List.length ts)) = map f ts.
  Proof.
    revert b. induction ts as [|k ks IH]; intros b H; [reflexivity|]. cbn [List.length seq map]. f_equal.
    - rewrite <- (H 0%nat k eq_refl). f_equal. lia.
    - apply IH. intros j k' Hj. rewrite <- (H (S j) k' Hj). f_equal. lia.
  Qed.

  Lemma alloc_binds_ok kap p ts vs p' : wf kap p -> Forall (typed kap p) ts -> alloc_binds p ts = (vs, p') ->
    exists kap', grows kap p kap' p' /\ (forall v, In v (vars_iter vs) -> (v < len p')%nat) /\
      forall s, equations p' s -> map s (vars_iter vs) = map (interp s) ts.
  Proof.
    intros Hwf Hts H. unfold alloc_binds in H.
    assert (Hmany : (from_index_count (List.length p) (List.length ts), p ++ ts) = (vs, p') ->
      exists kap', grows kap p kap' p' /\ (forall v, In v (vars_iter vs) -> (v < len p')%nat) /\
      forall s, equations p' s -> map s (vars_iter vs) = map (interp s) ts).
    { intros H0. injection H0 as <- <-. destruct (grows_app kap p ts Hwf Hts) as (kap' & G). exists kap'. split; [exact G|].
      assert (Hit : vars_iter (from_index_count (len p) (List.length ts)) = seq (len p) (List.length ts) \/ ts = []).
      { unfold from_index_count, vars_iter. destruct (Nat.eqb_spec (List.length ts) 0) as [Hz|Hn]; [right; destruct ts; [reflexivity|discriminate]|].
        left. cbn [fst snd]. f_equal. lia. }
      destruct Hit as [Hit| ->]; [|split; [intros v []|reflexivity]]. rewrite Hit. split.
      - intros v Hv. apply in_seq in Hv. rewrite app_length. lia.
      - intros s Hs. apply map_seq_nth. intros j k Hj. apply Hs. rewrite nth_error_app2 by lia. rewrite <- Hj. f_equal. lia. }
    destruct ts as [|k [|k2 ks]]; try (apply Hmany; exact H). clear Hmany.
    destruct (alloc_bind p k) as (v & p1) eqn:Ev. injection H as <- <-. inversion_clear Hts as [|x l Hk _].
    destruct (alloc_bind_ok kap p k v p1 Hwf Hk Ev) as (kap' & H1 & H2 & _ & H3). exists kap'. split; [exact H1|].
    assert (Hit : vars_iter (v, S v) = [v]) by (unfold vars_iter; cbn [fst snd]; replace (S v - v)%nat with 1%nat by lia; reflexivity).
    rewrite Hit. split; [intros x [<-|[]]; exact H2|]. intros s Hs. cbn. rewrite (H3 s Hs). reflexivity.
  Qed.

  Lemma new_app_ok kap p callee args K t p' : wf kap p -> tbound (len p) callee -> Forall (typed kap p) args ->
    hask env kap callee K -> new_app p callee args = (t, p') ->
    (args = [] \/ exists ks ret, K = AFun ks ret) ->
    exists kap', grows kap p kap' p' /\ tbound (len p') t /\
      hask env kap' t (match args, K with _ :: _, AFun _ ret => ret | _, _ => K end) /\
      forall s, equations p' s -> interp s t = gapp (interp s callee) (map (interp s) args).
  Proof.
    intros Hwf Hb Hargs HK H Hfun. unfold new_app in H.
    destruct args as [|a args]; [injection H as <- <-; exists kap; split; [apply grows_refl, Hwf|]; split; [exact Hb|]; split; [exact HK|reflexivity]|].
    destruct Hfun as [Hfun|(ks & ret & ->)]; [discriminate|].
    remember (a :: args) as as_ eqn:Eas. destruct (alloc_bind p callee) as (v & p1) eqn:E1.
    destruct (alloc_binds p1 as_) as (vs & p2) eqn:E2. injection H as <- <-.
    destruct (alloc_bind_ok kap p callee v p1 Hwf) as (k1 & G1 & B1 & K1 & S1); [split; eauto|exact E1|].
    destruct (alloc_binds_ok k1 p1 as_ vs p2) as (k2 & G2 & B2 & S2); [apply G1| |exact E2|].
    { eapply Forall_impl; [|exact Hargs]. intros x Hx. eapply grows_typed; eauto. }
    exists k2. split; [eapply grows_trans; eauto|]. split; [|split].
    - intros j [->|Hj]; [|exact (B2 j Hj)]. destruct G2. lia.
    - exists ks. rewrite (proj1 (proj2 (proj2 G2)) v B1). split; [apply K1, HK|].
      intros Hv. destruct (canonical_exists p2 (proj1 (proj1 (proj2 G2)))) as (s & Hs & _). specialize (S2 s Hs). rewrite Hv, Eas in S2. discriminate.
    - intros s Hs. cbn [interp]. rewrite (S2 s Hs), (S1 s); [subst as_; reflexivity|]. apply G2, Hs.
  Qed.

  Lemma new_var_ok kap p k lv : wf kap p -> let p' := p ++ [YVar (len p) k lv] in
    exists kap', wf kap' p' /\ (forall i, (i < len p)%nat -> kap' i = kap i) /\ kap' (len p) = k /\
      (forall s, equations p' s <-> equations p s) /\ unresolved p' (len p) k lv /\
      (forall i k' lv', i <> len p -> (unresolved p' i k' lv' <-> unresolved p i k' lv')).
  Proof.
    intros ((Hb & Ha) & Hk) p'.
    assert (Hcase : forall i t, nth_error p' i = Some t <-> nth_error p i = Some t \/ (i = len p /\ t = YVar (len p) k lv)).
    { intros i t. split.
      - intros Ht. apply nth_error_app_case in Ht. destruct Ht as [(_ & Ht)|(Hle & Ht)]; [left; exact Ht|right].
        destruct (i - len p)%nat as [|x] eqn:E; cbn in Ht; [|destruct x; discriminate]. split; [lia|congruence].
      - unfold p'. intros [Ht|(-> & ->)]; [rewrite nth_error_app1; [exact Ht|]; apply nth_error_Some; congruence|].
        rewrite nth_error_app2 by lia. rewrite Nat.sub_diag. reflexivity. }
    assert (Hlt : forall i t, nth_error p i = Some t -> (i < len p)%nat) by (intros i t H; apply nth_error_Some; congruence).
    assert (Hlen : len p' = S (len p)) by (unfold p'; rewrite app_length; cbn; lia).
    set (kap' := fun i => if Nat.eqb i (len p) then k else kap i).
    assert (Ekap : forall i, (i < len p)%nat -> kap' i = kap i).
    { intros i Hi. unfold kap'. destruct (Nat.eqb_spec i (len p)); [lia|reflexivity]. }
    assert (Enew : kap' (len p) = k) by (unfold kap'; rewrite Nat.eqb_refl; reflexivity).
    exists kap'. split; [split; [split|]|split; [exact Ekap|split; [exact Enew|split; [|split]]]].
    - intros i t Ht j Hj. rewrite Hlen. apply Hcase in Ht. destruct Ht as [Ht|(-> & ->)]; [pose proof (Hb i t Ht j Hj); lia|cbn in Hj; lia].
    - intros i. induction (Ha i) as [i _ IH]. constructor. intros j (t & Ht & Hj & Hne). apply Hcase in Ht.
      destruct Ht as [Ht|(-> & ->)]; [|cbn in Hne; rewrite Nat.eqb_refl in Hne; discriminate]. apply IH. exists t. auto.
    - intros i t Ht. apply Hcase in Ht. destruct Ht as [Ht|(-> & ->)].
      + destruct (Hk i t Ht) as (H1 & H2). rewrite (Ekap i (Hlt i t Ht)). split; [|exact H2]. apply (hask_ext kap kap' (len p)); auto. exact (Hb i t Ht).
      + split; [reflexivity|]. intros k' lv' E. rewrite Enew. congruence.
    - intros s. split; intros Hs i t Ht; [apply Hs, Hcase; auto|]. apply Hcase in Ht. destruct Ht as [Ht|(-> & ->)]; [exact (Hs i t Ht)|reflexivity].
    - apply Hcase. auto.
    - intros i k' lv' Hi. unfold unresolved. rewrite Hcase. split; [intros [H|(H & _)]; [exact H|contradiction]|auto].
  Qed.

  (** * Substitution of type parameters *)
  Definition map_fits (kap : var -> ast_kind) (p : context) (m : gen -> option ty) : Prop :=
    forall g t, m g = Some t -> tbound (len p) t /\ hask env kap t (gen_kind env g).

  Lemma map_fits_grows kap p kap' p' m : grows kap p kap' p' -> map_fits kap p m -> map_fits kap' p' m.
  Proof.
    intros G H g t Hg. destruct (H g t Hg) as (H1 & H2). split; [eapply grows_tbound; eauto|]. eapply grows_hask; eauto.
  Qed.

  Lemma replace_ext m m' t : (forall g, m g = m' g) -> replace_gens m t = replace_gens m' t.
  Proof.
    intros H. induction t as [n k lv|c|callee args IHc IHa|g lv] using gty_ind'; cbn [replace_gens]; try reflexivity.
    - rewrite IHc. f_equal. apply map_ext_in. rewrite Forall_forall in IHa. exact IHa.
    - rewrite H. reflexivity.
  Qed.

  Lemma subst_ok m : forall n kap p s t K, wf kap p -> canonical p s -> map_fits kap p m -> tbound (len p) t -> hask env kap t K ->
    (size (interp s t) < n)%nat ->
    exists t' kap' p' s', conv (fun n => subst n p m t) (t', p') /\ grows kap p kap' p' /\ tbound (len p') t' /\ hask env kap' t' K /\
      canonical p' s' /\ (forall i, (i < len p)%nat -> s' i = s i) /\
      interp s' t' = replace_gens (fun g => option_map (interp s) (m g)) (interp s t).
  Proof.
    induction n as [|n IH]; intros kap p s t K Hwf Hc Hm Hb HK Hn; [lia|].
    destruct (resolve_ok env kap p t Hwf Hb) as (t1 & p1 & Hr & Hs1 & Hn1 & Hh1 & Hi1). specialize (Hh1 K HK).
    rewrite <- (Hi1 s (proj1 Hc)) in *. clear Hi1. pose proof Hs1 as (Hl1 & Hwf1 & Heq1 & Hun1).
    pose proof (same_canonical env kap _ _ _ Hs1 Hc) as Hc1.
    assert (G1 : grows kap p kap p1).
    { split; [lia|]. split; [exact Hwf1|]. split; [auto|]. split; [intros s0 H; apply Heq1, H|]. split; [|exact Hun1].
      intros s0 Hs0. exists s0. split; [apply Heq1, Hs0|auto]. }
    assert (Hwrap : forall body r, (forall n, subst (S n) p m t = let* r := resolve n p t in let '(t, pool) := r in body t pool n) ->
       conv (body t1 p1) r -> conv (fun n => subst n p m t) r).
    { intros body r Eb Hb'. eapply conv_step; [exact Eb|]. eapply (conv_bind (fun n => resolve n p t)); [exact Hr|]. exact Hb'. }
    destruct t1 as [v k lv|c|callee args|g lv].
    - exists (YVar v k lv), kap, p1, s. split; [eapply (Hwrap (fun t pool n => _)); [intros x; reflexivity|]; apply conv_ret|].
      split; [exact G1|]. split; [apply Hn1|]. split; [exact Hh1|]. split; [exact Hc1|]. split; [auto|].
      cbn [interp]. rewrite (proj2 Hc1 v k lv (proj2 Hn1)). reflexivity.
    - exists (YCon c), kap, p1, s. split; [eapply (Hwrap (fun t pool n => _)); [intros x; reflexivity|]; apply conv_ret|].
      split; [exact G1|]. split; [apply Hn1|]. split; [exact Hh1|]. split; [exact Hc1|]. split; [auto|]. reflexivity.
    - destruct Hh1 as (ks & Hh1 & Hne). set (M := fun g => option_map (interp s) (m g)).
      assert (Hone : forall kq q sq j, tchild (YApp callee args) j -> grows kap p kq q -> canonical q sq -> (forall i, (i < len p)%nat -> sq i = s i) ->
        exists t' kap' p' s', conv (fun n => subst n q m (at_ j)) (t', p') /\ grows kq q kap' p' /\ tbound (len p') t' /\ hask env kap' t' (kap j) /\
          canonical p' s' /\ (forall i, (i < len q)%nat -> s' i = sq i) /\ interp s' t' = replace_gens M (s j)).
      { intros kq q sq j Hj G Hcq Heq. assert (Hjl : (j < len p)%nat) by (rewrite <- Hl1; apply (proj1 Hn1), Hj).
        destruct (IH kq q sq (at_ j) (kap j)) as (t' & k' & p' & s' & H1 & H2 & H3 & H4 & H5 & H6 & H7).
        - apply G.
        - exact Hcq.
        - eapply map_fits_grows; eauto.
        - intros x ->. destruct G. lia.
        - cbn. apply (proj1 (proj2 (proj2 G))), Hjl.
        - cbn [interp at_]. rewrite Heq by exact Hjl. pose proof (interp_child_size s _ j Hj) as H. specialize (H ltac:(discriminate)). lia.
        - exists t', k', p', s'. split; [exact H1|]. split; [exact H2|]. split; [exact H3|]. split; [exact H4|]. split; [exact H5|]. split; [exact H6|].
          rewrite H7. cbn [interp at_]. rewrite (Heq j Hjl). apply replace_ext. intros g. unfold M. destruct (m g) as [u|] eqn:Eg; [|reflexivity].
          cbn. f_equal. apply interp_ext. intros x Hx. apply Heq. exact (proj1 (Hm g u Eg) x Hx). }
      assert (Hl : forall l kq q sq, incl l (vars_iter args) -> grows kap p kq q -> canonical q sq -> (forall i, (i < len p)%nat -> sq i = s i) ->
        exists ts kap' p' s', conv (fun n => map_ctx (fun pool v => subst n pool m (at_ v)) q l) (ts, p') /\ grows kq q kap' p' /\
          Forall (typed kap' p') ts /\ List.length ts = List.length l /\ canonical p' s' /\ (forall i, (i < len q)%nat -> s' i = sq i) /\
          map (interp s') ts = map (replace_gens M) (map s l)).
      { induction l as [|j l IHl]; intros kq q sq Hincl G Hcq Heq.
        - exists [], kq, q, sq. split; [apply conv_ret|]. split; [apply grows_refl; apply G|]. split; [constructor|]. split; [reflexivity|]. auto.
        - destruct (Hone kq q sq j) as (t' & k1 & q1 & s1 & A1 & A2 & A3 & A4 & A5 & A6 & A7); auto; [right; apply Hincl; left; reflexivity|].
          assert (Heq1' : forall i, (i < len p)%nat -> s1 i = s i) by (intros i Hi; rewrite A6; [apply Heq, Hi|destruct G; lia]).
          destruct (IHl k1 q1 s1) as (ts & k2 & q2 & s2 & B1 & B2 & B3 & B4 & B5 & B6 & B7);
            [intros x Hx; apply Hincl; right; exact Hx|eapply grows_trans; eauto|exact A5|exact Heq1'|].
          exists (t' :: ts), k2, q2, s2. split; [|split; [eapply grows_trans; eauto|split; [|split; [cbn; congruence|split; [exact B5|split]]]]].
          + cbn [map_ctx]. eapply (conv_bind (fun n => subst n q m (at_ j))); [exact A1|]. cbn beta iota.
            eapply (conv_bind (fun n => map_ctx (fun pool v => subst n pool m (at_ v)) q1 l)); [exact B1|]. apply conv_ret.
          + constructor; [|exact B3]. eapply grows_typed; [exact B2|]. split; eauto.
          + intros i Hi. rewrite B6; [apply A6, Hi|destruct A2; lia].
          + cbn [map]. rewrite B7, <- A7. f_equal. apply interp_ext. intros x Hx. apply B6, A3, Hx. }
      destruct (Hone kap p1 s callee (or_introl eq_refl) G1 Hc1 ltac:(auto)) as (tc & k2 & p2 & s2 & A1 & A2 & A3 & A4 & A5 & A6 & A7).
      assert (Heq2 : forall i, (i < len p)%nat -> s2 i = s i) by (intros i Hi; apply A6; lia).
      destruct (Hl (vars_iter args) k2 p2 s2 (incl_refl _) (grows_trans _ _ _ _ _ _ G1 A2) A5 Heq2)
        as (ts & k3 & p3 & s3 & B1 & B2 & B3 & B4 & B5 & B6 & B7).
      assert (HKc : hask env k3 tc (AFun ks K)) by (rewrite <- Hh1; eapply grows_hask; [exact B2|exact A3|exact A4]).
      destruct (new_app p3 tc ts) as (tf & p4) eqn:E4.
      destruct (new_app_ok k3 p3 tc ts (AFun ks K) tf p4) as (k4 & C1 & C2 & C3 & C4); auto; [apply B2|eapply grows_tbound; eauto|right; eauto|].
      destruct (grows_canonical k3 p3 k4 p4 s3 C1 B5) as (s4 & D1 & D2).
      assert (Htot : forall i, (i < len p)%nat -> s4 i = s i).
      { intros i Hi. rewrite D2, B6; [apply Heq2, Hi| |]; destruct G1, A2, B2; lia. }
      assert (Hlen3 : (len p2 <= len p3)%nat) by apply B2.
      exists tf, k4, p4, s4. split; [|split; [|split; [exact C2|split; [|split; [exact D1|split; [exact Htot|]]]]]].
      + eapply (Hwrap (fun t pool n => _)); [intros x; reflexivity|]. cbn beta iota.
        eapply (conv_bind (fun n => subst n p1 m (at_ callee))); [exact A1|]. cbn beta iota.
        eapply (conv_bind (fun n => map_ctx (fun pool v => subst n pool m (at_ v)) p2 (vars_iter args))); [exact B1|]. cbn beta iota.
        rewrite E4. apply conv_ret.
      + eapply grows_trans; [exact G1|]. eapply grows_trans; [exact A2|]. eapply grows_trans; eauto.
      + destruct ts as [|t0 ts]; [|exact C3]. exfalso. destruct (vars_iter args) as [|j l] eqn:Ev; [|discriminate].
        apply Hne. reflexivity.
      + rewrite (C4 s4 (proj1 D1)). cbn [interp]. cbn [replace_gens]. fold M.
        assert (E1 : interp s4 tc = replace_gens M (s callee)).
        { rewrite <- A7. apply interp_ext. intros x Hx. rewrite D2 by (pose proof (A3 x Hx); lia). apply B6, A3, Hx. }
        assert (E2 : map (interp s4) ts = map (replace_gens M) (map s (vars_iter args))).
        { rewrite <- B7. apply map_ext_in. intros x Hx. rewrite Forall_forall in B3. apply interp_ext. intros y Hy. apply D2. exact (proj1 (B3 x Hx) y Hy). }
        rewrite E1, E2. reflexivity.
    - cbn [interp replace_gens]. destruct (m g) as [u|] eqn:Eg.
      + exists u, kap, p1, s. destruct (Hm g u Eg) as (M1 & M2). cbn in Hh1. split; [|split; [exact G1|split; [rewrite Hl1; exact M1|split; [rewrite <- Hh1; exact M2|split; [exact Hc1|split; [auto|reflexivity]]]]]].
        eapply (Hwrap (fun t pool n => _)); [intros x; reflexivity|]. cbn beta iota. rewrite Eg. apply conv_ret.
      + exists (YGen g lv), kap, p1, s. split; [|split; [exact G1|split; [apply Hn1|split; [exact Hh1|split; [exact Hc1|split; [auto|reflexivity]]]]]].
        eapply (Hwrap (fun t pool n => _)); [intros x; reflexivity|]. cbn beta iota. rewrite Eg. apply conv_ret.
  Qed.
  (** * Importing *)
  Fixpoint term_of (t : ast_type) : gty :=
    match t with
    | ACon c => TCon c
    | AApp callee args => gapp (term_of callee) (map term_of args)
    | AGen g => TGen g top
    | ATError v => TName v AType top
    end.

  Lemma ast_type_ind' (P : ast_type -> Prop) : (forall c, P (ACon c)) -> (forall callee args, P callee -> Forall P args -> P (AApp callee args)) ->
    (forall g, P (AGen g)) -> (forall v, P (ATError v)) -> forall t, P t.
  Proof.
    intros H1 H2 H3 H4. fix IH 1. intros [c|callee args|g|v]; [apply H1| |apply H3|apply H4].
    apply H2; [apply IH|]. induction args as [|a args IHa]; constructor; [apply IH|exact IHa].
  Qed.

  Lemma ast_of_gapp c l : ast_of (gapp c l) = ast_app (ast_of c) (map ast_of l).
  Proof. destruct l; reflexivity. Qed.

  Lemma ast_of_term_of t : ast_of (term_of t) = collapse_type t.
  Proof.
    induction t as [c|callee args IHc IHa|g|v] using ast_type_ind'; cbn [term_of collapse_type]; try reflexivity.
    rewrite ast_of_gapp, IHc, map_map. f_equal. apply map_ext_in. rewrite Forall_forall in IHa. exact IHa.
  Qed.

  Lemma import_ok a : forall k, ast_type_kind env a = Some k -> forall kap p, wf kap p ->
    exists t kap' p', import p a = Ret (t, p') /\ grows kap p kap' p' /\ tbound (len p') t /\ hask env kap' t k /\
      forall s, equations p' s -> interp s t = term_of a.
  Proof.
    induction a as [c|callee args IHc IHa|g|v] using ast_type_ind'; intros k Hk kap p Hwf; cbn [ast_type_kind] in Hk.
    - injection Hk as <-. exists (YCon c), kap, p. split; [reflexivity|]. split; [apply grows_refl, Hwf|]. split; [intros j []|]. split; reflexivity.
    - destruct (forallb _ args) eqn:Hall; [|discriminate]. cbn [import].
      assert (Hck : exists K, ast_type_kind env callee = Some K /\ (args = [] \/ exists ks ret, K = AFun ks ret) /\
        k = match args, K with _ :: _, AFun _ ret => ret | _, _ => K end).
      { destruct args as [|x args]; [exists k; auto|]. destruct (ast_type_kind env callee) as [[]|]; try discriminate. injection Hk as <-. eauto 9. }
      destruct Hck as (K & HK & HF & ->). destruct (IHc K HK kap p Hwf) as (tc & k1 & p1 & E1 & G1 & B1 & K1 & S1). rewrite E1. cbn [bind].
      match goal with |- context [bind (?g p1 args) _] => set (go := g) end.
      assert (Hgo : forall kap p, wf kap p -> exists ts kap' p', go p args = Ret (ts, p') /\ grows kap p kap' p' /\ Forall (typed kap' p') ts /\
        forall s, equations p' s -> map (interp s) ts = map term_of args).
      { clear -IHa Hall. induction args as [|a args IH]; intros kap p Hwf.
        - exists [], kap, p. split; [reflexivity|]. split; [apply grows_refl, Hwf|]. split; [constructor|reflexivity].
        - inversion_clear IHa as [|x l IHa1 IHa2]. cbn [forallb] in Hall. apply andb_prop in Hall. destruct Hall as (Ha1 & Ha2).
          destruct (ast_type_kind env a) as [k|] eqn:Ek; [|discriminate].
          destruct (IHa1 k eq_refl kap p Hwf) as (t & k1 & p1 & E1 & G1 & B1 & K1 & S1).
          destruct (IH IHa2 Ha2 k1 p1) as (ts & k2 & p2 & E2 & G2 & B2 & S2); [apply G1|].
          exists (t :: ts), k2, p2. split; [|split; [eapply grows_trans; eauto|split]].
          + cbn [go]. rewrite E1. cbn [bind]. fold go. rewrite E2. reflexivity.
          + constructor; [|exact B2]. eapply grows_typed; [exact G2|]. split; eauto.
          + intros s Hs. cbn [map]. rewrite (S2 s Hs), (S1 s); [reflexivity|]. apply G2, Hs. }
      destruct (Hgo k1 p1 (proj1 (proj2 G1))) as (ts & k2 & p2 & E2 & G2 & B2 & S2). rewrite E2. cbn [bind].
      assert (Hempty : args = [] <-> ts = []).
      { destruct (canonical_exists p2 (proj1 (proj1 (proj2 G2)))) as (s & Hs & _). specialize (S2 s Hs).
        split; intros ->; [destruct ts|destruct args]; try discriminate; reflexivity. }
      destruct (new_app p2 tc ts) as (tf & p3) eqn:E3.
      destruct (new_app_ok k2 p2 tc ts K tf p3) as (k3 & G3 & B3 & K3 & S3);
        [apply G2|eapply grows_tbound; eauto|exact B2|eapply grows_hask; eauto|exact E3|rewrite <- Hempty; exact HF|].
      exists tf, k3, p3. split; [reflexivity|]. split; [eapply grows_trans; [|exact G3]; eapply grows_trans; eauto|]. split; [exact B3|]. split.
      + destruct args, ts; auto; exfalso; destruct Hempty as (X & Y); [discriminate (X eq_refl)|discriminate (Y eq_refl)].
      + intros s Hs. rewrite (S3 s Hs). cbn [term_of]. rewrite (S2 s), (S1 s); [reflexivity|apply G2, G3, Hs|apply G3, Hs].
    - injection Hk as <-. exists (YGen g top), kap, p. split; [reflexivity|]. split; [apply grows_refl, Hwf|]. split; [intros j []|]. split; reflexivity.
    - discriminate.
  Qed.

  Lemma default_exact kap p t c : wf kap p -> tbound (len p) t ->
    exists p' r, conv (fun n => default_vars env n p t (YCon c)) (p', r) /\ extends env kap p p' /\
      match r with
      | Ok => forall s0, canonical p s0 -> forall s, (equations p' s <-> equations p s /\ interp s t = fill (TCon c) (interp s0 t)) /\
          (equations p' s -> (fits env p' s <-> fits env p s))
      | Err e => e = Mismatch /\ exists v k lv, unresolved p v k lv /\ k <> con_kind env c
      end.
  Proof.
    intros Hwf Hb. destruct (equations_exists p (fun _ => TCon c) (proj1 Hwf)) as (sd & Hsd & Hud).
    destruct (default_ok env kap c (S (size (interp sd t))) p t sd Hwf Hsd Hud Hb ltac:(lia)) as (p' & r & H1 & H2 & H3).
    exists p', r. split; [exact H1|]. split; [exact H2|]. destruct r as [|e]; [|exact H3]. intros s0 Hs0 s.
    replace (fill (TCon c) (interp s0 t)) with (interp sd t); [apply H3|].
    rewrite (canonical_gsubst_t p s0 sd t (proj1 Hwf) Hs0 Hsd Hb). apply gsubst_fill. intros v (k & lv & Hv). apply Hud.
    exists k, lv. eapply canonical_leaf_t; eauto. apply Hwf.
  Qed.

  Lemma map_fits_of kap p ts m : wf kap p -> Forall (typed kap p) ts ->
    (forall g u, m g = Some u -> In u ts /\ exists p1, conv (fun n => get_kind env n p u) (gen_kind env g, p1)) -> map_fits kap p m.
  Proof.
    intros Hwf Hts H g u Hg. destruct (H g u Hg) as (Hin & p1 & Hc). rewrite Forall_forall in Hts.
    destruct (Hts u Hin) as (Hb & K & HK). split; [exact Hb|]. destruct (get_kind_exact env kap p u K Hwf Hb HK) as (p2 & Hc2 & _).
    pose proof (conv_unique _ _ _ Hc Hc2) as E. injection E as -> _. exact HK.
  Qed.

  (** * Reachable contexts *)
  Definition good (p : context) (ts : list ty) : Prop := exists kap, wf kap p /\ Forall (typed kap p) ts.

  Lemma typed_kap kap kap' p p' t : len p = len p' -> (forall i, (i < len p)%nat -> kap' i = kap i) -> typed kap p t -> typed kap' p' t.
  Proof. intros Hl He (Hb & k & Hk). split; [rewrite <- Hl; exact Hb|]. exists k. apply (hask_ext kap kap' (len p)); auto. Qed.

  Lemma extends_typed kap p p' ts : extends env kap p p' -> Forall (typed kap p) ts -> Forall (typed kap p') ts.
  Proof. intros (H & _) HF. eapply Forall_impl; [|exact HF]. intros t Ht. apply (typed_kap kap kap p p'); auto. Qed.

  Lemma good_extends kap p p' ts : wf kap p -> Forall (typed kap p) ts -> extends env kap p p' -> good p' ts.
  Proof. intros H1 H2 H3. exists kap. split; [apply H3|]. eapply extends_typed; eauto. Qed.

  Lemma typed_in kap p ts t : Forall (typed kap p) ts -> In t ts -> typed kap p t.
  Proof. rewrite Forall_forall. auto. Qed.

  Lemma reachable_good p ts : reachable env p ts -> good p ts.
  Proof.
    induction 1 as [|p ts c Hr IH|p ts g lv Hr IH|p ts k lv t p' Hr IH E|p ts callee args ks ret q t p' Hr IH Hcal Hargs Hk E
      |p ts a t p' Hr IH Ha Hc|p ts a k p' Hr IH Ha Hc|p ts a b p' r Hr IH Ha Hb Hc|p ts a b p' r Hr IH Ha Hb Hc|p ts a b p' r Hr IH Ha Hb Hc
      |p ts a lv p' Hr IH Ha Hc|p ts a lv vs p' Hr IH Ha Hc|p ts a t p' Hr IH Ha Hc
      |p ts a c p' r Hr IH Ha Hc|p ts a k t p' Hr IH Hk E|p ts m a t p' Hr IH Ha Hm Hc].
    - exists (fun _ => AType). split; [|constructor]. split; [split|].
      + intros i t Ht. destruct i; discriminate.
      + intros i. constructor. intros j (t & Ht & _). destruct i; discriminate.
      + intros i t Ht. destruct i; discriminate.
    - destruct IH as (kap & Hwf & Hts). exists kap. split; [exact Hwf|]. constructor; [|exact Hts]. split; [intros j []|]. eexists. reflexivity.
    - destruct IH as (kap & Hwf & Hts). exists kap. split; [exact Hwf|]. constructor; [|exact Hts]. split; [intros j []|]. eexists. reflexivity.
    - destruct IH as (kap & Hwf & Hts). unfold new_var in E. injection E as <- <-.
      destruct (new_var_ok kap p k lv Hwf) as (kap' & H1 & H2 & H3 & _). exists kap'. split; [exact H1|].
      assert (Hl : (len p < len (p ++ [YVar (len p) k lv]))%nat) by (rewrite app_length; cbn; lia).
      constructor.
      + split; [intros j ->; exact Hl|]. exists k. exact H3.
      + eapply Forall_impl; [|exact Hts]. intros t (Hb & K & HK). split; [intros j Hj; pose proof (Hb j Hj); lia|].
        exists K. apply (hask_ext kap kap' (len p)); auto.
    - destruct IH as (kap & Hwf & Hts). destruct (typed_in _ _ _ _ Hts Hcal) as (Hb & K & HK).
      assert (HF : args = [] \/ exists ks ret, K = AFun ks ret).
      { destruct Hk as [Hk|Hk]; [left; exact Hk|right]. destruct (get_kind_exact env kap p callee K Hwf Hb HK) as (p1 & Hc1 & _).
        pose proof (conv_unique _ _ _ Hk Hc1) as E1. injection E1 as <- _. eauto. }
      destruct (new_app_ok kap p callee args K t p' Hwf Hb) as (kap' & G & B & HKt & _); auto.
      { apply Forall_forall. intros x Hx. eapply typed_in; eauto. }
      exists kap'. split; [apply G|]. constructor; [split; eauto|]. eapply Forall_impl; [|exact Hts]. intros x Hx. eapply grows_typed; eauto.
    - destruct IH as (kap & Hwf & Hts). destruct (typed_in _ _ _ _ Hts Ha) as (Hb & K & HK).
      destruct (resolve_ok env kap p a Hwf Hb) as (t1 & p1 & Hc1 & Hs & Hn & Hk & _).
      pose proof (conv_unique _ _ _ Hc Hc1) as E. injection E as -> ->.
      exists kap. split; [apply Hs|]. constructor; [split; [apply Hn|eauto]|]. eapply extends_typed; [apply same_extends, Hs|exact Hts].
    - destruct IH as (kap & Hwf & Hts). destruct (typed_in _ _ _ _ Hts Ha) as (Hb & K & HK).
      destruct (get_kind_exact env kap p a K Hwf Hb HK) as (p1 & Hc1 & Hs).
      pose proof (conv_unique _ _ _ Hc Hc1) as E. injection E as -> ->. eapply good_extends; eauto. apply same_extends, Hs.
    - destruct IH as (kap & Hwf & Hts).
      destruct (unify_ok env kap p a b Hwf (typed_in _ _ _ _ Hts Ha) (typed_in _ _ _ _ Hts Hb)) as (p1 & r1 & Hc1 & He & _).
      pose proof (conv_unique _ _ _ Hc Hc1) as E. injection E as -> ->. eapply good_extends; eauto.
    - destruct IH as (kap & Hwf & Hts).
      destruct (match_ok env kap p a b Hwf (typed_in _ _ _ _ Hts Ha) (typed_in _ _ _ _ Hts Hb)) as (p1 & r1 & Hc1 & He & _).
      pose proof (conv_unique _ _ _ Hc Hc1) as E. injection E as -> ->. eapply good_extends; eauto.
    - destruct IH as (kap & Hwf & Hts). destruct (canonical_exists p (proj1 Hwf)) as (s0 & Hs0).
      destruct (equal_exact env kap p s0 a b Hwf Hs0 (proj1 (typed_in _ _ _ _ Hts Ha)) (proj1 (typed_in _ _ _ _ Hts Hb))) as (r1 & p1 & Hc1 & Hs & _).
      pose proof (conv_unique _ _ _ Hc Hc1) as E. injection E as -> ->. eapply good_extends; eauto. apply same_extends, Hs.
    - destruct IH as (kap & Hwf & Hts). destruct (canonical_exists p (proj1 Hwf)) as (s0 & Hs0).
      destruct (deepest_ok env kap p s0 a Hwf Hs0 (proj1 (typed_in _ _ _ _ Hts Ha))) as (lv1 & p1 & Hc1 & Hs & _).
      pose proof (conv_unique _ _ _ Hc Hc1) as E. injection E as -> ->. eapply good_extends; eauto. apply same_extends, Hs.
    - destruct IH as (kap & Hwf & Hts). destruct (canonical_exists p (proj1 Hwf)) as (s0 & Hs0).
      destruct (get_vars_ok env kap p s0 a lv Hwf Hs0 (proj1 (typed_in _ _ _ _ Hts Ha))) as (vs1 & p1 & Hc1 & Hs & _).
      pose proof (conv_unique _ _ _ Hc Hc1) as E. injection E as -> ->. eapply good_extends; eauto. apply same_extends, Hs.
    - destruct IH as (kap & Hwf & Hts). destruct (canonical_exists p (proj1 Hwf)) as (s0 & Hs0).
      destruct (export_exact env kap p s0 a Hwf Hs0 (proj1 (typed_in _ _ _ _ Hts Ha))) as (p1 & Hc1 & Hs).
      pose proof (conv_unique _ _ _ Hc Hc1) as E. injection E as -> ->. eapply good_extends; eauto. apply same_extends, Hs.
    - destruct IH as (kap & Hwf & Hts).
      destruct (default_exact kap p a c Hwf (proj1 (typed_in _ _ _ _ Hts Ha))) as (p1 & r1 & Hc1 & Hs & _).
      pose proof (conv_unique _ _ _ Hc Hc1) as E. injection E as -> ->. eapply good_extends; eauto.
    - destruct IH as (kap & Hwf & Hts). destruct (import_ok a k Hk kap p Hwf) as (t1 & kap' & p1 & E1 & G & B & HK & _).
      rewrite E in E1. injection E1 as -> ->. exists kap'. split; [apply G|]. constructor; [split; eauto|].
      eapply Forall_impl; [|exact Hts]. intros x Hx. eapply grows_typed; eauto.
    - destruct IH as (kap & Hwf & Hts). destruct (canonical_exists p (proj1 Hwf)) as (s0 & Hs0). destruct (typed_in _ _ _ _ Hts Ha) as (Hb & K & HK).
      assert (Hmf : map_fits kap p m) by (eapply map_fits_of; eauto).
      destruct (subst_ok m (S (size (interp s0 a))) kap p s0 a K Hwf Hs0 Hmf Hb HK ltac:(lia)) as (t1 & kap' & p1 & s' & Hc1 & G & B & HK' & _).
      pose proof (conv_unique _ _ _ Hc Hc1) as E. injection E as -> ->. exists kap'. split; [apply G|]. constructor; [split; eauto|].
      eapply Forall_impl; [|exact Hts]. intros x Hx. eapply grows_typed; eauto.
  Qed.

End Reach.
