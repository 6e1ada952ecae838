(** What the sort by dependencies gives, in terms of the values sorted. *)
From Verif.Base Require Import Base Vec.
From Verif.Topo Require Model Spec.
From Coq Require Import Permutation Relations.
Import ListNotations.

Section Sort.
  Context {K V : Type} (key : V -> K) (deps : V -> list K).

  (** [v] needs [w], both among [vs]. *)
  Definition needs (vs : list V) (v w : V) : Prop := In v vs /\ In w vs /\ In (key w) (deps v).
  Definition needs_all (vs : list V) : V -> V -> Prop := clos_refl_trans V (needs vs).

  Record ordered (vs : list V) (groups : list (list V)) : Prop := {
    ord_all : Permutation (List.concat groups) vs;
    ord_nonempty : Forall (fun g => g <> []) groups;
    ord_class : forall g v w, In g groups -> In v g -> In w vs -> (In w g <-> needs_all vs v w /\ needs_all vs w v);
    ord_before : forall A g B v w, groups = A ++ g :: B -> In v g -> needs_all vs v w -> In w (List.concat (A ++ [g])) }.

  Lemma data_nth vs i k v : nth_error (map (fun v => (key v, v)) vs) i = Some (k, v) <-> nth_error vs i = Some v /\ k = key v.
  Proof.
    rewrite nth_error_map. destruct (nth_error vs i) as [x|]; cbn; split; [intros H|intros [H E]|intros H|intros [H E]]; try discriminate.
    - injection H as <- <-. auto.
    - injection H as ->. now subst.
  Qed.

  Lemma Forall2_nth {A B} (R : A -> B -> Prop) l l' : Forall2 R l l' -> forall i a, nth_error l i = Some a -> exists b, nth_error l' i = Some b /\ R a b.
  Proof. induction 1; intros [|i] a' E; cbn in *; try discriminate; [injection E as <-; eauto|eauto]. Qed.

  Lemma Forall2_nth' {A B} (R : A -> B -> Prop) l l' : Forall2 R l l' -> forall i b, nth_error l' i = Some b -> exists a, nth_error l i = Some a /\ R a b.
  Proof. induction 1; intros [|i] a' E; cbn in *; try discriminate; [injection E as <-; eauto|eauto]. Qed.

  Lemma NoDup_index {A} (l : list A) i j x : NoDup l -> nth_error l i = Some x -> nth_error l j = Some x -> i = j.
  Proof.
    intros Hn Hi Hj. apply (proj1 (NoDup_nth_error l) Hn); [|congruence].
    apply nth_error_Some. congruence.
  Qed.

  Lemma map_some_perm {A} (l l' : list A) : Permutation (map Some l) (map Some l') -> Permutation l l'.
  Proof.
    intros H. apply Permutation_sym in H. destruct (Permutation_map_inv _ _ H) as (l3 & E & P).
    assert (Hinj : forall a b : list A, map Some a = map Some b -> a = b).
    { induction a as [|x a IH]; intros [|y b] Eq; cbn in Eq; try discriminate; [reflexivity|]. injection Eq as -> Eq. f_equal. auto. }
    apply Hinj in E. subst l3. now apply Permutation_sym.
  Qed.

  Lemma seq_nth_error {A} (l : list A) : map (nth_error l) (List.seq 0 (List.length l)) = map Some l.
  Proof.
    induction l as [|a l IH]; [reflexivity|]. cbn. f_equal. rewrite <- seq_shift, map_map. exact IH.
  Qed.

  Lemma reaches_needs vs i j : Topo.Spec.reaches deps (map (fun v => (key v, v)) vs) i j ->
    forall v w, nth_error vs i = Some v -> nth_error vs j = Some w -> needs_all vs v w.
  Proof.
    induction 1 as [|j k Hr IH Hd]; intros v w Hv Hw.
    - rewrite Hv in Hw. injection Hw as <-. apply rt_refl.
    - destruct Hd as (kj & vj & kk & vk & Hj & Hk & Hin).
      apply data_nth in Hj, Hk. destruct Hj as [Hj Ej], Hk as [Hk Ek]. subst kk.
      rewrite Hw in Hk. injection Hk as <-.
      eapply rt_trans; [exact (IH v vj Hv Hj)|]. apply rt_step.
      split; [eapply nth_error_In; eassumption|split; [eapply nth_error_In; eassumption|exact Hin]].
  Qed.

  Lemma needs_reaches vs v w : NoDup vs -> needs_all vs v w ->
    forall i j, nth_error vs i = Some v -> nth_error vs j = Some w -> Topo.Spec.reaches deps (map (fun v => (key v, v)) vs) i j.
  Proof.
    intros Hn H. apply clos_rt_rtn1 in H. induction H as [|x y Hs Hr IH]; intros i j Hv Hw.
    - rewrite (NoDup_index vs i j v Hn Hv Hw). apply Topo.Spec.reaches_refl.
    - destruct Hs as (Hx & Hy & Hin). destruct (In_nth_error _ _ Hx) as [k Hk].
      eapply Topo.Spec.reaches_step; [exact (IH i k Hv Hk)|].
      exists (key x), x, (key y), y. split; [apply data_nth; auto|split; [apply data_nth; auto|exact Hin]].
  Qed.

  Lemma NoDup_app_l {A} (l l' : list A) : NoDup (l ++ l') -> NoDup l.
  Proof.
    induction l as [|x l IH]; intros H; [constructor|]. cbn in H. apply NoDup_cons_iff in H. destruct H as [H1 H2].
    constructor; [|auto]. intros Hx. apply H1, in_or_app. now left.
  Qed.

  Lemma nth_middle_eq {A} (X : list A) g B : nth_error (X ++ g :: B) (List.length X) = Some g.
  Proof. rewrite nth_error_app2 by lia. now rewrite Nat.sub_diag. Qed.

  Lemma sorted_ordered vs groups : NoDup (map key vs) ->
    Topo.Spec.sorted_by_dependencies deps (map (fun v => (key v, v)) vs) groups -> ordered vs groups.
  Proof.
    intros Hk (pos & Hpos & Hperm & Hsort & Hab). pose proof (NoDup_map_inv _ _ Hk) as Hn.
    rewrite map_length in Hperm.
    assert (Hin1 : forall a g v, nth_error groups a = Some g -> In v g -> exists i, Topo.Spec.in_group pos a i /\ nth_error vs i = Some v).
    { intros a g v Ha Hv. destruct (Forall2_nth _ _ _ Hpos a g Ha) as (p & Hp & HF).
      destruct (In_nth_error _ _ Hv) as [n Hnv]. destruct (Forall2_nth _ _ _ HF n v Hnv) as (i & Hi & k & E).
      apply data_nth in E. exists i. split; [|tauto]. exists p. split; [exact Hp|eapply nth_error_In; exact Hi]. }
    assert (Hin2 : forall a i, Topo.Spec.in_group pos a i -> exists g v, nth_error groups a = Some g /\ In v g /\ nth_error vs i = Some v).
    { intros a i (p & Hp & Hi). destruct (Forall2_nth' _ _ _ Hpos a p Hp) as (g & Hg & HF).
      destruct (In_nth_error _ _ Hi) as [n Hni]. destruct (Forall2_nth' _ _ _ HF n i Hni) as (v & Hv & k & E).
      apply data_nth in E. exists g, v. split; [exact Hg|]. split; [eapply nth_error_In; exact Hv|tauto]. }
    assert (Hconcat : map Some (List.concat groups) = map (nth_error vs) (List.concat pos)).
    { clear - Hpos. induction Hpos as [|g p gs ps HF _ IH]; [reflexivity|]. cbn. rewrite !map_app, IH. f_equal.
      clear - HF. induction HF as [|v i g p (k & E) _ IH]; [reflexivity|]. cbn. apply data_nth in E. destruct E as [-> _]. now rewrite IH. }
    assert (Hall : Permutation (List.concat groups) vs).
    { apply map_some_perm. rewrite Hconcat, <- seq_nth_error. now apply Permutation_map. }
    assert (Hidx : forall w j, nth_error vs j = Some w -> exists b, Topo.Spec.in_group pos b j).
    { intros w j Hj. assert (Hc : In j (List.concat pos)).
      { eapply Permutation_in; [apply Permutation_sym; exact Hperm|]. apply in_seq. split; [lia|].
        apply nth_error_Some. congruence. }
      apply in_concat in Hc. destruct Hc as (p & Hp & Hjp). destruct (In_nth_error _ _ Hp) as [b Hb]. exists b, p. auto. }
    constructor.
    - exact Hall.
    - clear - Hpos Hsort. induction Hpos as [|g p gs ps HF _ IH]; [constructor|].
      constructor; [|exact (IH (Forall_inv_tail Hsort))].
      destruct (Forall_inv Hsort) as [Hne _]. intros ->. inversion HF; subst. now apply Hne.
    - intros g v w Hg Hv Hw. destruct (In_nth_error _ _ Hg) as [a Ha].
      destruct (Hin1 a g v Ha Hv) as (i & Hi & Ei). destruct (In_nth_error _ _ Hw) as [j Ej].
      split.
      + intros Hwg. destruct (Hin1 a g w Ha Hwg) as (j' & Hj' & Ej').
        destruct (proj1 (proj1 (Hab a a i j' Hi Hj')) eq_refl) as [R1 R2].
        split; [exact (reaches_needs vs i j' R1 v w Ei Ej')|exact (reaches_needs vs j' i R2 w v Ej' Ei)].
      + intros [R1 R2]. destruct (Hidx w j Ej) as [b Hb].
        assert (a = b) as <-.
        { apply (proj1 (Hab a b i j Hi Hb)). split; [exact (needs_reaches vs v w Hn R1 i j Ei Ej)|exact (needs_reaches vs w v Hn R2 j i Ej Ei)]. }
        destruct (Hin2 a j Hb) as (g' & w' & Hg' & Hw' & Ew'). rewrite Ej in Ew'. injection Ew' as <-.
        rewrite Ha in Hg'. injection Hg' as <-. exact Hw'.
    - intros A g B v w E Hv Hneeds. subst groups. apply clos_rt_rtn1 in Hneeds.
      induction Hneeds as [|x y Hs Hr IH].
      + rewrite concat_app. cbn. rewrite app_nil_r. apply in_or_app. now right.
      + destruct Hs as (Hx & Hy & Hin). apply in_concat in IH. destruct IH as (g' & Hg' & Hxg').
        destruct (In_nth_error _ _ Hg') as [a Ha].
        assert (Hlt : (a < List.length (A ++ [g]))%nat) by (apply nth_error_Some; congruence).
        assert (Ha' : nth_error (A ++ g :: B) a = Some g').
        { replace (A ++ g :: B) with ((A ++ [g]) ++ B) by (rewrite <- app_assoc; reflexivity).
          rewrite nth_error_app1; assumption. }
        destruct (Hin1 a g' x Ha' Hxg') as (i & Hi & Ei).
        destruct (In_nth_error _ _ Hy) as [j Ej]. destruct (Hidx y j Ej) as [b Hb].
        assert (Hle : (b <= a)%nat).
        { apply (proj2 (Hab a b i j Hi Hb)). exists (key x), x, (key y), y.
          split; [apply data_nth; auto|split; [apply data_nth; auto|exact Hin]]. }
        destruct (Hin2 b j Hb) as (g2 & y2 & Hg2 & Hy2 & Ey2). rewrite Ej in Ey2. injection Ey2 as <-.
        apply in_concat. exists g2. split; [|exact Hy2]. apply nth_error_In with (n := b).
        replace (A ++ g :: B) with ((A ++ [g]) ++ B) in Hg2 by (rewrite <- app_assoc; reflexivity).
        rewrite nth_error_app1 in Hg2 by lia. exact Hg2.
  Qed.

  (** Two sorts of the same values give the same groups. *)
  Lemma classes_unique (M : V -> V -> Prop) groups : forall groups' us, NoDup us ->
    Permutation (List.concat groups) us -> Permutation (List.concat groups') us ->
    Forall (fun g => g <> []) groups -> Forall (fun g => g <> []) groups' ->
    (forall g v w, In g groups -> In v g -> In w us -> (In w g <-> M v w)) ->
    (forall g v w, In g groups' -> In v g -> In w us -> (In w g <-> M v w)) ->
    exists l, Permutation groups' l /\ Forall2 (@Permutation V) groups l.
  Proof.
    induction groups as [|g groups IH]; intros groups' us Hn P P' Hne Hne' HM HM'.
    - apply Permutation_nil in P. subst us. apply Permutation_sym in P'. apply Permutation_nil in P'.
      destruct groups' as [|g' groups']; [exists []; auto|]. exfalso.
      destruct g' as [|x g']; [exact (Forall_inv Hne' eq_refl)|discriminate P'].
    - destruct g as [|v g]; [exfalso; exact (Forall_inv Hne eq_refl)|].
      assert (Hv : In v us) by (eapply Permutation_in; [exact P|cbn; auto]).
      assert (Hv' : In v (List.concat groups')) by (eapply Permutation_in; [apply Permutation_sym; exact P'|exact Hv]).
      apply in_concat in Hv'. destruct Hv' as (g' & Hg' & Hvg'). destruct (in_split _ _ Hg') as (A & B & ->).
      rewrite concat_app in P'. cbn [List.concat] in P, P'.
      pose proof (Permutation_NoDup (Permutation_sym P) Hn) as Hn1.
      assert (P2 : Permutation (g' ++ List.concat (A ++ B)) us).
      { etransitivity; [|exact P']. rewrite concat_app. rewrite !app_assoc. apply Permutation_app_tail, Permutation_app_comm. }
      pose proof (Permutation_NoDup (Permutation_sym P2) Hn) as Hn2.
      assert (Hgg : Permutation (v :: g) g').
      { apply NoDup_Permutation.
        - exact (NoDup_app_l _ _ Hn1).
        - exact (NoDup_app_l _ _ Hn2).
        - intros x. split; intros Hx.
          + assert (Hxu : In x us) by (eapply Permutation_in; [exact P|apply in_or_app; auto]).
            apply (HM' g' v x Hg' Hvg' Hxu). apply (HM (v :: g) v x); [left; reflexivity|left; reflexivity|exact Hxu|exact Hx].
          + assert (Hxu : In x us) by (eapply Permutation_in; [exact P2|apply in_or_app; auto]).
            apply (HM (v :: g) v x); [left; reflexivity|left; reflexivity|exact Hxu|]. apply (HM' g' v x Hg' Hvg' Hxu). exact Hx. }
      assert (P3 : Permutation (List.concat (A ++ B)) (List.concat groups)).
      { eapply Permutation_app_inv_l with (l := g'). etransitivity; [exact P2|]. etransitivity; [apply Permutation_sym; exact P|].
        apply Permutation_app_tail. exact Hgg. }
      destruct (IH (A ++ B) (List.concat groups)) as (l & Pl & Fl).
      + clear - Hn1. induction (v :: g) as [|x t IHt]; [exact Hn1|]. cbn in Hn1. apply NoDup_cons_iff in Hn1. tauto.
      + reflexivity.
      + exact P3.
      + exact (Forall_inv_tail Hne).
      + apply Forall_app in Hne'. destruct Hne' as [H1 H2]. apply Forall_app. split; [exact H1|exact (Forall_inv_tail H2)].
      + intros g0 v0 w Hg0 Hv0 Hw. apply HM; [right; exact Hg0|exact Hv0|]. eapply Permutation_in; [exact P|apply in_or_app; auto].
      + intros g0 v0 w Hg0 Hv0 Hw. apply HM'; [apply in_app_or in Hg0; apply in_or_app; destruct Hg0; [left|right; right]; assumption|exact Hv0|].
        eapply Permutation_in; [exact P|apply in_or_app; auto].
      + exists (g' :: l). split; [|constructor; assumption].
        etransitivity; [apply Permutation_sym, Permutation_middle|]. now constructor.
  Qed.

  Lemma needs_all_perm vs vs' v w : (forall x, In x vs <-> In x vs') -> needs_all vs v w -> needs_all vs' v w.
  Proof.
    intros H. induction 1 as [x y (Hx & Hy & Hin)|x|x y z _ I1 _ I2]; [apply rt_step|apply rt_refl|eapply rt_trans; eassumption].
    split; [now apply H|split; [now apply H|exact Hin]].
  Qed.

  Lemma ordered_unique vs vs' groups groups' : NoDup vs -> Permutation vs vs' -> ordered vs groups -> ordered vs' groups' ->
    exists l, Permutation groups l /\ Forall2 (@Permutation V) l groups'.
  Proof.
    intros Hn P [a1 b1 c1 d1] [a2 b2 c2 d2].
    assert (Hin : forall x, In x vs <-> In x vs') by (intros x; split; apply Permutation_in; [|apply Permutation_sym]; exact P).
    destruct (classes_unique (fun v w => needs_all vs v w /\ needs_all vs w v) groups' groups vs Hn) as (l & Pl & Fl).
    - etransitivity; [exact a2|]. now apply Permutation_sym.
    - exact a1.
    - exact b2.
    - exact b1.
    - intros g v w Hg Hv Hw. rewrite (c2 g v w Hg Hv (proj1 (Hin w) Hw)).
      split; intros [R1 R2]; split; (eapply needs_all_perm; [|eassumption]); intros x; rewrite Hin; reflexivity.
    - exact c1.
    - exists l. split; [exact Pl|]. clear - Fl. induction Fl; constructor; auto using Permutation_sym.
  Qed.
End Sort.
