From Verif.Base Require Import BaseFacts VecFacts.
From Verif.Topo Require Import Model Spec ProofsTarjan.
Open Scope Z_scope.

(** * Keys *)
Section Keys.
  Context {K V : Type} (eqb : K -> K -> bool) (Heq : forall x y, eqb x y = true <-> x = y).

  Lemma eqb_spec x y : reflect (x = y) (eqb x y).
  Proof. apply iff_reflect. symmetry. apply Heq. Qed.

  Lemma key_insert_new m k i : ~ In k (map fst m) -> key_insert eqb m k i = m ++ [(k, i)].
  Proof.
    induction m as [|[k' j] m IH]; cbn; [reflexivity|]. intros H. destruct (eqb_spec k k') as [->|]; [tauto|].
    rewrite IH by tauto. reflexivity.
  Qed.

  Fixpoint numbered (i : nat) (data : list (K * V)) : @key_map K :=
    match data with [] => [] | (k, _) :: data => (k, i) :: numbered (S i) data end.

  Lemma numbered_keys i data : map fst (numbered i data) = map fst data.
  Proof. revert i. induction data as [|[k v] data IH]; intros i; cbn; [reflexivity|]. rewrite IH. reflexivity. Qed.

  Lemma build_keys_numbered data : forall i m, NoDup (map fst m ++ map fst data) -> build_keys eqb i data m = m ++ numbered i data.
  Proof.
    induction data as [|[k v] data IH]; intros i m Hnd; cbn [build_keys numbered map fst] in *.
    - rewrite app_nil_r. reflexivity.
    - rewrite key_insert_new.
      + rewrite IH, <- app_assoc; [reflexivity|]. rewrite map_app, <- app_assoc. exact Hnd.
      + apply NoDup_remove_2 in Hnd. intros H. apply Hnd, in_or_app. left; assumption.
  Qed.

  Lemma key_get_numbered data : forall i k j, NoDup (map fst data) ->
    (key_get eqb (numbered i data) k = Some j <-> (i <= j)%nat /\ exists v, nth_error data (j - i) = Some (k, v)).
  Proof.
    induction data as [|[k' v'] data IH]; intros i k j Hnd; cbn [numbered key_get].
    - split; [discriminate|]. intros (_ & v & H). destruct (j - i)%nat; discriminate.
    - cbn in Hnd. inversion Hnd as [|? ? Hni Hnd']; subst. destruct (eqb_spec k k') as [->|Hne].
      + split.
        * intros H; injection H as <-. split; [lia|]. rewrite Nat.sub_diag. exists v'. reflexivity.
        * intros (Hle & v & H). destruct (j - i)%nat as [|d] eqn:Ed; [f_equal; lia|]. cbn in H. exfalso. apply Hni.
          apply nth_error_In in H. apply (in_map fst) in H. exact H.
      + rewrite IH by assumption. split.
        * intros (Hle & v & H). split; [lia|]. exists v. replace (j - i)%nat with (S (j - S i)) by lia. exact H.
        * intros (Hle & v & H). destruct (j - i)%nat as [|d] eqn:Ed; cbn in H; [congruence|]. split; [lia|]. exists v.
          replace (j - S i)%nat with d by lia. assumption.
  Qed.
End Keys.

(** * Groups *)
Section Groups.
  Lemma groups_insert (a x : nat) (g : nat -> list nat) L : NoDup L -> In a L ->
    Permutation (List.concat (map (fun s => if Nat.eqb a s then x :: g s else g s) L)) (x :: List.concat (map g L)).
  Proof.
    assert (Hno : forall L, ~ In a L -> map (fun s => if Nat.eqb a s then x :: g s else g s) L = map g L).
    { intros L' H. apply map_ext_in. intros s Hs. destruct (Nat.eqb_spec a s) as [<-|]; [contradiction|reflexivity]. }
    induction L as [|s L IH]; intros Hnd Hin; [destruct Hin|]. inversion Hnd as [|? ? Hni Hnd']; subst. cbn [map List.concat].
    destruct (Nat.eqb_spec a s) as [->|Hne].
    - rewrite Hno by assumption. reflexivity.
    - destruct Hin as [->|Hin]; [contradiction|]. rewrite IH by assumption. symmetry. apply Permutation_middle.
  Qed.

  Lemma groups_permutation (f : nat -> nat) m l : (forall x, In x l -> (f x < m)%nat) ->
    Permutation (List.concat (map (fun s => filter (fun x => Nat.eqb (f x) s) l) (seq 0 m))) l.
  Proof.
    induction l as [|x l IH]; intros H.
    - clear H. assert (E0 : forall k, List.concat (map (fun _ => []) (seq k m)) = @nil nat).
      { induction m as [|m IH]; intros k; cbn; [reflexivity|]. apply IH. }
      cbn. rewrite E0. constructor.
    - cbn [filter]. etransitivity; [apply (groups_insert (f x) x (fun s => filter (fun y => Nat.eqb (f y) s) l))|].
      + apply seq_NoDup.
      + apply in_seq. specialize (H x (or_introl eq_refl)). lia.
      + constructor. apply IH. intros y Hy. apply H. right; assumption.
  Qed.

  Lemma filter_sorted (p : nat -> bool) o n : StronglySorted lt (filter p (seq o n)).
  Proof.
    revert o. induction n as [|n IH]; intros o; cbn [seq filter]; [constructor|]. destruct (p o); [|apply IH].
    constructor; [apply IH|]. apply Forall_forall. intros x Hx. apply filter_In in Hx as [Hx _]. apply in_seq in Hx. lia.
  Qed.

  Context {V : Type}.

  Lemma distribute_ok (vs : list V) : forall sccs result, List.length sccs = List.length vs ->
    (forall s, In s sccs -> 0 <= s < Z.of_nat (List.length result)) ->
    exists result', distribute vs sccs result = Ret result' /\ List.length result' = List.length result /\
      forall s, (s < List.length result)%nat ->
        nth s result' [] = nth s result [] ++ map fst (filter (fun p => Z.eqb (snd p) (Z.of_nat s)) (combine vs sccs)).
  Proof.
    induction vs as [|v vs IH]; intros [|s sccs] result Hl Hb; cbn in Hl; try discriminate; cbn [distribute].
    - exists result. split; [reflexivity|]. split; [reflexivity|]. intros. cbn. rewrite app_nil_r. reflexivity.
    - pose proof (Hb s (or_introl eq_refl)) as Hs. destruct (Z.ltb_spec s 0); [lia|].
      rewrite (vget_nth result (Z.to_nat s) []) by lia. cbn [bind].
      destruct (vset_ok result (Z.to_nat s) (nth (Z.to_nat s) result [] ++ [v])) as (r1 & -> & L1 & N1); [lia|]. cbn [bind].
      destruct (IH sccs r1) as (r2 & E2 & L2 & N2); [congruence|intros s' Hs'; rewrite L1; apply Hb; right; assumption|].
      exists r2. split; [assumption|]. split; [congruence|]. intros s' Hs'. rewrite N2 by lia. rewrite N1.
      cbn [combine filter snd]. destruct (Nat.eqb_spec (Z.to_nat s) s') as [<-|Hne].
      + rewrite Z2Nat.id by lia. rewrite Z.eqb_refl. cbn [map fst]. rewrite <- app_assoc. reflexivity.
      + destruct (Z.eqb_spec s (Z.of_nat s')); [lia|]. reflexivity.
  Qed.

  Lemma group_positions {K} (f : nat -> Z) s (all : list (K * V)) : forall data o,
    (forall i, (i < List.length data)%nat -> nth_error all (o + i) = nth_error data i) ->
    Forall2 (fun v i => exists k, nth_error all i = Some (k, v))
      (map fst (filter (fun p => Z.eqb (snd p) s) (combine (map snd data) (map f (seq o (List.length data))))))
      (filter (fun x => Z.eqb (f x) s) (seq o (List.length data))).
  Proof.
    induction data as [|[k v] data IH]; intros o H; cbn [map combine seq List.length filter]; [constructor|]. cbn [snd].
    assert (IH' : Forall2 (fun v i => exists k, nth_error all i = Some (k, v))
      (map fst (filter (fun p => Z.eqb (snd p) s) (combine (map snd data) (map f (seq (S o) (List.length data))))))
      (filter (fun x => Z.eqb (f x) s) (seq (S o) (List.length data)))).
    { apply IH. intros i Hi. specialize (H (S i)). cbn in H. rewrite <- plus_n_Sm in H. apply H. lia. }
    destruct (f o =? s); [|assumption]. cbn [map fst]. constructor; [|assumption].
    exists k. specialize (H 0%nat). rewrite Nat.add_0_r in H. apply H. cbn. lia.
  Qed.
End Groups.

Section Main.
  Context {K V : Type} (eqb : K -> K -> bool) (deps : V -> list K) (Heq : forall x y, eqb x y = true <-> x = y).

  Lemma nth_ext_eq {A} (l : list A) d f : (forall i, (i < List.length l)%nat -> nth i l d = f i) -> l = map f (seq 0 (List.length l)).
  Proof.
    intros H. apply (nth_ext _ _ d (f 0%nat)); [rewrite map_length, seq_length; reflexivity|]. intros i Hi.
    rewrite H by assumption. rewrite (map_nth f), seq_nth by assumption. reflexivity.
  Qed.

  Lemma Forall2_nth_intro {A B} (P : A -> B -> Prop) la lb da db : List.length la = List.length lb ->
    (forall i, (i < List.length la)%nat -> P (nth i la da) (nth i lb db)) -> Forall2 P la lb.
  Proof.
    revert lb. induction la as [|a la IH]; intros [|b lb] Hl H; cbn in Hl; try discriminate; constructor.
    - apply (H 0%nat). cbn; lia.
    - apply IH; [congruence|]. intros i Hi. apply (H (S i)). cbn; lia.
  Qed.

  Lemma run_sorts data : NoDup (map fst data) -> exists groups, run eqb deps data = Ret groups /\ sorted_by_dependencies deps data groups.
  Proof.
    intros Hnd. unfold run. rewrite build_keys_numbered by assumption. cbn [app].
    set (keys := numbered 0 data). set (values := map snd data).
    assert (Hlen : List.length values = List.length data) by apply map_length.
    assert (Hlk : List.length keys = List.length values).
    { unfold keys. rewrite <- (map_length fst), numbered_keys, map_length. congruence. }
    assert (Hkg : forall k j, key_get eqb keys k = Some j <-> exists v, nth_error data j = Some (k, v)).
    { intros k j. unfold keys. rewrite key_get_numbered by assumption. rewrite Nat.sub_0_r. split; [intros [_ H]; assumption|]. intros H; split; [lia|assumption]. }
    assert (Hb : forall k j, key_get eqb keys k = Some j -> (j < List.length values)%nat).
    { intros k j H. apply Hkg in H as (v & H). rewrite Hlen. apply nth_error_Some. congruence. }
    destruct (tarjan_ok eqb deps keys values Hb) as (st & E1 & L1 & Hns & Hd & Htopo & Hexact & Hinh).
    rewrite Hlk, <- Hlen. unfold init in E1. rewrite E1. cbn [bind].
    set (m := Z.to_nat (next_scc_index st)).
    destruct (distribute_ok values (scc_indices st) (repeat [] m)) as (groups & E2 & L2 & N2).
    { assumption. }
    { intros s Hs. rewrite repeat_length. apply (In_nth _ _ (-1)) in Hs as (x & Hx & <-). fold (scc st x). rewrite L1 in Hx. specialize (Hd x Hx). lia. }
    exists groups. split; [assumption|]. rewrite repeat_length in *.
    assert (HE : forall i j, depends deps data i j <-> E eqb deps keys values i j).
    { intros i j. split.
      - intros (ki & vi & kj & vj & Hi & Hj & Hin). exists vi, kj. split; [|split; [assumption|apply Hkg; eauto]].
        unfold values. rewrite nth_error_map, Hi. reflexivity.
      - intros (v & k & Hv & Hin & Hk). apply Hkg in Hk as (vj & Hj). unfold values in Hv. rewrite nth_error_map in Hv.
        destruct (nth_error data i) as [[ki vi]|] eqn:Ei; [|discriminate]. injection Hv as <-. exists ki, vi, k, vj. auto. }
    assert (HR : forall i j, reaches deps data i j <-> R eqb deps keys values i j).
    { intros i j. split; intros H; induction H as [|a b _ IH Hab]; try constructor.
      - eapply R_step; [exact IH|apply HE; assumption].
      - eapply reaches_step; [exact IH|apply HE; assumption]. }
    set (g := fun s => filter (fun x => Z.eqb (scc st x) (Z.of_nat s)) (seq 0 (List.length data))).
    exists (map g (seq 0 m)).
    assert (Hg : forall s x, In x (g s) <-> (x < List.length data)%nat /\ scc st x = Z.of_nat s).
    { intros s x. unfold g. rewrite filter_In, in_seq, Z.eqb_eq. lia. }
    assert (Hing : forall a i, in_group (map g (seq 0 m)) a i <-> (i < List.length data)%nat /\ scc st i = Z.of_nat a).
    { intros a i. unfold in_group. split.
      - intros (l & Hl & Hi). rewrite nth_error_map in Hl. destruct (nth_error (seq 0 m) a) as [s|] eqn:Es; [|discriminate].
        injection Hl as <-. assert (s = a) as ->; [|apply Hg; assumption].
        assert (Ha : (a < m)%nat) by (rewrite <- (seq_length m 0); apply nth_error_Some; congruence).
        apply (nth_error_nth _ _ 0%nat) in Es. rewrite seq_nth in Es by assumption. lia.
      - intros [Hi Hs]. exists (g a). split; [|apply Hg; auto]. rewrite nth_error_map.
        assert (Ha : (a < m)%nat) by (rewrite <- Hlen in Hi; specialize (Hd i Hi); lia).
        rewrite (nth_error_nth' (seq 0 m) 0%nat) by (rewrite seq_length; assumption). rewrite seq_nth by assumption. reflexivity. }
    split; [|split; [|split]].
    - unfold positions. apply (Forall2_nth_intro _ _ _ [] []); [rewrite map_length, seq_length; assumption|].
      intros s Hs. rewrite L2 in Hs. rewrite N2 by assumption.
      replace (nth s (repeat [] m) []) with (@nil V) by (clear; revert s; induction m as [|k IH]; intros [|s]; cbn; auto).
      rewrite (nth_indep _ [] (g 0%nat)) by (rewrite map_length, seq_length; assumption). rewrite (map_nth g), seq_nth by assumption.
      cbn [app plus]. unfold g. rewrite (nth_ext_eq (scc_indices st) (-1) (scc st)) by reflexivity. rewrite L1, Hlen. unfold values.
      apply group_positions. reflexivity.
    - assert (Eg : map g (seq 0 m) = map (fun s => filter (fun x => Nat.eqb (Z.to_nat (scc st x)) s) (seq 0 (List.length data))) (seq 0 m)).
      { apply map_ext. intros s. unfold g. apply filter_ext_in. intros x Hx. apply in_seq in Hx. rewrite <- Hlen in Hx. specialize (Hd x (proj2 Hx)).
        destruct (Z.eqb_spec (scc st x) (Z.of_nat s)), (Nat.eqb_spec (Z.to_nat (scc st x)) s); lia. }
      rewrite Eg. apply groups_permutation. intros x Hx. apply in_seq in Hx. rewrite <- Hlen in Hx. specialize (Hd x (proj2 Hx)). lia.
    - apply Forall_forall. intros l Hl. apply in_map_iff in Hl as (s & <- & Hs). apply in_seq in Hs. split.
      + destruct (Hinh (Z.of_nat s)) as (x & Hx & Hxs); [lia|]. intros Hnil. assert (Hx' : In x (g s)) by (apply Hg; rewrite <- Hlen; auto).
        rewrite Hnil in Hx'. destruct Hx'.
      + apply filter_sorted.
    - intros a b i j Ha Hb'. apply Hing in Ha as [Hi Ha], Hb' as [Hj Hb']. rewrite <- Hlen in Hi, Hj. split.
      + rewrite !HR, <- Hexact by assumption. lia.
      + intros Hdep. apply HE in Hdep. pose proof (Htopo i j Hi Hdep). lia.
  Qed.
End Main.
