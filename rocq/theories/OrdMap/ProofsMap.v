(** * The map *)
From Verif.Base Require Import Base.
From Verif.OrdMap Require Import Model Spec SpecTree ProofsSpec Proofs ProofsInsert ProofsRemove.
Local Open Scope nat_scope.
Local Open Scope list_scope.

Section Map.
Context {K V : Type} (cmp : K -> K -> comparison) (law : lawful cmp).
Notation node := (node K V).
Notation entry := (K * V)%type.

(** ** The cursor *)

(** The entries of a node from a position on, with those of the node at that edge or without. *)
Definition rest (p : node * nat) : list entry :=
  match p with
  | (Node xs None, i) => skipn i xs
  | (Node xs (Some es), i) => after (skipn i xs) (skipn (S i) es)
  end.
Definition from (n : node) (i : nat) : list entry :=
  match n with
  | Node xs None => skipn i xs
  | Node xs (Some es) => inter (List.map flatten (skipn i es)) (skipn i xs)
  end.
Definition remaining (s : cursor) : list entry := flat_map rest s.
Definition good (s : cursor) : Prop := Forall (fun p : node * nat => (exists lo h, ok lo h (fst p)) /\ snd p <= length_ (fst p)) s.

Lemma from_zero n : from n 0 = flatten n.
Proof. now destruct n as [xs [es|]]. Qed.

Lemma push_ok h : forall lo (n : node) i s, ok lo h n -> i <= length_ n -> good s ->
  exists s', push n i s = Ret s' /\ remaining s' = from n i ++ remaining s /\ good s'.
Proof.
  induction h as [|h IH]; intros lo n i s O L G.
  - pose proof O as O0. apply ok_leaf in O as (xs & -> & _). eexists. split; [reflexivity|]. split; [reflexivity|]. constructor; eauto.
  - pose proof O as O0. apply ok_inner in O as (xs & es & -> & Lx & Le & F). unfold length_ in L. cbn [elems_of] in L.
    destruct (inner_at h xs es i) as (xs1 & xs2 & es1 & c & es2 & (E & L1 & L2 & L3) & F1 & Oc & F2); auto. injection E as -> ->.
    cbn [push]. rewrite edge_do_mid by auto. destruct (IH 5 c 0 ((Node (xs1 ++ xs2) (Some (es1 ++ c :: es2)), i) :: s)) as (s' & -> & R & G'); auto; [lia| |].
    + constructor; eauto.
    + exists s'. split; [reflexivity|]. split; [|auto]. rewrite R, from_zero. cbn [remaining flat_map rest from]. fold (remaining s).
      rewrite skipn_mid1, (skipn_mid xs1 xs2), (skipn_mid es1 (c :: es2)) by lia. rewrite inter_after by auto. now rewrite <- app_assoc.
Qed.

Lemma next_ok s : good s -> exists s', next s = Ret (hd_error (remaining s), s') /\ remaining s' = tl (remaining s) /\ good s'.
Proof.
  induction s as [|[n i] s IH]; intro G; cbn [next].
  - exists []. auto.
  - apply Forall_cons_iff in G as [((lo & h & O) & L) G]. cbn [fst snd] in *. destruct (Nat.ltb_spec i (length_ n)) as [C|C].
    + destruct (push_ok h lo n (i + 1) s) as (s' & -> & R & G'); auto; [lia|]. rewrite bind_pure. exists s'.
      enough (exists e, elem_at i n = Ret e /\ rest (n, i) = e :: from n (i + 1)) as (e & -> & E).
      { rewrite bind_pure. cbn [remaining flat_map]. fold (remaining s). rewrite E. cbn. auto. }
      unfold length_ in *. destruct h.
      * apply ok_leaf in O as (xs & -> & _). cbn [elems_of] in *. destruct (cut_at xs i C) as (xs1 & x & xs2 & -> & E). exists x. rewrite elem_at_mid by auto.
        split; [reflexivity|]. cbn [rest from]. rewrite skipn_mid by auto. rewrite Nat.add_1_r, skipn_mid1 by auto. reflexivity.
      * apply ok_inner in O as (xs & es & -> & Lx & Le & F). cbn [elems_of] in *. destruct (cut_at xs i C) as (xs1 & x & xs2 & -> & E). exists x. rewrite elem_at_mid by auto.
        split; [reflexivity|]. cbn [rest from]. rewrite app_length in Le. cbn in Le. rewrite Nat.add_1_r. rewrite skipn_mid, skipn_mid1 by auto.
        destruct (cut_at es (S i)) as (es1 & c & es2 & -> & E2); [lia|]. rewrite app_length in Le. cbn in Le. rewrite skipn_mid by auto. cbn [after]. rewrite inter_after by lia. reflexivity.
    + destruct (IH G) as (s' & E & R & G'). exists s'. enough (rest (n, i) = []) as Z by (cbn [remaining flat_map]; rewrite Z; auto).
      unfold length_ in *. destruct n as [xs [es|]]; cbn [elems_of rest] in *; rewrite skipn_all2 by lia; reflexivity.
Qed.

Lemma drain_ok fuel : forall s, good s -> List.length (remaining s) < fuel -> drain fuel s = Ret (remaining s).
Proof.
  induction fuel as [|fuel IH]; intros s G L; [lia|]. cbn [drain]. destruct (next_ok s G) as (s' & -> & R & G'). rewrite bind_pure.
  destruct (remaining s) as [|e l]; [reflexivity|]. cbn [hd_error tl] in *. rewrite IH by (rewrite ?R; cbn in L; auto; lia). rewrite bind_pure. now rewrite R.
Qed.

(** ** The whole map *)

Definition holds (m : map K V) (l : list entry) : Prop :=
  flatten (m_root m) = l /\ m_length m = List.length l /\ increasing cmp l /\ exists h, balanced h (m_root m).

Lemma elems_ok m l : holds m l -> map_elems (S (m_length m)) m = Ret l.
Proof.
  intros (F & L & I & h & O). unfold map_elems. destruct (push_ok h _ (m_root m) 0 [] O) as (s & -> & R & G); [lia|constructor|]. rewrite bind_pure.
  rewrite from_zero, F in R. cbn [remaining flat_map] in R. rewrite app_nil_r in R. rewrite drain_ok by (rewrite ?R; auto; lia). now rewrite R.
Qed.

Lemma simplify_ok h (n : node) : ok 0 h n -> exists n' h', simplify_root n = Ret n' /\ flatten n' = flatten n /\ balanced h' n'.
Proof.
  intro O. destruct h.
  - apply ok_leaf in O as (xs & -> & L). exists (Node xs None), 0. repeat split; auto; try lia. now destruct xs.
  - apply ok_inner in O as (xs & es & -> & L & Le & F). destruct xs as [|x xs].
    + destruct es as [|e [|]]; try discriminate. inversion F as [|? ? Oe ?]; subst. exists e, h. repeat split; auto.
      unfold balanced. eapply ok_weaken; [|exact Oe]. destruct h; lia.
    + eexists _, (S h). split; [reflexivity|]. split; auto. cbn in *. repeat split; auto; lia.
Qed.

Lemma root_nonempty h (n : node) : balanced h n -> flatten n <> [] -> 1 <= length_ n.
Proof.
  unfold balanced. intros O N. destruct h.
  - apply ok_leaf in O as (xs & -> & L). cbn in *. destruct xs; [tauto|]. cbn. lia.
  - apply ok_length in O. lia.
Qed.

Lemma balanced_low h (n : node) : balanced h n -> h = 0 \/ 1 <= match h with O => 0 | S _ => 1 end.
Proof. destruct h; auto. Qed.

Lemma first_final (l : list entry) e : final (l ++ [e]) = Some e.
Proof. unfold final. now rewrite rev_app_distr. Qed.

Lemma step_ok m l c : holds m l -> let (a, l') := spec_step cmp l c in exists m', step cmp m c = Ret (a, m') /\ holds m' l'.
Proof.
  intro Hm. pose proof Hm as (F & L & I & h & O). destruct c as [k v|k| | | |k| | | |]; cbn [spec_step step].
  - unfold map_insert. destruct (insert_ok cmp law k v h _ (m_root m) O) as (r & n & -> & Q); [now rewrite F|]. rewrite bind_pure. rewrite F in Q.
    destruct r as [w| |k' v' rn]; cbn [inserted] in Q.
    + destruct Q as (Q1 & Q2 & Q3). rewrite bind_pure. rewrite Q1. eexists. split; [reflexivity|]. unfold holds. cbn [m_root m_length].
      rewrite (put_length cmp law) by auto. rewrite Q1. repeat split; auto; [now apply put_increasing|eauto].
    + destruct Q as (Q1 & Q2 & Q3). rewrite bind_pure. rewrite Q1. eexists. split; [reflexivity|]. unfold holds. cbn [m_root m_length].
      rewrite (put_length cmp law) by auto. rewrite Q1. repeat split; auto; [lia|now apply put_increasing|eauto].
    + destruct Q as (Q1 & Q2 & Q3 & Q4). rewrite bind_pure. rewrite Q1. eexists. split; [reflexivity|]. unfold holds. cbn [m_root m_length].
      rewrite (put_length cmp law) by auto. rewrite Q1. repeat split; [rewrite <- Q2; reflexivity|lia|now apply put_increasing|]. exists (S h). cbn. repeat split; auto; lia.
  - unfold map_remove. destruct (remove_ok cmp law k h _ (m_root m) O (balanced_low h _ O)) as (r & n & -> & Q1 & Q2 & Q3 & Q6); [now rewrite F|]. rewrite bind_pure. rewrite F in *.
    destruct r as [[k' v]|]; cbn [option_map snd] in Q1.
    + destruct (simplify_ok h n) as (n' & h' & -> & Q4 & Q5); [eapply ok_weaken; [|exact Q3]; destruct h; lia|]. rewrite !bind_pure. rewrite <- Q1. eexists. split; [reflexivity|].
      unfold holds. cbn [m_root m_length]. rewrite del_length, <- Q1. repeat split; [now rewrite Q4|lia|now apply del_increasing|eauto].
    + rewrite bind_pure, <- Q1. eexists. split; [reflexivity|]. unfold holds. cbn [m_root m_length]. rewrite del_length, <- Q1. repeat split; auto; [now apply del_increasing|].
      exists h. now rewrite Q6.
  - unfold map_remove_min. rewrite L. destruct l as [|e l]; cbn [List.length Nat.eqb first hd_error tl].
    + rewrite bind_pure. eauto.
    + destruct (remove_smallest_ok h _ (m_root m) O) as (x & n & -> & Q1 & Q2); [apply (root_nonempty h); auto; rewrite F; discriminate|]. rewrite bind_pure.
      destruct (simplify_ok h n) as (n' & h' & -> & Q4 & Q5); [eapply ok_weaken; [|exact Q2]; destruct h; lia|]. rewrite !bind_pure. rewrite F in Q1. injection Q1 as <- E.
      eexists. split; [reflexivity|]. unfold holds. cbn [m_root m_length]. rewrite Q4. destruct e. apply increasing_cons in I as [_ I].
      repeat split; [now symmetry|cbn; lia|auto|eauto].
  - unfold map_remove_max. rewrite L. destruct (Nat.eqb_spec 0 (List.length l)) as [Z|Z].
    + destruct l; [|discriminate]. cbn [final hd_error rev removelast]. rewrite bind_pure. eauto.
    + destruct (remove_largest_ok h _ (m_root m) O) as (x & n & -> & Q1 & Q2); [apply (root_nonempty h); auto; rewrite F; destruct l; [tauto|discriminate]|]. rewrite bind_pure.
      destruct (simplify_ok h n) as (n' & h' & -> & Q4 & Q5); [eapply ok_weaken; [|exact Q2]; destruct h; lia|]. rewrite !bind_pure. rewrite F in Q1. clear F Hm. subst l.
      rewrite first_final, removelast_last. eexists. split; [reflexivity|]. unfold holds. cbn [m_root m_length]. rewrite Q4.
      rewrite app_length. apply increasing_app in I as (I & _). repeat split; [cbn; lia|auto|eauto].
  - eexists. split; [reflexivity|]. unfold holds, map_empty. cbn. repeat split; auto. exists 0. cbn. lia.
  - unfold map_get. rewrite (get_ok cmp law k h _ (m_root m) O) by (now rewrite F). rewrite bind_pure, F. eauto.
  - unfold map_get_min. rewrite L. destruct l as [|e l]; cbn [List.length Nat.eqb first hd_error].
    + rewrite bind_pure. eauto.
    + destruct (get_min_ok h _ (m_root m) O) as (x & n & -> & Q1); [apply (root_nonempty h); auto; rewrite F; discriminate|]. rewrite !bind_pure. rewrite F in Q1. injection Q1 as <- E. eauto.
  - unfold map_get_max. rewrite L. destruct (Nat.eqb_spec 0 (List.length l)) as [Z|Z].
    + destruct l; [|discriminate]. cbn [final hd_error rev]. rewrite bind_pure. eauto.
    + destruct (get_max_ok h _ (m_root m) O) as (x & n & -> & Q1); [apply (root_nonempty h); auto; rewrite F; destruct l; [tauto|discriminate]|]. rewrite !bind_pure.
      rewrite F in Q1. assert (final l = Some x) as -> by (rewrite Q1; apply first_final). eauto.
  - rewrite L. eauto.
  - rewrite (elems_ok m l Hm), bind_pure. eauto.
Qed.

Lemma run_ok cs : forall m l, holds m l -> exists m', run cmp m cs = Ret (fst (spec_run cmp l cs), m') /\ holds m' (snd (spec_run cmp l cs)).
Proof.
  induction cs as [|c cs IH]; intros m l Hm; cbn [run spec_run].
  - eauto.
  - pose proof (step_ok m l c Hm) as Q. destruct (spec_step cmp l c) as [a l']. destruct Q as (m' & -> & Hm'). rewrite bind_pure.
    destruct (IH m' l' Hm') as (m2 & -> & Hm2). rewrite bind_pure. destruct (spec_run cmp l' cs) as [r l2]. cbn in *. eauto.
Qed.

(** ** How many levels *)

Lemma inter_length h (es : list node) xs : List.length es = S (List.length xs) -> Forall (fun n => 6 ^ S h <= S (List.length (flatten n))) es ->
  S (List.length xs) * 6 ^ S h <= S (List.length (inter (List.map flatten es) xs)).
Proof.
  revert xs. induction es as [|e es IH]; intros xs L F; [discriminate|]. apply Forall_cons_iff in F as [Fe F]. destruct xs as [|x xs]; cbn [List.map inter].
  - cbn [List.length]. lia.
  - rewrite app_length. cbn [List.length]. specialize (IH xs). cbn in L. lia.
Qed.

Lemma ok_size h : forall (n : node), ok 5 h n -> 6 ^ S h <= S (List.length (flatten n)).
Proof.
  induction h as [|h IH]; intros n O.
  - apply ok_leaf in O as (xs & -> & L). cbn. lia.
  - apply ok_inner in O as (xs & es & -> & L & Le & F). cbn [flatten]. pose proof (inter_length h es xs Le) as Q.
    rewrite (Nat.pow_succ_r' 6 (S h)). etransitivity; [|apply Q].
    + apply Nat.mul_le_mono_r. lia.
    + eapply Forall_impl; [|exact F]. auto.
Qed.

Lemma balanced_size h (n : node) : balanced (S h) n -> 2 * 6 ^ S h <= S (List.length (flatten n)).
Proof.
  intro O. apply ok_inner in O as (xs & es & -> & L & Le & F). cbn [flatten]. etransitivity; [|apply inter_length; auto].
  - apply Nat.mul_le_mono_r. lia.
  - eapply Forall_impl; [|exact F]. intros n. apply ok_size.
Qed.

Lemma run_all cs : exists m : map K V,
  run cmp map_empty cs = Ret (fst (spec_run cmp [] cs), m) /\
  (exists h, balanced h (m_root m) /\ (h = 0 \/ 2 * 6 ^ h <= S (m_length m))).
Proof.
  destruct (run_ok cs map_empty []) as (m & E & (F & L & I & h & O)).
  - unfold holds, map_empty. cbn. repeat split; auto. exists 0. cbn. lia.
  - exists m. split; auto. exists h. split; auto. destruct h; auto. right. rewrite L, <- F. now apply balanced_size.
Qed.

Lemma spec_run_increasing cs : forall l : list entry, increasing cmp l -> increasing cmp (snd (spec_run cmp l cs)).
Proof.
  induction cs as [|c cs IH]; intros l I; auto. cbn [spec_run].
  assert (increasing cmp (snd (spec_step cmp l c))) as I'.
  { destruct c; cbn; auto using put_increasing, del_increasing.
    - destruct l as [|[k v] l]; auto. now apply increasing_cons in I as [_ I].
    - destruct l as [|e l]; auto. destruct (cut_last (e :: l)) as (l1 & x & E); [cbn; lia|]. rewrite E in *. rewrite removelast_last. now apply increasing_app in I as (I & _). }
  destruct (spec_step cmp l c) as [a l']. specialize (IH l' I'). destruct (spec_run cmp l' cs). exact IH.
Qed.

End Map.
