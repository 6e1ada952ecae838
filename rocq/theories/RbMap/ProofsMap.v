(** * The versions of a map *)
From Verif.Base Require Import Base.
From Verif.OrdMap Require Import Spec ProofsSpec.
From Verif.RbMap Require Import Model Spec Proofs.
Local Open Scope nat_scope.
Local Open Scope list_scope.

Section Map.
Context {K V : Type} (cmp : K -> K -> comparison) (law : lawful cmp).
Notation tree := (tree K V).
Notation entries := (list (K * V)).
Implicit Types (t : tree).

(** ** The cursor *)
Definition remaining (s : cursor) : entries := flat_map (fun p : K * V * tree => fst p :: flatten (snd p)) s.

Lemma push_remaining t : forall s, remaining (push t s) = flatten t ++ remaining s.
Proof.
  induction t as [|c k v l IHl r IHr]; intro s; [reflexivity|]. cbn [push flatten]. rewrite IHl. cbn [remaining flat_map fst snd]. fold (remaining s).
  now rewrite <- app_assoc.
Qed.

Lemma drain_ok fuel : forall s, List.length (remaining s) < fuel -> drain fuel s = Ret (remaining s).
Proof.
  induction fuel as [|fuel IH]; intros s L; [lia|]. cbn [drain]. destruct s as [|[[k v] r] s]; [reflexivity|]. cbn [next].
  assert (remaining ((k, v, r) :: s) = (k, v) :: remaining (push r s)) as E by (rewrite push_remaining; reflexivity).
  rewrite E in *. rewrite IH by (cbn in L; lia). reflexivity.
Qed.

Lemma flatten_count t : List.length (flatten t) = count t.
Proof. induction t; [reflexivity|]. cbn [flatten count]. rewrite app_length. cbn. lia. Qed.

Lemma elems_ok t : map_elems t = Ret (flatten t).
Proof.
  unfold map_elems. assert (remaining (push t []) = flatten t) as E by (rewrite push_remaining; apply app_nil_r).
  rewrite drain_ok; rewrite E; auto. rewrite flatten_count. lia.
Qed.

(** ** Maps *)
Definition holds (t : tree) (l : entries) : Prop := flatten t = l /\ increasing cmp l /\ exists n, ok false n t.

Lemma holds_empty : holds Leaf [].
Proof. repeat split. exists 0. reflexivity. Qed.

Lemma holds_get t l k : holds t l -> get cmp k t = lookup cmp k l.
Proof. intros (F & I & _). rewrite <- F in *. now apply get_flatten. Qed.

Lemma holds_insert t l k v : holds t l -> holds (map_insert cmp k v t) (put cmp false k v l).
Proof.
  intros (F & I & n & O). subst l. split; [|split].
  - unfold map_insert. rewrite blacken_flatten. now apply insert_flatten.
  - now apply put_increasing.
  - eapply map_insert_ok; eauto.
Qed.

Lemma holds_remove t l k : holds t l -> exists t', map_remove cmp k t = Ret t' /\ holds t' (del cmp k l).
Proof.
  intros (F & I & n & O). subst l. unfold map_remove. destruct (remove_ok cmp law k t I _ _ O) as (o & -> & Q). cbn [bind].
  destruct o as [[[t' v] d]|].
  - destruct Q as (Q1 & Q2 & Q3). eexists. split; [reflexivity|]. split; [|split].
    + rewrite blacken_flatten. exact Q2.
    + now apply del_increasing.
    + eapply short_blacken; eauto.
  - eexists. split; [reflexivity|]. rewrite del_none by auto. repeat split; eauto.
Qed.

Lemma holds_remove_min t l : holds t l -> exists t', map_remove_min t = Ret t' /\ holds t' (tl l).
Proof.
  intros (F & I & n & O). subst l. destruct t as [|c k v a b]; [exists Leaf; split; [reflexivity|apply holds_empty]|]. set (t := Tree c k v a b) in *.
  destruct (remove_min_ok t _ _ O) as (t' & k' & v' & d & E & F & S0); [discriminate|]. cbn [map_remove_min t]. fold t. rewrite E. cbn [bind].
  eexists. split; [reflexivity|]. rewrite F in *. cbn [tl]. apply increasing_cons in I as [_ I]. split; [|split; [exact I|]].
  - apply blacken_flatten.
  - eapply short_blacken; eauto.
Qed.

Lemma holds_remove_max t l : holds t l -> exists t', map_remove_max t = Ret t' /\ holds t' (removelast l).
Proof.
  intros (F & I & n & O). subst l. destruct t as [|c k v a b]; [exists Leaf; split; [reflexivity|apply holds_empty]|]. set (t := Tree c k v a b) in *.
  destruct (remove_max_ok t _ _ O) as (t' & k' & v' & d & E & F & S0); [discriminate|]. cbn [map_remove_max t]. fold t. rewrite E. cbn [bind].
  eexists. split; [reflexivity|]. rewrite F in *. rewrite removelast_last. apply increasing_app in I as (I & _). split; [|split; [exact I|]].
  - apply blacken_flatten.
  - eapply short_blacken; eauto.
Qed.

Lemma holds_union f a la b lb : holds a la -> holds b lb -> exists t, union_with cmp f a b = Ret t /\ holds t (unite cmp f la lb).
Proof.
  intros Ha (Fb & _). unfold union_with, unite. rewrite elems_ok, Fb. cbn [bind]. eexists. split; [reflexivity|]. clear Fb.
  revert a la Ha. induction lb as [|[k v] lb IH]; intros a la Ha; [exact Ha|]. cbn [fold_left fst snd]. apply IH. rewrite (holds_get _ _ k Ha).
  destruct (lookup cmp k la); now apply holds_insert.
Qed.

Lemma holds_difference f a la b lb : holds a la -> holds b lb -> exists t, difference_with cmp f a b = Ret t /\ holds t (differ cmp f la lb).
Proof.
  intros Ha (Fb & _). unfold difference_with, differ. rewrite elems_ok, Fb. cbn [bind]. clear Fb.
  revert a la Ha. induction lb as [|[k v] lb IH]; intros a la Ha; [eexists; split; [reflexivity|exact Ha]|]. cbn [fold_left fst snd bind]. rewrite (holds_get _ _ k Ha).
  destruct (lookup cmp k la) as [av|]; [destruct (f k av v)|].
  - apply IH. now apply holds_insert.
  - destruct (holds_remove _ _ k Ha) as (t' & -> & Ht). now apply IH.
  - apply IH. now apply holds_insert.
Qed.

Lemma put_end k (v : V) (l : entries) : below cmp k l -> put cmp false k v l = l ++ [(k, v)].
Proof. intro BL. rewrite <- (app_nil_r l) at 1. rewrite put_below by auto. reflexivity. Qed.

Lemma intersect_app f (a1 a2 b : entries) : intersect cmp f (a1 ++ a2) b = intersect cmp f a1 b ++ intersect cmp f a2 b.
Proof. apply flat_map_app. Qed.

Lemma in_intersect f (a b : entries) k v : In (k, v) (intersect cmp f a b) -> exists v', In (k, v') a.
Proof.
  intro I. apply in_flat_map in I as ([k' v'] & I1 & I2). cbn in I2. destruct (lookup cmp k' b); [|destruct I2]. destruct I2 as [E|[]]. injection E as <- _. eauto.
Qed.

Lemma holds_intersection f a la b lb : holds a la -> holds b lb -> exists t, intersection_with cmp f a b = Ret t /\ holds t (intersect cmp f la lb).
Proof.
  intros (Fa & Ia & _) Hb. unfold intersection_with. rewrite elems_ok, Fa. cbn [bind]. eexists. split; [reflexivity|]. clear Fa a.
  enough (forall done t, increasing cmp (done ++ la) -> holds t (intersect cmp f done lb) ->
    holds (fold_left (fun m e => match get cmp (fst e) b with None => m | Some bv => map_insert cmp (fst e) (f (fst e) (snd e) bv) m end) la t) (intersect cmp f (done ++ la) lb)) as Q.
  { apply (Q []); auto. apply holds_empty. }
  clear Ia. induction la as [|[k v] la IH]; intros done t I Ht; cbn [fold_left fst snd].
  - now rewrite app_nil_r.
  - change (done ++ (k, v) :: la) with (done ++ [(k, v)] ++ la) in *. rewrite app_assoc in *. apply IH; auto. rewrite intersect_app. cbn [intersect flat_map fst snd]. rewrite (holds_get _ _ k Hb).
    destruct (lookup cmp k lb) as [bv|]; cbn [app]; [|now rewrite app_nil_r].
    rewrite <- put_end; [now apply holds_insert|]. rewrite <- app_assoc in I. apply (increasing_mid cmp law) in I as (_ & _ & BL & _).
    intros k' v' Q. apply in_intersect in Q as (v2 & Q). eauto.
Qed.

Lemma get_max_holds t l : holds t l -> get_max t = final l.
Proof. intros (<- & _). apply get_max_flatten. Qed.

Lemma step_ok ts ms c : Forall2 holds ts ms -> let (a, ms') := spec_step cmp ms c in exists ts', step cmp ts c = Ret (a, ts') /\ Forall2 holds ts' ms'.
Proof.
  intro F.
  assert (List.length ts = List.length ms) as LF by (clear -F; induction F; cbn; auto).
  assert (forall (i : nat) (g : tree -> outcome (answer K V * list tree)) (h : entries -> answer K V * list entries), (forall t m, holds t m -> let (a, ms') := h m in exists ts', g t = Ret (a, ts') /\ Forall2 holds ts' ms') ->
    let (a, ms') := with_version ms i h in exists ts', version ts i g = Ret (a, ts') /\ Forall2 holds ts' ms') as W.
  { intros i g h Q. unfold version, with_version. clear c.
    destruct (nth_error ms i) as [m|] eqn:E1, (nth_error ts i) as [t|] eqn:E2.
    - apply Q. clear Q LF. revert i E1 E2. induction F as [|t0 m0 ts0 ms0 Hh F IH]; intros [|i] E1 E2; try discriminate; cbn in *; [congruence|eauto].
    - exfalso. apply nth_error_None in E2. assert (i < List.length ms) by (apply nth_error_Some; congruence). lia.
    - exfalso. apply nth_error_None in E1. assert (i < List.length ts) by (apply nth_error_Some; congruence). lia.
    - eauto. }
  assert (forall o m, (exists t, o = Ret t /\ holds t m) -> exists ts', (let* t := o in Ret (ADone (K := K) (V := V), ts ++ [t])) = Ret (ADone, ts') /\ Forall2 holds ts' (ms ++ [m])) as A.
  { intros o m (t & -> & Ht). cbn [bind]. eexists. split; [reflexivity|]. apply Forall2_app; auto. }
  destruct c; cbn [spec_step step]; apply W; intros t m Hm.
  - eexists. split; [reflexivity|]. apply Forall2_app; auto. constructor; auto. now apply holds_insert.
  - apply A. now apply holds_remove.
  - apply A. now apply holds_remove_min.
  - apply A. now apply holds_remove_max.
  - apply W. intros t2 m2 Hm2. apply A. now apply holds_union.
  - apply W. intros t2 m2 Hm2. apply A. now apply holds_intersection.
  - apply W. intros t2 m2 Hm2. apply A. now apply holds_difference.
  - rewrite (holds_get _ _ k Hm). eauto.
  - destruct Hm as (<- & _). rewrite get_min_flatten. eauto.
  - rewrite (get_max_holds _ _ Hm). eauto.
  - destruct Hm as (<- & _). destruct t as [|c k v l r]; cbn [flatten]; [eauto|]. destruct (flatten l); cbn; eauto.
  - destruct Hm as (<- & _). rewrite elems_ok. cbn [bind]. eauto.
Qed.

Lemma run_ok cs : forall ts ms, Forall2 holds ts ms ->
  exists ts', run cmp ts cs = Ret (fst (spec_run cmp ms cs), ts') /\ Forall2 holds ts' (snd (spec_run cmp ms cs)).
Proof.
  induction cs as [|c cs IH]; intros ts ms F; cbn [run spec_run].
  - eauto.
  - pose proof (step_ok ts ms c F) as Q. destruct (spec_step cmp ms c) as [a ms']. destruct Q as (ts' & -> & F'). cbn [bind].
    destruct (IH ts' ms' F') as (ts2 & -> & F2). cbn [bind]. destruct (spec_run cmp ms' cs) as [r ms2]. cbn in *. eauto.
Qed.

(** ** How deep *)

Lemma ok_height t : forall red n, ok red n t -> height t <= 2 * n + (if red then 1 else 0).
Proof.
  induction t as [|[] k v l IHl r IHr]; intros red n O; cbn in O |- *.
  - lia.
  - destruct O as (-> & Ol & Or). apply IHl in Ol. apply IHr in Or. lia.
  - destruct n as [|n]; [destruct O|]. destruct O as (Ol & Or). apply IHl in Ol. apply IHr in Or. cbn in *. lia.
Qed.

Lemma ok_count t : forall red n, ok red n t -> 2 ^ n <= S (count t).
Proof.
  induction t as [|[] k v l IHl r IHr]; intros red n O; cbn [count].
  - cbn in O. subst. cbn. lia.
  - cbn in O. destruct O as (_ & Ol & Or). apply IHl in Ol. lia.
  - destruct n as [|n]; [destruct O|]. destruct O as (Ol & Or). apply IHl in Ol. apply IHr in Or. rewrite Nat.pow_succ_r'. lia.
Qed.

Lemma ok_deep t n : ok false n t -> 2 ^ height t <= S (List.length (flatten t)) * S (List.length (flatten t)).
Proof.
  intro O. rewrite flatten_count. pose proof (ok_count t _ _ O) as C. apply ok_height in O. rewrite Nat.add_0_r in O.
  transitivity (2 ^ (n + n)); [apply Nat.pow_le_mono_r; lia|]. rewrite Nat.pow_add_r. now apply Nat.mul_le_mono.
Qed.

Lemma run_all cs : exists ts : list tree,
  run cmp [Leaf] cs = Ret (fst (spec_run cmp [[]] cs), ts) /\
  Forall2 (fun t l => (exists n, ok false n t) /\ 2 ^ height t <= S (List.length l) * S (List.length l)) ts (snd (spec_run cmp [[]] cs)).
Proof.
  destruct (run_ok cs [Leaf] [[]]) as (ts & E & F); [constructor; [apply holds_empty|constructor]|]. exists ts. split; auto.
  clear E. induction F as [|t m ts ms (Ft & _ & n & O) F IH]; constructor; auto. subst m. split; [eauto|eapply ok_deep; eauto].
Qed.

Lemma spec_increasing cs : Forall (increasing (V := V) cmp) (snd (spec_run cmp [[]] cs)).
Proof.
  destruct (run_ok cs [Leaf] [[]]) as (ts & _ & F); [constructor; [apply holds_empty|constructor]|].
  induction F as [|t m ts0 ms (Ft & I & _) F IH]; constructor; auto.
Qed.

(** ** What union, intersection and difference have for a key *)

Lemma lookup_eq_key k k' (l : entries) : cmp k k' = Eq -> lookup cmp k l = lookup cmp k' l.
Proof. intro E. induction l as [|[k2 v] l IH]; auto. cbn [lookup]. rewrite (cmp_eq_l cmp law k k' k2 E), IH. reflexivity. Qed.

Lemma entry_above k (l : entries) : above cmp k l -> entry cmp k l = None.
Proof.
  induction l as [|[k2 v] l IH]; intro A; auto. apply above_cons in A as [C A]. unfold entry in *. cbn [find fst]. rewrite C. auto.
Qed.

Lemma entry_cons k k2 (v : V) l : entry cmp k ((k2, v) :: l) = match cmp k k2 with Eq => Some (k2, v) | _ => entry cmp k l end.
Proof. unfold entry. cbn [find fst]. now destruct (cmp k k2). Qed.

Lemma entry_lookup k (l : entries) : option_map snd (entry cmp k l) = lookup cmp k l.
Proof. induction l as [|[k2 v] l IH]; auto. rewrite entry_cons. cbn [lookup]. now destruct (cmp k k2). Qed.

Lemma differ_lookup f k (b : entries) : forall a, increasing cmp a -> increasing cmp b ->
  lookup cmp k (differ cmp f a b) =
  match lookup cmp k a, entry cmp k b with
  | x, None => x
  | None, Some (_, bv) => Some bv
  | Some av, Some (k', bv) => f k' av bv
  end.
Proof.
  induction b as [|[k0 bv] b IH]; intros a Ia Ib; [cbn; now destruct (lookup cmp k a)|]. apply increasing_cons in Ib as [A Ib].
  unfold differ in *. cbn [fold_left fst snd]. rewrite entry_cons.
  set (a' := match lookup cmp k0 a with None => _ | Some av => _ end).
  assert (increasing cmp a') as Ia' by (unfold a'; destruct (lookup cmp k0 a) as [av|]; [destruct (f k0 av bv)|]; auto using put_increasing, del_increasing).
  rewrite (IH a' Ia' Ib). destruct (cmp k k0) eqn:C.
  - rewrite entry_above by (intros k2 v2 I; rewrite (cmp_eq_l cmp law k k0 k2 C); eauto).
    rewrite !(lookup_eq_key k k0 _ C). unfold a'. destruct (lookup cmp k0 a) as [av|] eqn:L; [destruct (f k0 av bv)|];
      rewrite ?lookup_put, ?lookup_del by auto; rewrite cmp_refl by auto; reflexivity.
  - enough (lookup cmp k a' = lookup cmp k a) as -> by reflexivity. unfold a'. destruct (lookup cmp k0 a) as [av|]; [destruct (f k0 av bv)|];
      rewrite ?lookup_put, ?lookup_del by auto; now rewrite C.
  - enough (lookup cmp k a' = lookup cmp k a) as -> by reflexivity. unfold a'. destruct (lookup cmp k0 a) as [av|]; [destruct (f k0 av bv)|];
      rewrite ?lookup_put, ?lookup_del by auto; now rewrite C.
Qed.

Lemma unite_differ f (a b : entries) : unite cmp f a b = differ cmp (fun k av bv => Some (f k av bv)) a b.
Proof.
  revert a. induction b as [|[k v] b IH]; intro a; [reflexivity|]. unfold unite, differ in *. cbn [fold_left fst snd]. rewrite <- IH.
  now destruct (lookup cmp k a).
Qed.

Lemma unite_lookup f k (a b : entries) : increasing cmp a -> increasing cmp b ->
  lookup cmp k (unite cmp f a b) =
  match lookup cmp k a, entry cmp k b with
  | x, None => x
  | None, Some (_, bv) => Some bv
  | Some av, Some (k', bv) => Some (f k' av bv)
  end.
Proof. intros. now rewrite unite_differ, differ_lookup. Qed.

Lemma intersect_lookup f k (a b : entries) : increasing cmp a ->
  lookup cmp k (intersect cmp f a b) =
  match entry cmp k a, lookup cmp k b with
  | Some (k', av), Some bv => Some (f k' av bv)
  | _, _ => None
  end.
Proof.
  induction a as [|[k0 av] a IH]; intro I; [reflexivity|]. apply increasing_cons in I as [A I]. unfold intersect in *. cbn [flat_map fst snd]. rewrite entry_cons.
  destruct (cmp k k0) eqn:C.
  - assert (above cmp k (intersect cmp f a b)) as AB.
    { intros k2 v2 Q. apply in_intersect in Q as (v3 & Q). rewrite (cmp_eq_l cmp law k k0 k2 C). eauto. }
    rewrite (lookup_eq_key k k0 b C). destruct (lookup cmp k0 b) as [bv|]; cbn [app lookup]; [now rewrite C|]. apply lookup_above. exact AB.
  - destruct (lookup cmp k0 b) as [bv|]; cbn [app lookup]; [rewrite C|]; apply IH; auto.
  - destruct (lookup cmp k0 b) as [bv|]; cbn [app lookup]; [rewrite C|]; apply IH; auto.
Qed.

(** ** Equality *)
Lemma map_eq_ok eqk eqv (a b : tree) :
  (forall k k', eqk k k' = true <-> k = k') -> (forall v v', eqv v v' = true <-> v = v') ->
  exists r, map_eq eqk eqv a b = Ret r /\ (r = true <-> flatten a = flatten b).
Proof.
  intros Hk Hv. unfold map_eq. rewrite !elems_ok. cbn [bind]. eexists. split; [reflexivity|].
  generalize (flatten a) (flatten b). intros la. induction la as [|[k v] la IH]; intros [|[k' v'] lb]; try (split; congruence).
  destruct (eqk k k' && eqv v v')%bool eqn:E.
  - apply Bool.andb_true_iff in E as [E1 E2]. apply Hk in E1. apply Hv in E2. subst. rewrite IH. split; congruence.
  - split; [discriminate|]. intro Q. injection Q as -> -> _. rewrite (proj2 (Hk _ _) eq_refl), (proj2 (Hv _ _) eq_refl) in E. discriminate.
Qed.

Lemma map_eq_elems eqk eqv (a b : tree) :
  (forall k k', eqk k k' = true <-> k = k') -> (forall v v', eqv v v' = true <-> v = v') ->
  exists r, map_eq eqk eqv a b = Ret r /\ (r = true <-> map_elems a = map_elems b).
Proof.
  intros Hk Hv. destruct (map_eq_ok eqk eqv a b Hk Hv) as (r & E & Q). exists r. split; auto. rewrite Q, !elems_ok. split; congruence.
Qed.

End Map.
