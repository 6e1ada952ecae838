From Verif.Base Require Import Base BaseFacts VecFacts.
From Verif.Kind Require Import Model Spec.
From Coq Require Import Relation_Operators Transitive_Closure.
From Coq Require Wellfounded.Inclusion Wellfounded.Transitive_Closure.

(** * Terms *)
Lemma gkind_ind' (P : gkind -> Prop) :
  (forall n, P (GName n)) -> P GType -> P GConstraint -> P GSatisfaction -> P GValue -> P GMacro ->
  (forall args ret, Forall P args -> P ret -> P (GFun args ret)) -> forall t, P t.
Proof.
  intros Hn H1 H2 H3 H4 H5 Hf. fix IH 1. intros [n| | | | | |args ret].
  - apply Hn.
  - exact H1.
  - exact H2.
  - exact H3.
  - exact H4.
  - exact H5.
  -  apply Hf; [|apply IH]. induction args as [|a args IHa]; constructor; [apply IH|exact IHa].
Qed.

Fixpoint size (t : gkind) : nat :=
  match t with
  | GFun args ret => S (list_sum (map size args) + size ret)
  | _ => 1%nat
  end.

Fixpoint subst (s : var -> gkind) (t : gkind) : gkind :=
  match t with
  | GName v => s v
  | GFun args ret => GFun (map (subst s) args) (subst s ret)
  | t => t
  end.

Fixpoint occ (v : var) (t : gkind) : Prop :=
  match t with
  | GName w => w = v
  | GFun args ret => (fix go l := match l with [] => False | a :: l => occ v a \/ go l end) args \/ occ v ret
  | _ => False
  end.

Lemma occ_fun v args ret : occ v (GFun args ret) <-> Exists (occ v) args \/ occ v ret.
Proof.
  cbn [occ]. split; intros [H|H]; auto; left.
  - induction args as [|a args IH]; [contradiction|]. destruct H; [left|right]; auto.
  - induction H as [a args H|a args H IH]; [left|right]; auto.
Qed.

Lemma size_pos t : (1 <= size t)%nat.
Proof. destruct t; cbn; lia. Qed.

Lemma size_in a l : In a l -> (size a <= list_sum (map size l))%nat.
Proof.
  induction l as [|b l IH]; cbn [In map]; [tauto|]. change (list_sum (size b :: map size l)) with (size b + list_sum (map size l))%nat.
  intros [->|H]; [lia|]. specialize (IH H). lia.
Qed.

Lemma subst_size s v t : occ v t -> (size (s v) <= size (subst s t))%nat /\ (t <> GName v -> (size (s v) < size (subst s t))%nat).
Proof.
  induction t as [w| | | | | |args ret IHa IHr] using gkind_ind'; cbn [occ subst]; intros H;
    try contradiction.
  - subst. split; [lia|congruence].
  - apply occ_fun in H. cbn [size].
    enough (size (s v) <= list_sum (map size (map (subst s) args)) + size (subst s ret))%nat by (split; intros; lia).
    destruct H as [H|H]; [|apply IHr in H; lia].
    apply Exists_exists in H. destruct H as (a & Hin & Ho). rewrite Forall_forall in IHa.
    pose proof (proj1 (IHa a Hin Ho)) as Hs.
    pose proof (size_in (subst s a) (map (subst s) args) (in_map _ _ _ Hin)) as Hi. lia.
Qed.

Lemma subst_fill s d t : (forall v, occ v t -> s v = d) <-> subst s t = fill d t.
Proof.
  induction t as [w| | | | | |args ret IHa IHr] using gkind_ind'; cbn [occ subst fill];
    try (split; [reflexivity|contradiction]).
  - split; [auto|]. intros H v <-. exact H.
  - split.
    + intros H. f_equal; [|apply IHr; intros v Hv; apply H; auto].
      apply map_ext_in. intros a Ha. rewrite Forall_forall in IHa. apply (IHa a Ha).
      intros v Hv. apply H. apply (occ_fun v args ret). left. apply Exists_exists. exists a. auto.
    + intros H v Hv. injection H as Hm Hr. apply occ_fun in Hv. destruct Hv as [Hv|Hv].
      * apply Exists_exists in Hv. destruct Hv as (a & Ha & Hv). rewrite Forall_forall in IHa.
        apply (IHa a Ha); [|exact Hv]. clear -Ha Hm. induction args as [|b args IH]; [contradiction|].
        cbn in Hm. injection Hm as H1 H2. destruct Ha as [->|Ha]; auto.
      * apply IHr; auto.
Qed.

(** * Well-formed contexts *)
Definition kchild (k : kind) (j : var) : Prop :=
  match k with
  | KVar w => j = w
  | KFun args ret => In j (vars_iter args) \/ j = ret
  | _ => False
  end.

Definition kbound (n : nat) (k : kind) : Prop := forall j, kchild k j -> (j < n)%nat.

Definition step (p : context) (j i : var) : Prop :=
  exists k, nth_error p i = Some k /\ kchild k j /\ k <> KVar i.

Definition wf (p : context) : Prop :=
  (forall i k, nth_error p i = Some k -> kbound (List.length p) k) /\ (forall i, Acc (step p) i).

Notation len := (@List.length kind).

Lemma interp_ext s s' k : (forall j, kchild k j -> s j = s' j) -> interp s k = interp s' k.
Proof.
  destruct k as [v| | | | | |args ret]; cbn; intros H; auto.
  f_equal; auto. apply map_ext_in. auto.
Qed.

Lemma interp_child_size s k j : kchild k j -> (forall v, k <> KVar v) -> (size (s j) < size (interp s k))%nat.
Proof.
  destruct k as [v| | | | | |args ret]; cbn; intros H Hn; try contradiction; [exfalso; eapply Hn; reflexivity|].
  destruct H as [H| ->]; [|lia].
  pose proof (size_in (s j) (map s (vars_iter args)) (in_map _ _ _ H)). pose proof (size_pos (s ret)). lia.
Qed.

Lemma solution_ext p s s' : wf p -> (forall i, (i < len p)%nat -> s i = s' i) -> solution p s -> solution p s'.
Proof.
  intros (Hb & _) H Hs i k Hk. rewrite <- H by (apply nth_error_Some; congruence).
  rewrite (Hs i k Hk). apply interp_ext. intros j Hj. apply H. exact (Hb i k Hk j Hj).
Qed.

Lemma solution_unique p s s' : wf p -> solution p s -> solution p s' ->
  (forall i, unresolved p i -> s i = s' i) -> forall i, (i < len p)%nat -> s i = s' i.
Proof.
  intros (Hb & Ha) Hs Hs' Hu i. induction (Ha i) as [i _ IH]. intros Hi.
  destruct (nth_error p i) as [k|] eqn:Hk; [|apply nth_error_None in Hk; lia].
  assert (k = KVar i \/ k <> KVar i) as [->|Hne].
  { destruct k as [v| | | | | |]; try (right; discriminate). destruct (Nat.eq_dec v i); [left|right]; congruence. }
  - apply Hu. exact Hk.
  - rewrite (Hs i k Hk), (Hs' i k Hk). apply interp_ext. intros j Hj. apply IH; [|exact (Hb i k Hk j Hj)].
    exists k. auto.
Qed.

(** Existence of solutions: unfold the bindings deep enough. *)
Fixpoint den (n : nat) (p : context) (t : var -> gkind) (i : var) : gkind :=
  match n with
  | O => GType
  | S n =>
    match nth_error p i with
    | None => t i
    | Some k => if kind_eqb k (KVar i) then t i else interp (den n p t) k
    end
  end.

Lemma kind_eqb_eq a b : kind_eqb a b = true <-> a = b.
Proof.
  destruct a as [v| | | | | |(s & e) r], b as [v'| | | | | |(s' & e') r']; cbn [kind_eqb]; split; intros H;
    try discriminate; try reflexivity.
  - apply Nat.eqb_eq in H. congruence.
  - injection H as ->. apply Nat.eqb_refl.
  - rewrite !andb_true_iff, !Nat.eqb_eq in H. destruct H as ((-> & ->) & ->). reflexivity.
  - injection H as -> -> ->. rewrite !Nat.eqb_refl. reflexivity.
Qed.

Lemma kchild_list k : exists l, forall j, kchild k j <-> In j l.
Proof.
  destruct k as [v| | | | | |args ret]; cbn; try (exists []; cbn; tauto).
  - exists [v]. cbn. intros j; split; [intros ->; auto|intros [->|[]]; auto].
  - exists (vars_iter args ++ [ret]). intros j. rewrite in_app_iff. cbn. split; intros [H|H]; auto.
    destruct H as [->|[]]; auto.
Qed.

Lemma stable_list p t (l : list var) :
  (forall j, In j l -> exists N, forall n, (N <= n)%nat -> den n p t j = den N p t j) ->
  exists N, forall j, In j l -> forall n, (N <= n)%nat -> den n p t j = den N p t j.
Proof.
  induction l as [|x l IH]; intros H; [exists 0%nat; intros j []|].
  destruct (H x (or_introl eq_refl)) as (N1 & H1). destruct IH as (N2 & H2); [intros j Hj; apply H; right; exact Hj|].
  exists (Nat.max N1 N2). intros j [<-|Hj] n Hn.
  - rewrite (H1 n) by lia. rewrite (H1 (Nat.max N1 N2)) by lia. reflexivity.
  - rewrite (H2 j Hj n) by lia. rewrite (H2 j Hj (Nat.max N1 N2)) by lia. reflexivity.
Qed.

Lemma den_stable p t : wf p -> forall i, exists N, forall n, (N <= n)%nat -> den n p t i = den N p t i.
Proof.
  intros (Hb & Ha) i. induction (Ha i) as [i _ IH].
  destruct (nth_error p i) as [k|] eqn:Hk.
  - destruct (kind_eqb k (KVar i)) eqn:Ek.
    + exists 1%nat. intros [|n] Hn; [lia|]. cbn [den]. rewrite Hk, Ek. reflexivity.
    + destruct (kchild_list k) as (l & Hl). destruct (stable_list p t l) as (N & HN).
      { intros j Hj. apply IH. exists k. apply Hl in Hj. split; [exact Hk|]. split; [exact Hj|].
        intros ->. rewrite (proj2 (kind_eqb_eq _ _) eq_refl) in Ek. discriminate. }
      exists (S N). intros [|n] Hn; [lia|]. cbn [den]. rewrite Hk, Ek. apply interp_ext.
      intros j Hj. apply Hl in Hj. apply HN; [exact Hj|lia].
  - exists 1%nat. intros [|n] Hn; [lia|]. cbn [den]. rewrite Hk. reflexivity.
Qed.

Lemma solution_exists p t : wf p -> exists s, solution p s /\ forall i, unresolved p i -> s i = t i.
Proof.
  intros Hwf. destruct (stable_list p t (seq 0 (len p))) as (N & HN).
  { intros j _. apply den_stable. exact Hwf. }
  assert (HN' : forall i k, nth_error p i = Some k -> den N p t i = den (S N) p t i).
  { intros i k Hk. symmetry. apply HN; [|lia]. apply in_seq. split; [lia|]. apply nth_error_Some. congruence. }
  exists (den N p t). split.
  - intros i k Hk. destruct (kind_eqb k (KVar i)) eqn:Ek.
    + apply kind_eqb_eq in Ek. subst k. reflexivity.
    + rewrite (HN' i k Hk). cbn [den]. rewrite Hk, Ek. reflexivity.
  - intros i Hi. rewrite (HN' i _ Hi). cbn [den]. unfold unresolved in Hi. rewrite Hi.
    rewrite (proj2 (kind_eqb_eq (KVar i) (KVar i)) eq_refl). reflexivity.
Qed.

Lemma canonical_exists p : wf p -> exists s, canonical p s.
Proof. intros H. destruct (solution_exists p GName H) as (s & H1 & H2). exists s. split; auto. Qed.

Lemma canonical_subst p s0 s : wf p -> canonical p s0 -> solution p s ->
  forall i, (i < len p)%nat -> s i = subst s (s0 i).
Proof.
  intros (Hb & Ha) (Hs0 & Hu) Hs i. induction (Ha i) as [i _ IH]. intros Hi.
  destruct (nth_error p i) as [k|] eqn:Hk; [|apply nth_error_None in Hk; lia].
  destruct (kind_eqb k (KVar i)) eqn:Ek.
  - apply kind_eqb_eq in Ek. subst k. rewrite (Hu i Hk). reflexivity.
  - rewrite (Hs i k Hk), (Hs0 i k Hk). assert (IH' : forall j, kchild k j -> s j = subst s (s0 j)).
    { intros j Hj. apply IH; [|exact (Hb i k Hk j Hj)]. exists k. split; [exact Hk|]. split; [exact Hj|].
      intros ->. rewrite (proj2 (kind_eqb_eq _ _) eq_refl) in Ek. discriminate. }
    destruct k as [v| | | | | |args ret]; cbn [interp subst]; try reflexivity; [apply IH'; reflexivity|].
    f_equal; [|apply IH'; right; reflexivity]. rewrite map_map. apply map_ext_in. intros j Hj. apply IH'. left. exact Hj.
Qed.

Lemma canonical_subst_k p s0 s k : wf p -> canonical p s0 -> solution p s -> kbound (len p) k ->
  interp s k = subst s (interp s0 k).
Proof.
  intros Hwf Hc Hs Hk. assert (IH' : forall j, kchild k j -> s j = subst s (s0 j)).
  { intros j Hj. eapply canonical_subst; eauto. }
  destruct k as [v| | | | | |args ret]; cbn [interp subst]; try reflexivity; [apply IH'; reflexivity|].
  f_equal; [|apply IH'; right; reflexivity]. rewrite map_map. apply map_ext_in. intros j Hj. apply IH'. left. exact Hj.
Qed.

(** * Contexts with the same meaning *)
Definition same (p p' : context) : Prop :=
  len p' = len p /\ wf p' /\ (forall s, solution p' s <-> solution p s) /\
  (forall i, unresolved p' i <-> unresolved p i).

Lemma same_refl p : wf p -> same p p.
Proof. intros H. split; [reflexivity|]. split; [exact H|]. split; reflexivity. Qed.

Lemma same_trans p q r : same p q -> same q r -> same p r.
Proof.
  intros (H1 & H2 & H3 & H4) (G1 & G2 & G3 & G4). split; [congruence|]. split; [exact G2|]. split.
  - intros s. rewrite G3. apply H3.
  - intros s. rewrite G4. apply H4.
Qed.

Lemma same_canonical p q s : same p q -> canonical p s -> canonical q s.
Proof. intros (_ & _ & H1 & H2) (H3 & H4). split; [apply H1, H3|]. intros v Hv. apply H4, H2, Hv. Qed.

Lemma same_forward p q : wf p -> wf q -> len q = len p ->
  (forall i, unresolved q i <-> unresolved p i) -> (forall s, solution p s -> solution q s) -> same p q.
Proof.
  intros Hp Hq Hl Hu Hf. split; [exact Hl|]. split; [exact Hq|]. split; [|exact Hu].
  intros s. split; [|apply Hf]. intros Hs.
  destruct (solution_exists p s Hp) as (s' & Hs' & Hsu).
  apply (solution_ext p s' s Hp); [|exact Hs'].
  intros i Hi. apply (solution_unique q s' s Hq); [apply Hf, Hs'|exact Hs| |lia].
  intros j Hj. apply Hsu, Hu, Hj.
Qed.

(** * Resolving *)
Definition normal (p : context) (k : kind) : Prop := kbound (len p) k /\ head_normal p k.

Lemma same_normal p q k : same p q -> normal p k -> normal q k.
Proof.
  intros (H1 & _ & _ & H2) (H3 & H4). split; [unfold kbound; rewrite H1; exact H3|].
  destruct k; cbn in *; auto. apply H2, H4.
Qed.

Lemma same_kbound p q k : same p q -> kbound (len p) k -> kbound (len q) k.
Proof. intros (H1 & _). rewrite H1. auto. Qed.

Lemma clos_one p j i : step p j i -> clos_trans var (step p) j i.
Proof. apply t_step. Qed.

Lemma resolve_var_ok p v : wf p -> (v < len p)%nat -> exists k p',
  conv (fun n => resolve_var n p v) (k, p') /\ same p p' /\ normal p' k /\
  (forall s, solution p s -> interp s k = s v) /\
  (forall i j, step p' j i -> clos_trans var (step p) j i) /\
  (forall j, kchild k j -> j = v \/ clos_trans var (step p) j v).
Proof.
  intros Hwf. pose proof Hwf as (Hb & Ha). induction (Ha v) as [v _ IH]. intros Hv.
  destruct (nth_error p v) as [k|] eqn:Hk; [|apply nth_error_None in Hk; lia].
  assert (Hbase : (forall w, k = KVar w -> w = v) -> exists k p',
    conv (fun n => resolve_var n p v) (k, p') /\ same p p' /\ normal p' k /\
    (forall s, solution p s -> interp s k = s v) /\
    (forall i j, step p' j i -> clos_trans var (step p) j i) /\
    (forall j, kchild k j -> j = v \/ clos_trans var (step p) j v)).
  { intros Hw. exists k, p. split; [|split; [apply same_refl, Hwf|split; [|split; [|split]]]].
    - eapply conv_step; [intros n; cbn [resolve_var]; rewrite (vget_some _ _ _ Hk); cbn [bind]; reflexivity|].
      destruct k as [w| | | | | |args ret]; try apply conv_ret. rewrite (Hw w eq_refl), Nat.eqb_refl. apply conv_ret.
    - split; [exact (Hb v k Hk)|]. destruct k as [w| | | | | |args ret]; cbn; auto. rewrite (Hw w eq_refl) in *. exact Hk.
    - intros s Hs. symmetry. apply Hs. exact Hk.
    - intros i j H. apply t_step, H.
    - intros j Hj. destruct k as [w| | | | | |args ret]; try contradiction.
      + left. cbn in Hj. rewrite Hj. apply Hw. reflexivity.
      + right. apply t_step. exists (KFun args ret). split; [exact Hk|]. split; [exact Hj|discriminate]. }
  destruct k as [w| | | | | |args ret]; try (apply Hbase; discriminate).
  destruct (Nat.eq_dec w v) as [Hwv|Hwv]; [apply Hbase; congruence|]. clear Hbase.
  assert (Hstep : step p w v) by (exists (KVar w); split; [exact Hk|split; [reflexivity|congruence]]).
  destruct (IH w Hstep (Hb v _ Hk w eq_refl)) as (k & p1 & Hc & Hsame & Hn & Hi & Hs & Hch).
  pose proof Hsame as (Hl1 & Hwf1 & Hsol1 & Hun1).
  destruct (vset_nth_error p1 v k) as (p2 & E2 & Hl2 & Hn2); [lia|].
  assert (Hkw : k <> KVar v).
  { intros ->. destruct Hn as (_ & Hn). cbn in Hn. apply Hun1 in Hn. unfold unresolved in Hn. congruence. }
  assert (Hu2 : forall i, unresolved p2 i <-> unresolved p i).
  { intros i. rewrite <- Hun1. unfold unresolved. rewrite Hn2. destruct (Nat.eqb_spec v i) as [->|Hne]; [|reflexivity].
    split; [congruence|]. intros H. apply Hun1 in H. unfold unresolved in H. congruence. }
  assert (Hch2 : forall j, kchild k j -> clos_trans var (step p) j v).
  { intros j Hj. apply Hch in Hj. destruct Hj as [->|Hj]; [apply t_step, Hstep|].
    apply t_trans with w; [exact Hj|apply t_step, Hstep]. }
  assert (Hst2 : forall i j, step p2 j i -> clos_trans var (step p) j i).
  { intros i j (k' & Hk' & Hj & Hne). rewrite Hn2 in Hk'. destruct (Nat.eqb_spec v i) as [->|Hvi].
    - injection Hk' as <-. apply Hch2, Hj.
    - apply Hs. exists k'. auto. }
  assert (Hwf2 : wf p2).
  { split.
    - intros i k' Hk'. rewrite Hn2 in Hk'. rewrite Hl2. destruct (Nat.eqb v i); [injection Hk' as <-; apply Hn|].
      exact (proj1 Hwf1 i k' Hk').
    - intros i. apply (Wellfounded.Inclusion.Acc_incl _ _ (clos_trans var (step p))).
      + intros x y. apply Hst2.
      + apply Wellfounded.Transitive_Closure.Acc_clos_trans. apply Ha. }
  assert (Hsame2 : same p p2).
  { apply same_forward; auto; [lia|]. intros s Hs' i k' Hk'. rewrite Hn2 in Hk'.
    destruct (Nat.eqb_spec v i) as [<-|Hvi].
    - injection Hk' as <-. rewrite (Hi s Hs'). apply (Hs' v _ Hk).
    - apply (proj2 (Hsol1 s) Hs'). exact Hk'. }
  exists k, p2. split; [|split; [exact Hsame2|split; [|split; [|split]]]].
  - eapply conv_step; [intros n; cbn [resolve_var]; rewrite (vget_some _ _ _ Hk); cbn [bind]; reflexivity|].
    destruct (Nat.eqb_spec w v) as [Heq|_]; [congruence|].
    eapply (conv_bind (fun n => resolve_var n p w)); [exact Hc|]. cbn beta iota. rewrite E2. cbn [bind]. apply conv_ret.
  - split; [rewrite Hl2; apply Hn|]. destruct k as [x| | | | | |args ret]; cbn; auto.
    destruct Hn as (_ & Hn). cbn in Hn. apply Hu2. apply Hun1, Hn.
  - intros s Hs'. rewrite (Hi s Hs'). symmetry. apply (Hs' v _ Hk).
  - exact Hst2.
  - intros j Hj. right. apply Hch2, Hj.
Qed.

Lemma resolve_ok p k : wf p -> kbound (len p) k -> exists k' p',
  conv (fun n => resolve n p k) (k', p') /\ same p p' /\ normal p' k' /\
  (forall s, solution p s -> interp s k' = interp s k).
Proof.
  intros Hwf Hb. destruct k as [v| | | | | |args ret]; cbn [resolve];
    try (eexists _, p; split; [apply conv_ret|split; [apply same_refl, Hwf|split; [split; [exact Hb|exact I]|reflexivity]]]).
  destruct (resolve_var_ok p v Hwf) as (k & p' & H1 & H2 & H3 & H4 & _); [apply Hb; reflexivity|].
  exists k, p'. auto.
Qed.

(** * The occurs check *)
Lemma occ_interp s0 p v k : canonical p s0 -> (forall w, k <> KVar w) ->
  (occ v (interp s0 k) <-> exists j, kchild k j /\ occ v (s0 j)).
Proof.
  intros _ Hn. destruct k as [w| | | | | |args ret]; cbn [interp kchild];
    try (cbn [occ]; split; [tauto|intros (j & [] & _)]); [exfalso; eapply Hn; reflexivity|].
  rewrite occ_fun, Exists_exists. split.
  - intros [(t & Ht & Ho)|Ho]; [|exists ret; auto]. apply in_map_iff in Ht. destruct Ht as (j & <- & Hj). exists j; auto.
  - intros (j & [Hj| ->] & Ho); [left|right; exact Ho]. exists (s0 j). split; [apply in_map, Hj|exact Ho].
Qed.

Lemma occurs_ok v m : forall p s0 k, wf p -> canonical p s0 -> kbound (len p) k -> (size (interp s0 k) <= m)%nat ->
  exists p' r, conv (fun n => occurs_check n p k v) (p', r) /\ same p p' /\
    match r with Ok => ~ occ v (interp s0 k) | Err _ => occ v (interp s0 k) end.
Proof.
  unfold occurs_check. set (f := fun k => match k with KVar w => if Nat.eqb w v then Err tt else Ok | _ => Ok end).
  induction m as [|m IH]; intros p s0 k Hwf Hc Hb Hm; [pose proof (size_pos (interp s0 k)); lia|].
  destruct (resolve_ok p k Hwf Hb) as (k1 & p1 & Hr & Hs1 & Hn1 & Hi1).
  pose proof (Hi1 s0 (proj1 Hc)) as Ei. rewrite <- Ei in *. clear Ei Hi1 Hb.
  pose proof (same_canonical _ _ _ Hs1 Hc) as Hc1. pose proof Hs1 as (_ & Hwf1 & _).
  assert (Hleaf : (forall args ret, k1 <> KFun args ret) -> exists p' r, conv (fun n => dfs n f p k) (p', r) /\ same p p' /\
    match r with Ok => ~ occ v (interp s0 k1) | Err _ => occ v (interp s0 k1) end).
  { intros Hnf. exists p1, (f k1). split; [|split; [exact Hs1|]].
    - eapply conv_step; [intros n; reflexivity|]. eapply (conv_bind (fun n => resolve n p k)); [exact Hr|].
      destruct k1; try apply conv_ret. exfalso. eapply Hnf. reflexivity.
    - destruct k1 as [w| | | | | |args ret]; try (cbn; tauto); [|exfalso; eapply Hnf; reflexivity].
      destruct Hn1 as (_ & Hn1). cbn [head_normal] in Hn1. cbn [f interp]. rewrite (proj2 Hc1 w Hn1). cbn [occ].
      unfold f. destruct (Nat.eqb_spec w v); auto. }
  destruct k1 as [w| | | | | |args ret]; try (apply Hleaf; discriminate). clear Hleaf.
  assert (Hsz : forall j, kchild (KFun args ret) j -> (size (s0 j) <= m)%nat).
  { intros j Hj. pose proof (interp_child_size s0 (KFun args ret) j Hj). specialize (H ltac:(discriminate)). lia. }
  assert (Hbj : forall j, kchild (KFun args ret) j -> kbound (len p) (KVar j)).
  { intros j Hj x ->. rewrite <- (proj1 Hs1). apply (proj1 Hn1), Hj. }
  assert (Hl : forall l p1, incl l (vars_iter args) -> same p p1 ->
    exists p' r, conv (fun n => for_each (fun p v => dfs n f p (KVar v)) p1 l) (p', r) /\ same p p' /\
      match r with Ok => forall j, In j l -> ~ occ v (s0 j) | Err _ => exists j, In j l /\ occ v (s0 j) end).
  { clear p1 Hr Hs1 Hn1 Hc1 Hwf1. induction l as [|j l IHl]; intros p1 Hincl Hs1.
    - exists p1, Ok. split; [apply conv_ret|]. split; [exact Hs1|]. intros j [].
    - assert (Hj : kchild (KFun args ret) j) by (left; apply Hincl; left; reflexivity).
      destruct (IH p1 s0 (KVar j)) as (p2 & r & Hc2 & Hs2 & Ho).
      + apply Hs1.
      + eapply same_canonical; eauto.
      + apply (same_kbound p p1 (KVar j) Hs1). apply Hbj, Hj.
      + cbn. apply Hsz, Hj.
      + cbn [interp] in Ho. pose proof (same_trans _ _ _ Hs1 Hs2) as Hs12. destruct r as [|e].
        * destruct (IHl p2) as (p3 & r & Hc3 & Hs3 & Ho3); [intros x Hx; apply Hincl; right; exact Hx|exact Hs12|].
          exists p3, r. split; [|split; [exact Hs3|]].
          -- cbn [for_each]. eapply (conv_bind (fun n => dfs n f p1 (KVar j))); [exact Hc2|]. exact Hc3.
          -- destruct r as [|e].
             ++ intros x [<-|Hx]; [exact Ho|apply Ho3, Hx].
             ++ destruct Ho3 as (x & Hx & Hox). exists x. split; [right; exact Hx|exact Hox].
        * exists p2, (Err e). split; [|split; [exact Hs12|]].
          -- cbn [for_each]. eapply (conv_bind (fun n => dfs n f p1 (KVar j))); [exact Hc2|]. apply conv_ret.
          -- exists j. split; [left; reflexivity|exact Ho]. }
  destruct (Hl (vars_iter args) p1 (incl_refl _) Hs1) as (p2 & r & Hc2 & Hs2 & Ho2).
  pose proof (occ_interp s0 p v (KFun args ret) Hc ltac:(discriminate)) as Hocc.
  destruct r as [|e].
  - destruct (IH p2 s0 (KVar ret)) as (p3 & r & Hc3 & Hs3 & Ho3).
    + apply Hs2.
    + eapply same_canonical; eauto.
    + apply (same_kbound p p2 (KVar ret) Hs2). apply Hbj. right. reflexivity.
    + cbn. apply Hsz. right. reflexivity.
    + exists p3, r. split; [|split; [eapply same_trans; eauto|]].
      * eapply conv_step; [intros n; reflexivity|]. eapply (conv_bind (fun n => resolve n p k)); [exact Hr|]. cbn beta iota.
        eapply (conv_bind (fun n => let* r := for_each (fun p v => dfs n f p (KVar v)) p1 (vars_iter args) in
          match r with (pool, Ok) => dfs n f pool (KVar ret) | (pool, Err e) => Ret (pool, Err e) end)).
        { eapply (conv_bind (fun n => for_each (fun p v => dfs n f p (KVar v)) p1 (vars_iter args))); [exact Hc2|]. exact Hc3. }
        destruct r as [|e]; apply conv_ret.
      * cbn [interp] in Ho3. destruct r as [|e].
        -- rewrite Hocc. intros (j & [Hj| ->] & Hoj); [exact (Ho2 j Hj Hoj)|exact (Ho3 Hoj)].
        -- rewrite Hocc. exists ret. split; [right; reflexivity|exact Ho3].
  - exists p2, (Err e). split; [|split; [exact Hs2|]].
    + eapply conv_step; [intros n; reflexivity|]. eapply (conv_bind (fun n => resolve n p k)); [exact Hr|]. cbn beta iota.
      eapply (conv_bind (fun n => let* r := for_each (fun p v => dfs n f p (KVar v)) p1 (vars_iter args) in
        match r with (pool, Ok) => dfs n f pool (KVar ret) | (pool, Err e) => Ret (pool, Err e) end)).
      { eapply (conv_bind (fun n => for_each (fun p v => dfs n f p (KVar v)) p1 (vars_iter args))); [exact Hc2|]. apply conv_ret. }
      apply conv_ret.
    + rewrite Hocc. destruct Ho2 as (j & Hj & Hoj). exists j. split; [left; exact Hj|exact Hoj].
Qed.
