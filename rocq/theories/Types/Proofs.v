From Verif.Base Require Import Base BaseFacts VecFacts.
From Verif.Types Require Import Model Spec.
From Coq Require Import Relation_Operators Transitive_Closure.
From Coq Require Wellfounded.Inclusion Wellfounded.Transitive_Closure.

(** * Terms *)
Lemma gty_ind' (P : gty -> Prop) :
  (forall n k lv, P (TName n k lv)) -> (forall c, P (TCon c)) ->
  (forall callee args, P callee -> Forall P args -> P (TApp callee args)) ->
  (forall g lv, P (TGen g lv)) -> forall t, P t.
Proof.
  intros Hn Hc Ha Hg. fix IH 1. intros [n k lv|c|callee args|g lv].
  - apply Hn.
  - apply Hc.
  - apply Ha; [apply IH|]. induction args as [|a args IHa]; constructor; [apply IH|exact IHa].
  - apply Hg.
Qed.

Fixpoint size (t : gty) : nat :=
  match t with
  | TApp callee args => S (size callee + list_sum (map size args))
  | _ => 1%nat
  end.

Fixpoint gsubst (s : var -> gty) (t : gty) : gty :=
  match t with
  | TName v _ _ => s v
  | TApp callee args => TApp (gsubst s callee) (map (gsubst s) args)
  | t => t
  end.

Definition occ (v : var) (t : gty) : Prop := exists k lv, In (TName v k lv) (leaves t).

Lemma occ_name v n k lv : occ v (TName n k lv) <-> v = n.
Proof.
  unfold occ. cbn. split.
  - intros (k' & lv' & [H|[]]). congruence.
  - intros ->. exists k, lv. auto.
Qed.

Lemma occ_app v callee args : occ v (TApp callee args) <-> occ v callee \/ exists a, In a args /\ occ v a.
Proof.
  unfold occ. cbn [leaves]. split.
  - intros (k & lv & H). apply in_app_iff in H. destruct H as [H|H]; [left; eauto|right].
    apply in_flat_map in H. destruct H as (a & Ha & H). eauto.
  - intros [(k & lv & H)|(a & Ha & k & lv & H)]; exists k, lv; apply in_app_iff; [left; exact H|right].
    apply in_flat_map. eauto.
Qed.

Lemma size_pos t : (1 <= size t)%nat.
Proof. destruct t; cbn; lia. Qed.

Lemma size_in a l : In a l -> (size a <= list_sum (map size l))%nat.
Proof.
  induction l as [|b l IH]; cbn [In map]; [tauto|]. change (list_sum (size b :: map size l)) with (size b + list_sum (map size l))%nat.
  intros [->|H]; [lia|]. specialize (IH H). lia.
Qed.

Lemma gsubst_size s v t : occ v t -> (size (s v) <= size (gsubst s t))%nat /\
  ((forall k lv, t <> TName v k lv) -> (size (s v) < size (gsubst s t))%nat).
Proof.
  induction t as [n k lv|c|callee args IHc IHa|g lv] using gty_ind'; intros H.
  - apply occ_name in H. subst. cbn. split; [lia|]. intros H. exfalso. eapply H. reflexivity.
  - destruct H as (k & lv & [H|[]]). discriminate.
  - apply occ_app in H. cbn [gsubst size].
    enough (size (s v) <= size (gsubst s callee) + list_sum (map size (map (gsubst s) args)))%nat by (split; intros; lia).
    destruct H as [H|(a & Ha & Ho)]; [apply IHc in H; lia|]. rewrite Forall_forall in IHa.
    pose proof (proj1 (IHa a Ha Ho)) as Hs.
    pose proof (size_in (gsubst s a) (map (gsubst s) args) (in_map _ _ _ Ha)) as Hi. lia.
  - destruct H as (k & l & [H|[]]). discriminate.
Qed.

Lemma leaves_gsubst s t : leaves (gsubst s t) =
  flat_map (fun x => match x with TName v _ _ => leaves (s v) | x => [x] end) (leaves t).
Proof.
  induction t as [n k lv|c|callee args IHc IHa|g lv] using gty_ind'; cbn [gsubst leaves flat_map app]; try reflexivity.
  - rewrite app_nil_r. reflexivity.
  - rewrite flat_map_app, IHc. f_equal. induction args as [|a args IH]; [reflexivity|].
    inversion_clear IHa as [|x l Ha Hl]. cbn [map flat_map]. rewrite flat_map_app, Ha, (IH Hl). reflexivity.
Qed.

Lemma leaf_leaves t x : In x (leaves t) -> leaves x = [x].
Proof.
  induction t as [n k lv|c|callee args IHc IHa|g lv] using gty_ind'; cbn [leaves].
  1,2,4: intros [<-|[]]; reflexivity.
  intros H. apply in_app_iff in H. destruct H as [H|H]; [apply IHc, H|]. apply in_flat_map in H. destruct H as (a & Ha & H).
  rewrite Forall_forall in IHa. exact (IHa a Ha H).
Qed.

Lemma within_gsubst lv s t : within lv (gsubst s t) <->
  forall x, In x (leaves t) -> match x with TName v _ _ => within lv (s v) | TGen _ l => (l <= lv)%N | _ => True end.
Proof.
  unfold within. rewrite leaves_gsubst. split.
  - intros H x Hx. destruct x as [v k l|c|callee args|g l]; auto.
    + intros y Hy. apply (H y). apply in_flat_map. exists (TName v k l). auto.
    + apply (H (TGen g l)). apply in_flat_map. exists (TGen g l). split; [exact Hx|left; reflexivity].
  - intros H y Hy. apply in_flat_map in Hy. destruct Hy as (x & Hx & Hy). specialize (H x Hx).
    destruct x as [v k l|c|callee args|g l].
    + exact (H y Hy).
    + destruct Hy as [<-|[]]. exact I.
    + destruct Hy as [<-|[]]. exact I.
    + destruct Hy as [<-|[]]. exact H.
Qed.

(** * Well-formed contexts *)
Definition tchild (t : ty) (j : var) : Prop :=
  match t with
  | YVar w _ _ => j = w
  | YApp callee args => j = callee \/ In j (vars_iter args)
  | _ => False
  end.

Definition is_self (t : ty) (i : var) : bool := match t with YVar v _ _ => Nat.eqb v i | _ => false end.

Definition tbound (n : nat) (t : ty) : Prop := forall j, tchild t j -> (j < n)%nat.

Definition step (p : context) (j i : var) : Prop :=
  exists t, nth_error p i = Some t /\ tchild t j /\ is_self t i = false.

Definition shaped (p : context) : Prop :=
  (forall i t, nth_error p i = Some t -> tbound (List.length p) t) /\ (forall i, Acc (step p) i).

Notation len := (@List.length ty).

Definition unres (p : context) (v : var) : Prop := exists k lv, unresolved p v k lv.

Lemma is_self_true t i : is_self t i = true -> exists k lv, t = YVar i k lv.
Proof. destruct t as [v k lv| | |]; cbn; try discriminate. intros H. apply Nat.eqb_eq in H. subst. eauto. Qed.

Lemma unres_self p i t : nth_error p i = Some t -> (unres p i <-> is_self t i = true).
Proof.
  intros H. split.
  - intros (k & lv & Hu). unfold unresolved in Hu. rewrite H in Hu. injection Hu as ->. cbn. apply Nat.eqb_refl.
  - intros Hs. apply is_self_true in Hs. destruct Hs as (k & lv & ->). exists k, lv. exact H.
Qed.

Lemma interp_ext s s' t : (forall j, tchild t j -> s j = s' j) -> interp s t = interp s' t.
Proof.
  destruct t as [v k lv|c|callee args|g lv]; cbn; intros H; auto.
  f_equal; auto. apply map_ext_in. auto.
Qed.

Lemma interp_child_size s t j : tchild t j -> (forall v k lv, t <> YVar v k lv) -> (size (s j) < size (interp s t))%nat.
Proof.
  destruct t as [v k lv|c|callee args|g lv]; cbn; intros H Hn; try contradiction; [exfalso; eapply Hn; reflexivity|].
  destruct H as [->|H]; [lia|].
  pose proof (size_in (s j) (map s (vars_iter args)) (in_map _ _ _ H)). pose proof (size_pos (s callee)). lia.
Qed.

Lemma equations_ext p s s' : shaped p -> (forall i, (i < len p)%nat -> s i = s' i) -> equations p s -> equations p s'.
Proof.
  intros (Hb & _) H Hs i t Ht. rewrite <- H by (apply nth_error_Some; congruence).
  rewrite (Hs i t Ht). apply interp_ext. intros j Hj. apply H. exact (Hb i t Ht j Hj).
Qed.

Lemma equations_unique p s s' : shaped p -> equations p s -> equations p s' ->
  (forall i, unres p i -> s i = s' i) -> forall i, (i < len p)%nat -> s i = s' i.
Proof.
  intros (Hb & Ha) Hs Hs' Hu i. induction (Ha i) as [i _ IH]. intros Hi.
  destruct (nth_error p i) as [t|] eqn:Ht; [|apply nth_error_None in Ht; lia].
  destruct (is_self t i) eqn:E.
  - apply Hu. apply (unres_self p i t Ht), E.
  - rewrite (Hs i t Ht), (Hs' i t Ht). apply interp_ext. intros j Hj. apply IH; [|exact (Hb i t Ht j Hj)].
    exists t. auto.
Qed.

(** Existence of solutions: unfold the bindings deep enough. *)
Fixpoint den (n : nat) (p : context) (f : var -> gty) (i : var) : gty :=
  match n with
  | O => TCon 0%N
  | S n =>
    match nth_error p i with
    | None => f i
    | Some t => if is_self t i then f i else interp (den n p f) t
    end
  end.

Lemma tchild_list t : exists l, forall j, tchild t j <-> In j l.
Proof.
  destruct t as [v k lv|c|callee args|g lv]; cbn; try (exists []; cbn; tauto).
  - exists [v]. cbn. intros j; split; [intros ->; auto|intros [->|[]]; auto].
  - exists (callee :: vars_iter args). intros j. cbn. split; intros [H|H]; auto.
Qed.

Lemma stable_list p f (l : list var) :
  (forall j, In j l -> exists N, forall n, (N <= n)%nat -> den n p f j = den N p f j) ->
  exists N, forall j, In j l -> forall n, (N <= n)%nat -> den n p f j = den N p f j.
Proof.
  induction l as [|x l IH]; intros H; [exists 0%nat; intros j []|].
  destruct (H x (or_introl eq_refl)) as (N1 & H1). destruct IH as (N2 & H2); [intros j Hj; apply H; right; exact Hj|].
  exists (Nat.max N1 N2). intros j [<-|Hj] n Hn.
  - rewrite (H1 n) by lia. rewrite (H1 (Nat.max N1 N2)) by lia. reflexivity.
  - rewrite (H2 j Hj n) by lia. rewrite (H2 j Hj (Nat.max N1 N2)) by lia. reflexivity.
Qed.

Lemma den_stable p f : shaped p -> forall i, exists N, forall n, (N <= n)%nat -> den n p f i = den N p f i.
Proof.
  intros (Hb & Ha) i. induction (Ha i) as [i _ IH].
  destruct (nth_error p i) as [t|] eqn:Ht.
  - destruct (is_self t i) eqn:Ek.
    + exists 1%nat. intros [|n] Hn; [lia|]. cbn [den]. rewrite Ht, Ek. reflexivity.
    + destruct (tchild_list t) as (l & Hl). destruct (stable_list p f l) as (N & HN).
      { intros j Hj. apply IH. exists t. apply Hl in Hj. auto. }
      exists (S N). intros [|n] Hn; [lia|]. cbn [den]. rewrite Ht, Ek. apply interp_ext.
      intros j Hj. apply Hl in Hj. apply HN; [exact Hj|lia].
  - exists 1%nat. intros [|n] Hn; [lia|]. cbn [den]. rewrite Ht. reflexivity.
Qed.

Lemma equations_exists p f : shaped p -> exists s, equations p s /\ forall i, unres p i -> s i = f i.
Proof.
  intros Hwf. destruct (stable_list p f (seq 0 (len p))) as (N & HN).
  { intros j _. apply den_stable. exact Hwf. }
  assert (HN' : forall i t, nth_error p i = Some t -> den N p f i = den (S N) p f i).
  { intros i t Ht. symmetry. apply HN; [|lia]. apply in_seq. split; [lia|]. apply nth_error_Some. congruence. }
  exists (den N p f). split.
  - intros i t Ht. destruct (is_self t i) eqn:Ek.
    + apply is_self_true in Ek. destruct Ek as (k & lv & ->). reflexivity.
    + rewrite (HN' i t Ht). cbn [den]. rewrite Ht, Ek. reflexivity.
  - intros i (k & lv & Hi). rewrite (HN' i _ Hi). cbn [den]. unfold unresolved in Hi. rewrite Hi. cbn [is_self].
    rewrite Nat.eqb_refl. reflexivity.
Qed.

Lemma canonical_exists p : shaped p -> exists s, canonical p s.
Proof.
  intros H. destruct (equations_exists p (fun i => match nth_error p i with Some (YVar _ k lv) => TName i k lv | _ => TCon 0%N end) H) as (s & H1 & H2).
  exists s. split; [exact H1|]. intros v k lv Hv. rewrite H2 by (exists k, lv; exact Hv). unfold unresolved in Hv. rewrite Hv. reflexivity.
Qed.

Lemma canonical_gsubst p s0 s : shaped p -> canonical p s0 -> equations p s ->
  forall i, (i < len p)%nat -> s i = gsubst s (s0 i).
Proof.
  intros (Hb & Ha) (Hs0 & Hu) Hs i. induction (Ha i) as [i _ IH]. intros Hi.
  destruct (nth_error p i) as [t|] eqn:Ht; [|apply nth_error_None in Ht; lia].
  destruct (is_self t i) eqn:Ek.
  - apply is_self_true in Ek. destruct Ek as (k & lv & ->). rewrite (Hu i k lv Ht). reflexivity.
  - rewrite (Hs i t Ht), (Hs0 i t Ht). assert (IH' : forall j, tchild t j -> s j = gsubst s (s0 j)).
    { intros j Hj. apply IH; [|exact (Hb i t Ht j Hj)]. exists t. auto. }
    destruct t as [v k lv|c|callee args|g lv]; cbn [interp gsubst]; try reflexivity; [apply IH'; reflexivity|].
    f_equal; [apply IH'; left; reflexivity|]. rewrite map_map. apply map_ext_in. intros j Hj. apply IH'. right. exact Hj.
Qed.

Lemma canonical_gsubst_t p s0 s t : shaped p -> canonical p s0 -> equations p s -> tbound (len p) t ->
  interp s t = gsubst s (interp s0 t).
Proof.
  intros Hwf Hc Hs Ht. assert (IH' : forall j, tchild t j -> s j = gsubst s (s0 j)).
  { intros j Hj. eapply canonical_gsubst; eauto. }
  destruct t as [v k lv|c|callee args|g lv]; cbn [interp gsubst]; try reflexivity; [apply IH'; reflexivity|].
  f_equal; [apply IH'; left; reflexivity|]. rewrite map_map. apply map_ext_in. intros j Hj. apply IH'. right. exact Hj.
Qed.

Lemma canonical_leaf p s0 v k lv : shaped p -> canonical p s0 -> forall i, (i < len p)%nat ->
  In (TName v k lv) (leaves (s0 i)) -> unresolved p v k lv.
Proof.
  intros (Hb & Ha) (Hs & Hu) i. induction (Ha i) as [i _ IH]. intros Hi Ho.
  destruct (nth_error p i) as [t|] eqn:Ht; [|apply nth_error_None in Ht; lia].
  destruct (is_self t i) eqn:Ek.
  - apply is_self_true in Ek. destruct Ek as (k' & lv' & ->). rewrite (Hu i k' lv' Ht) in Ho.
    destruct Ho as [Ho|[]]. injection Ho as -> -> ->. exact Ht.
  - assert (Hc : exists j, tchild t j /\ In (TName v k lv) (leaves (s0 j))).
    { rewrite (Hs i t Ht) in Ho. destruct t as [w k' lv'|c|callee args|g lv']; cbn [interp leaves] in Ho.
      - exists w. split; [reflexivity|exact Ho].
      - destruct Ho as [Ho|[]]. discriminate.
      - apply in_app_iff in Ho. destruct Ho as [Ho|Ho]; [exists callee; split; [left; reflexivity|exact Ho]|].
        apply in_flat_map in Ho. destruct Ho as (a & Ha' & Ho). apply in_map_iff in Ha'. destruct Ha' as (j & <- & Hj).
        exists j. split; [right; exact Hj|exact Ho].
      - destruct Ho as [Ho|[]]. discriminate. }
    destruct Hc as (j & Hj & Hoj). apply (IH j); [|exact (Hb i t Ht j Hj)|exact Hoj]. exists t. auto.
Qed.

Lemma leaves_child s t x : In x (leaves (interp s t)) -> (forall v k lv, t <> YVar v k lv) ->
  leaves (interp s t) = [interp s t] \/ exists j, tchild t j /\ In x (leaves (s j)).
Proof.
  destruct t as [w k lv|c|callee args|g lv]; cbn [interp leaves tchild]; intros H Hn; auto.
  - exfalso. eapply Hn. reflexivity.
  - right. apply in_app_iff in H. destruct H as [H|H]; [exists callee; auto|].
    apply in_flat_map in H. destruct H as (a & Ha & H). apply in_map_iff in Ha. destruct Ha as (j & <- & Hj). exists j; auto.
Qed.

Lemma canonical_leaf_t p s0 v k lv t : shaped p -> canonical p s0 -> tbound (len p) t ->
  In (TName v k lv) (leaves (interp s0 t)) -> unresolved p v k lv.
Proof.
  intros Hwf Hc Ht Ho.
  assert (exists j, tchild t j /\ In (TName v k lv) (leaves (s0 j))) as (j & Hj & Hoj).
  { destruct t as [w k' lv'|c|callee args|g lv']; cbn [interp] in Ho; [exists w; split; [reflexivity|exact Ho]|..].
    - destruct Ho as [Ho|[]]; discriminate.
    - destruct (leaves_child s0 (YApp callee args) _ Ho ltac:(discriminate)) as [H|H]; [|exact H].
      cbn [interp] in H. rewrite H in Ho. destruct Ho as [Ho|[]]. discriminate.
    - destruct Ho as [Ho|[]]; discriminate. }
  exact (canonical_leaf p s0 v k lv Hwf Hc j (Ht j Hj) Hoj).
Qed.

(** * Kinds *)
Section Kinded.
  Variable env : kind_env.
  Variable kap : var -> ast_kind.

  Definition hask (t : ty) (k : ast_kind) : Prop :=
    match t with
    | YVar v _ _ => kap v = k
    | YCon c => con_kind env c = k
    | YApp callee args => exists ks, kap callee = AFun ks k /\ vars_iter args <> []
    | YGen g _ => gen_kind env g = k
    end.

  Definition kinded (p : context) : Prop :=
    forall i t, nth_error p i = Some t -> hask t (kap i) /\ forall k lv, t = YVar i k lv -> kap i = k.

  Definition wf (p : context) : Prop := shaped p /\ kinded p.

  Lemma kind_of_interp s t k : (forall j, tchild t j -> kind_of env (s j) = Some (kap j)) -> hask t k -> kind_of env (interp s t) = Some k.
  Proof.
    intros H Hk. destruct t as [w k' lv'|c|callee args|g lv']; cbn in *.
    - rewrite <- Hk. apply H. reflexivity.
    - congruence.
    - destruct Hk as (ks & Hk & _). rewrite H by auto. rewrite Hk. reflexivity.
    - congruence.
  Qed.

  Lemma kind_of_solution p s : wf p -> equations p s ->
    (forall v k lv, unresolved p v k lv -> kind_of env (s v) = Some k) ->
    forall i, (i < len p)%nat -> kind_of env (s i) = Some (kap i).
  Proof.
    intros ((Hb & Ha) & Hk) Hs Hu i. induction (Ha i) as [i _ IH]. intros Hi.
    destruct (nth_error p i) as [t|] eqn:Ht; [|apply nth_error_None in Ht; lia].
    destruct (Hk i t Ht) as (Hh & Hself). destruct (is_self t i) eqn:Ek.
    - apply is_self_true in Ek. destruct Ek as (k & lv & ->). rewrite (Hself k lv eq_refl). exact (Hu i k lv Ht).
    - rewrite (Hs i t Ht). apply kind_of_interp; [|exact Hh]. intros j Hj. apply IH; [|exact (Hb i t Ht j Hj)]. exists t. auto.
  Qed.

  (** * Contexts with the same meaning *)
  Definition same (p p' : context) : Prop :=
    len p' = len p /\ wf p' /\ (forall s, equations p' s <-> equations p s) /\
    (forall i k lv, unresolved p' i k lv <-> unresolved p i k lv).

  Lemma same_refl p : wf p -> same p p.
  Proof. intros H. split; [reflexivity|]. split; [exact H|]. split; reflexivity. Qed.

  Lemma same_trans p q r : same p q -> same q r -> same p r.
  Proof.
    intros (H1 & H2 & H3 & H4) (G1 & G2 & G3 & G4). split; [congruence|]. split; [exact G2|]. split.
    - intros s. rewrite G3. apply H3.
    - intros s k lv. rewrite G4. apply H4.
  Qed.

  Lemma same_canonical p q s : same p q -> canonical p s -> canonical q s.
  Proof. intros (_ & _ & H1 & H2) (H3 & H4). split; [apply H1, H3|]. intros v k lv Hv. apply H4, H2, Hv. Qed.

  Lemma same_unres p q i : same p q -> unres q i <-> unres p i.
  Proof. intros (_ & _ & _ & H). split; intros (k & lv & Hu); exists k, lv; apply H, Hu. Qed.

  Lemma same_fits p q s : same p q -> fits env q s <-> fits env p s.
  Proof. intros (_ & _ & _ & H). split; intros Hf v k lv Hu; apply Hf, H, Hu. Qed.

  Lemma same_forward p q : wf p -> wf q -> len q = len p ->
    (forall i k lv, unresolved q i k lv <-> unresolved p i k lv) -> (forall s, equations p s -> equations q s) -> same p q.
  Proof.
    intros Hp Hq Hl Hu Hf. split; [exact Hl|]. split; [exact Hq|]. split; [|exact Hu].
    intros s. split; [|apply Hf]. intros Hs.
    destruct (equations_exists p s (proj1 Hp)) as (s' & Hs' & Hsu).
    apply (equations_ext p s' s (proj1 Hp)); [|exact Hs'].
    intros i Hi. apply (equations_unique q s' s (proj1 Hq)); [apply Hf, Hs'|exact Hs| |lia].
    intros j (k & lv & Hj). apply Hsu. exists k, lv. apply Hu, Hj.
  Qed.

  (** * Resolving *)
  Definition normal (p : context) (t : ty) : Prop := tbound (len p) t /\ head_normal p t.

  Lemma same_normal p q t : same p q -> normal p t -> normal q t.
  Proof.
    intros (H1 & _ & _ & H2) (H3 & H4). split; [unfold tbound; rewrite H1; exact H3|].
    destruct t; cbn in *; auto. apply H2, H4.
  Qed.

  Lemma same_tbound p q t : same p q -> tbound (len p) t -> tbound (len q) t.
  Proof. intros (H1 & _). rewrite H1. auto. Qed.

  Lemma resolve_var_ok p v : wf p -> (v < len p)%nat -> exists t p',
    conv (fun n => resolve_var n p v) (t, p') /\ same p p' /\ normal p' t /\ hask t (kap v) /\
    (forall s, equations p s -> interp s t = s v) /\
    (forall i j, step p' j i -> clos_trans var (step p) j i) /\
    (forall j, tchild t j -> j = v \/ clos_trans var (step p) j v).
  Proof.
    intros Hwf. pose proof Hwf as ((Hb & Ha) & Hkd). induction (Ha v) as [v _ IH]. intros Hv.
    destruct (nth_error p v) as [t|] eqn:Ht; [|apply nth_error_None in Ht; lia].
    assert (Hbase : (forall w k lv, t = YVar w k lv -> w = v) -> exists t p',
      conv (fun n => resolve_var n p v) (t, p') /\ same p p' /\ normal p' t /\ hask t (kap v) /\
      (forall s, equations p s -> interp s t = s v) /\
      (forall i j, step p' j i -> clos_trans var (step p) j i) /\
      (forall j, tchild t j -> j = v \/ clos_trans var (step p) j v)).
    { intros Hw. exists t, p. split; [|split; [apply same_refl, Hwf|split; [|split; [|split; [|split]]]]].
      - eapply conv_step; [intros n; cbn [resolve_var]; rewrite (vget_some _ _ _ Ht); cbn [bind]; reflexivity|].
        destruct t as [w k lv|c|callee args|g lv]; try apply conv_ret. rewrite (Hw w k lv eq_refl), Nat.eqb_refl. apply conv_ret.
      - split; [exact (Hb v t Ht)|]. destruct t as [w k lv|c|callee args|g lv]; cbn; auto. rewrite (Hw w k lv eq_refl) in *. exact Ht.
      - apply (Hkd v t Ht).
      - intros s Hs. symmetry. apply Hs. exact Ht.
      - intros i j H. apply t_step, H.
      - intros j Hj. destruct t as [w k lv|c|callee args|g lv]; try contradiction.
        + left. cbn in Hj. rewrite Hj. eapply Hw. reflexivity.
        + right. apply t_step. exists (YApp callee args). auto. }
    destruct t as [w kw lw|c|callee args|g lv]; try (apply Hbase; discriminate).
    destruct (Nat.eq_dec w v) as [Hwv|Hwv]; [apply Hbase; congruence|]. clear Hbase.
    assert (Hstep : step p w v).
    { exists (YVar w kw lw). split; [exact Ht|]. split; [reflexivity|]. cbn. destruct (Nat.eqb_spec w v); congruence. }
    destruct (IH w Hstep (Hb v _ Ht w eq_refl)) as (t & p1 & Hc & Hsame & Hn & Hh & Hi & Hs & Hch).
    assert (Ekap : kap w = kap v) by (exact (proj1 (Hkd v _ Ht))).
    pose proof Hsame as (Hl1 & Hwf1 & Hsol1 & Hun1).
    destruct (vset_nth_error p1 v t) as (p2 & E2 & Hl2 & Hn2); [lia|].
    assert (Hvp1 : forall k lv, nth_error p1 v <> Some (YVar v k lv)).
    { intros k lv H. assert (Hu : unresolved p1 v k lv) by exact H. apply Hun1 in Hu. unfold unresolved in Hu. congruence. }
    assert (Htw : forall k lv, t <> YVar v k lv).
    { intros k lv ->. destruct Hn as (_ & Hn). cbn in Hn. exact (Hvp1 k lv Hn). }
    assert (Hu2 : forall i k lv, unresolved p2 i k lv <-> unresolved p i k lv).
    { intros i k lv. rewrite <- Hun1. unfold unresolved. rewrite Hn2. destruct (Nat.eqb_spec v i) as [->|Hne]; [|reflexivity].
      split; intros H; exfalso; [eapply Htw|eapply Hvp1]; [injection H; eauto|eauto]. }
    assert (Hch2 : forall j, tchild t j -> clos_trans var (step p) j v).
    { intros j Hj. apply Hch in Hj. destruct Hj as [->|Hj]; [apply t_step, Hstep|].
      apply t_trans with w; [exact Hj|apply t_step, Hstep]. }
    assert (Hst2 : forall i j, step p2 j i -> clos_trans var (step p) j i).
    { intros i j (t' & Ht' & Hj & Hne). rewrite Hn2 in Ht'. destruct (Nat.eqb_spec v i) as [->|Hvi].
      - injection Ht' as <-. apply Hch2, Hj.
      - apply Hs. exists t'. auto. }
    assert (Hwf2 : wf p2).
    { split; [split|].
      - intros i t' Ht'. rewrite Hn2 in Ht'. rewrite Hl2. destruct (Nat.eqb v i); [injection Ht' as <-; apply Hn|].
        exact (proj1 (proj1 Hwf1) i t' Ht').
      - intros i. apply (Wellfounded.Inclusion.Acc_incl _ _ (clos_trans var (step p))).
        + intros x y. apply Hst2.
        + apply Wellfounded.Transitive_Closure.Acc_clos_trans. apply Ha.
      - intros i t' Ht'. rewrite Hn2 in Ht'. destruct (Nat.eqb_spec v i) as [->|Hvi]; [|exact (proj2 Hwf1 i t' Ht')].
        injection Ht' as <-. split; [rewrite <- Ekap; exact Hh|]. intros k lv E. exfalso. exact (Htw k lv E). }
    assert (Hsame2 : same p p2).
    { apply same_forward; auto; [lia|]. intros s Hs' i t' Ht'. rewrite Hn2 in Ht'.
      destruct (Nat.eqb_spec v i) as [<-|Hvi].
      - injection Ht' as <-. rewrite (Hi s Hs'). apply (Hs' v _ Ht).
      - apply (proj2 (Hsol1 s) Hs'). exact Ht'. }
    exists t, p2. split; [|split; [exact Hsame2|split; [|split; [|split; [|split]]]]].
    - eapply conv_step; [intros n; cbn [resolve_var]; rewrite (vget_some _ _ _ Ht); cbn [bind]; reflexivity|].
      destruct (Nat.eqb_spec w v) as [Heq|_]; [congruence|].
      eapply (conv_bind (fun n => resolve_var n p w)); [exact Hc|]. cbn beta iota. rewrite E2. cbn [bind]. apply conv_ret.
    - split; [rewrite Hl2; apply Hn|]. destruct t as [x k lv|c|callee args|g lv]; cbn; auto.
      destruct Hn as (_ & Hn). cbn in Hn. apply Hu2. apply Hun1, Hn.
    - rewrite <- Ekap. exact Hh.
    - intros s Hs'. rewrite (Hi s Hs'). symmetry. apply (Hs' v _ Ht).
    - exact Hst2.
    - intros j Hj. right. apply Hch2, Hj.
  Qed.

  Lemma resolve_ok p t : wf p -> tbound (len p) t -> exists t' p',
    conv (fun n => resolve n p t) (t', p') /\ same p p' /\ normal p' t' /\
    (forall k, hask t k -> hask t' k) /\ (forall s, equations p s -> interp s t' = interp s t).
  Proof.
    intros Hwf Hb. destruct t as [v k lv|c|callee args|g lv]; cbn [resolve];
      try (eexists _, p; split; [apply conv_ret|split; [apply same_refl, Hwf|split; [split; [exact Hb|exact I]|split; [auto|reflexivity]]]]).
    destruct (resolve_var_ok p v Hwf) as (t & p' & H1 & H2 & H3 & H4 & H5 & _); [apply Hb; reflexivity|].
    exists t, p'. split; [exact H1|]. split; [exact H2|]. split; [exact H3|]. split; [|exact H5].
    intros k' <-. exact H4.
  Qed.

  (** * Kinds of types *)
  Lemma get_kind_ok m : forall p t k s, wf p -> tbound (len p) t -> hask t k -> equations p s -> (size (interp s t) < m)%nat ->
    exists p', conv (fun n => get_kind env n p t) (k, p') /\ same p p'.
  Proof.
    induction m as [|m IH]; intros p t k s Hwf Hb Hk Hs Hm; [lia|].
    destruct (resolve_ok p t Hwf Hb) as (t1 & p1 & Hr & Hs1 & Hn1 & Hh1 & Hi1). specialize (Hh1 k Hk).
    rewrite <- (Hi1 s Hs) in Hm. pose proof Hs1 as (Hl1 & Hwf1 & Heq1 & Hun1).
    assert (Hwrap : forall body r, (forall n, get_kind env (S n) p t = let* r := resolve n p t in let '(t, pool) := r in body t pool n) ->
       conv (body t1 p1) r -> conv (fun n => get_kind env n p t) r).
    { intros body r Eb Hb'. eapply conv_step; [exact Eb|]. eapply (conv_bind (fun n => resolve n p t)); [exact Hr|]. exact Hb'. }
    destruct t1 as [v k1 lv|c|callee args|g lv].
    - exists p1. split; [|exact Hs1]. eapply (Hwrap (fun t pool n => _)); [intros n; reflexivity|]. cbn beta iota.
      cbn in Hh1. pose proof (proj2 Hn1) as Hu. cbn in Hu. rewrite <- Hh1, (proj2 (proj2 Hwf1 v _ Hu) k1 lv eq_refl). apply conv_ret.
    - exists p1. split; [|exact Hs1]. eapply (Hwrap (fun t pool n => _)); [intros n; reflexivity|]. cbn beta iota.
      cbn in Hh1. rewrite Hh1. apply conv_ret.
    - destruct Hh1 as (ks & Hh1 & _). destruct (IH p1 (at_ callee) (kap callee) s) as (p2 & Hc2 & Hs2).
      + exact Hwf1.
      + intros j ->. apply (proj1 Hn1). left. reflexivity.
      + reflexivity.
      + apply Heq1, Hs.
      + cbn [interp at_]. pose proof (interp_child_size s (YApp callee args) callee (or_introl eq_refl)).
        specialize (H ltac:(discriminate)). cbn [interp] in *. lia.
      + exists p2. split; [|eapply same_trans; eauto]. eapply (Hwrap (fun t pool n => _)); [intros n; reflexivity|]. cbn beta iota.
        eapply (conv_bind (fun n => get_kind env n p1 (at_ callee))); [exact Hc2|]. rewrite Hh1. apply conv_ret.
    - exists p1. split; [|exact Hs1]. eapply (Hwrap (fun t pool n => _)); [intros n; reflexivity|]. cbn beta iota.
      cbn in Hh1. rewrite Hh1. apply conv_ret.
  Qed.

  Lemma get_kind_exact p t k : wf p -> tbound (len p) t -> hask t k ->
    exists p', conv (fun n => get_kind env n p t) (k, p') /\ same p p'.
  Proof.
    intros H1 H2 H3. destruct (canonical_exists p (proj1 H1)) as (s & Hs & _).
    apply (get_kind_ok (S (size (interp s t))) p t k s); auto.
  Qed.

  (** * Depth-first traversal visits the leaves from left to right *)
  Definition visit {S E} (f : ty -> S -> S * result E) (x : gty) (st : S) : S * result E :=
    match x with
    | TName v k lv => f (YVar v k lv) st
    | TCon c => f (YCon c) st
    | TGen g lv => f (YGen g lv) st
    | TApp _ _ => (st, Ok)
    end.

  Fixpoint visit_all {S E} (f : ty -> S -> S * result E) (l : list gty) (st : S) : S * result E :=
    match l with
    | [] => (st, Ok)
    | x :: l => match visit f x st with (st, Ok) => visit_all f l st | r => r end
    end.

  Lemma visit_all_app {S E} (f : ty -> S -> S * result E) l l' st :
    visit_all f (l ++ l') st = match visit_all f l st with (st, Ok) => visit_all f l' st | r => r end.
  Proof.
    revert st. induction l as [|x l IH]; intros st; [cbn; destruct (visit_all f l' st) as (st' & [|e]); reflexivity|].
    cbn [app visit_all]. destruct (visit f x st) as (st' & [|e]); [apply IH|reflexivity].
  Qed.

  Lemma dfs_ok {S E} (f : ty -> S -> S * result E) (Hf : forall c args st, f (YApp c args) st = (st, Ok)) m :
    forall p s0 t st, wf p -> canonical p s0 -> tbound (len p) t -> (size (interp s0 t) < m)%nat ->
    exists p', conv (fun n => dfs n f p t st) (p', fst (visit_all f (leaves (interp s0 t)) st), snd (visit_all f (leaves (interp s0 t)) st)) /\ same p p'.
  Proof.
    induction m as [|m IH]; intros p s0 t st Hwf Hc Hb Hm; [lia|].
    destruct (resolve_ok p t Hwf Hb) as (t1 & p1 & Hr & Hs1 & Hn1 & _ & Hi1).
    rewrite <- (Hi1 s0 (proj1 Hc)) in *. clear Hi1 Hb.
    pose proof (same_canonical _ _ _ Hs1 Hc) as Hc1. pose proof Hs1 as (_ & Hwf1 & _).
    assert (Hleaf : (forall c args, t1 <> YApp c args) -> exists p',
      conv (fun n => dfs n f p t st) (p', fst (visit_all f (leaves (interp s0 t1)) st), snd (visit_all f (leaves (interp s0 t1)) st)) /\ same p p').
    { intros Hna. exists p1. split; [|exact Hs1]. eapply conv_step; [intros n; reflexivity|].
      eapply (conv_bind (fun n => resolve n p t)); [exact Hr|]. cbn beta iota.
      assert (Ev : visit_all f (leaves (interp s0 t1)) st = f t1 st).
      { destruct t1 as [v k lv|c|callee args|g lv]; cbn [interp].
        - pose proof (proj2 Hn1) as Hu. cbn in Hu. rewrite (proj2 Hc1 v k lv Hu). cbn. destruct (f (YVar v k lv) st) as (st' & [|e]); reflexivity.
        - cbn. destruct (f (YCon c) st) as (st' & [|e]); reflexivity.
        - exfalso. eapply Hna. reflexivity.
        - cbn. destruct (f (YGen g lv) st) as (st' & [|e]); reflexivity. }
      rewrite Ev. destruct t1 as [v k lv|c|callee args|g lv]; try (exfalso; eapply Hna; reflexivity); cbn [bind];
        match goal with |- context [f ?x st] => destruct (f x st) as (st' & r) end; apply conv_ret. }
    destruct t1 as [v k lv|c|callee args|g lv]; try (apply Hleaf; discriminate). clear Hleaf.
    assert (Hsz : forall j, tchild (YApp callee args) j -> (size (s0 j) < m)%nat).
    { intros j Hj. pose proof (interp_child_size s0 (YApp callee args) j Hj). specialize (H ltac:(discriminate)). lia. }
    assert (Hbj : forall j, tchild (YApp callee args) j -> tbound (len p) (at_ j)).
    { intros j Hj x ->. rewrite <- (proj1 Hs1). apply (proj1 Hn1), Hj. }
    assert (Hl : forall l p1 st, incl l (vars_iter args) -> same p p1 ->
      exists p', conv (fun n => for_each_st (fun p v st => dfs n f p (at_ v) st) p1 l st)
        (p', fst (visit_all f (flat_map leaves (map s0 l)) st), snd (visit_all f (flat_map leaves (map s0 l)) st)) /\ same p p').
    { clear p1 st Hr Hs1 Hn1 Hc1 Hwf1. induction l as [|j l IHl]; intros p1 st Hincl Hs1.
      - exists p1. split; [apply conv_ret|exact Hs1].
      - assert (Hj : tchild (YApp callee args) j) by (right; apply Hincl; left; reflexivity).
        destruct (IH p1 s0 (at_ j) st) as (p2 & Hc2 & Hs2).
        + apply Hs1.
        + eapply same_canonical; eauto.
        + apply (same_tbound p p1 (at_ j) Hs1). apply Hbj, Hj.
        + cbn. apply Hsz, Hj.
        + cbn [interp at_] in Hc2. pose proof (same_trans _ _ _ Hs1 Hs2) as Hs12.
          cbn [map flat_map for_each_st]. rewrite visit_all_app.
          destruct (visit_all f (leaves (s0 j)) st) as (st' & [|e]); cbn [fst snd] in *.
          * destruct (IHl p2 st') as (p3 & Hc3 & Hs3); [intros x Hx; apply Hincl; right; exact Hx|exact Hs12|].
            exists p3. split; [|exact Hs3]. eapply (conv_bind (fun n => dfs n f p1 (at_ j) st)); [exact Hc2|]. exact Hc3.
          * exists p2. split; [|exact Hs12]. eapply (conv_bind (fun n => dfs n f p1 (at_ j) st)); [exact Hc2|]. apply conv_ret. }
    destruct (IH p1 s0 (at_ callee) st) as (p2 & Hc2 & Hs2).
    { exact Hwf1. }
    { exact Hc1. }
    { apply (same_tbound p p1 (at_ callee) Hs1). apply Hbj. left. reflexivity. }
    { cbn. apply Hsz. left. reflexivity. }
    cbn [interp at_] in Hc2. cbn [interp leaves]. rewrite visit_all_app.
    destruct (visit_all f (leaves (s0 callee)) st) as (st' & [|e]); cbn [fst snd] in *.
    - destruct (Hl (vars_iter args) p2 st' (incl_refl _) (same_trans _ _ _ Hs1 Hs2)) as (p3 & Hc3 & Hs3).
      exists p3. split; [|exact Hs3].
      eapply conv_step; [intros n; reflexivity|]. eapply (conv_bind (fun n => resolve n p t)); [exact Hr|]. cbn beta iota.
      eapply (conv_bind (fun n => let* r := dfs n f p1 (at_ callee) st in
        match r with (pool, st, Ok) => for_each_st (fun pool v st => dfs n f pool (at_ v) st) pool (vars_iter args) st
                   | (pool, st, Err e) => Ret (pool, st, Err e) end)).
      { eapply (conv_bind (fun n => dfs n f p1 (at_ callee) st)); [exact Hc2|]. exact Hc3. }
      destruct (visit_all f (flat_map leaves (map s0 (vars_iter args))) st') as (st'' & [|e]); cbn [fst snd]; [rewrite Hf|]; apply conv_ret.
    - exists p2. split; [|eapply same_trans; eauto].
      eapply conv_step; [intros n; reflexivity|]. eapply (conv_bind (fun n => resolve n p t)); [exact Hr|]. cbn beta iota.
      eapply (conv_bind (fun n => let* r := dfs n f p1 (at_ callee) st in
        match r with (pool, st, Ok) => for_each_st (fun pool v st => dfs n f pool (at_ v) st) pool (vars_iter args) st
                   | (pool, st, Err e) => Ret (pool, st, Err e) end)).
      { eapply (conv_bind (fun n => dfs n f p1 (at_ callee) st)); [exact Hc2|]. apply conv_ret. }
      apply conv_ret.
  Qed.

  Lemma dfs_exact {S E} (f : ty -> S -> S * result E) p s0 t st : (forall c args st, f (YApp c args) st = (st, Ok)) ->
    wf p -> canonical p s0 -> tbound (len p) t ->
    exists p', conv (fun n => dfs n f p t st) (p', fst (visit_all f (leaves (interp s0 t)) st), snd (visit_all f (leaves (interp s0 t)) st)) /\ same p p'.
  Proof. intros H1 H2 H3 H4. apply (dfs_ok f H1 (Datatypes.S (size (interp s0 t)))); auto. Qed.

  Lemma occurs_ok v p s0 t : wf p -> canonical p s0 -> tbound (len p) t ->
    exists p' r, conv (fun n => occurs_check n p t v) (p', tt, r) /\ same p p' /\
      match r with Ok => ~ occ v (interp s0 t) | Err _ => occ v (interp s0 t) end.
  Proof.
    intros Hwf Hc Hb. unfold occurs_check.
    match goal with |- context [dfs _ ?g _ _ _] => set (f := g) end.
    destruct (dfs_exact f p s0 t tt ltac:(reflexivity) Hwf Hc Hb) as (p' & Hconv & Hs).
    exists p', (snd (visit_all f (leaves (interp s0 t)) tt)). split; [|split; [exact Hs|]].
    - destruct (visit_all f (leaves (interp s0 t)) tt) as ([] & r). exact Hconv.
    - unfold occ. generalize (leaves (interp s0 t)) as l. clear. induction l as [|x l IH]; [cbn; intros (k & lv & [])|].
      cbn [visit_all].
      assert (Hsk : (forall k lv, x <> TName v k lv) -> match snd (visit_all f l tt) with
        | Ok => ~ (exists k lv, In (TName v k lv) (x :: l)) | Err _ => exists k lv, In (TName v k lv) (x :: l) end).
      { intros Hx. destruct (snd (visit_all f l tt)).
        - intros (k & lv & [H|H]); [exact (Hx k lv H)|]. apply IH. eauto.
        - destruct IH as (k & lv & H). exists k, lv. right. exact H. }
      destruct x as [w k lv|c|callee args|g lv]; cbn [visit]; unfold f at 1; try (apply Hsk; discriminate).
      destruct (Nat.eqb_spec w v) as [->|Hne].
      + cbn. exists k, lv. auto.
      + apply Hsk. congruence.
  Qed.
End Kinded.
