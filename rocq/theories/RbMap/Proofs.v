(** * The red-black tree *)
From Verif.Base Require Import Base.
From Verif.OrdMap Require Import Spec ProofsSpec.
From Verif.RbMap Require Import Model Spec.
Local Open Scope nat_scope.
Local Open Scope list_scope.

Section Tree.
Context {K V : Type} (cmp : K -> K -> comparison) (law : lawful cmp).
Notation tree := (tree K V).
Notation entries := (list (K * V)).
Implicit Types (t l r : tree).

Fixpoint flatten (t : tree) : entries := match t with Leaf => [] | Tree _ k v l r => flatten l ++ (k, v) :: flatten r end.

Ltac flat := cbn [flatten app]; repeat (rewrite <- app_assoc; cbn [app]); try reflexivity.

(** ** The entries *)

Lemma blacken_flatten t : flatten (fst (blacken t)) = flatten t.
Proof. now destruct t as [|[] ? ? ? ?]. Qed.

Lemma balance_left_flatten k v l r : flatten (balance_left k v l r) = flatten l ++ (k, v) :: flatten r.
Proof.
  unfold balance_left. destruct l as [|[] ky vy a b]; try reflexivity.
  destruct a as [|[] kx vx a1 a2]; destruct b as [|[] kz vz b1 b2]; flat.
Qed.

Lemma balance_right_flatten k v l r : flatten (balance_right k v l r) = flatten l ++ (k, v) :: flatten r.
Proof.
  unfold balance_right. destruct r as [|[] ky vy a b]; try reflexivity.
  destruct a as [|[] kx vx a1 a2]; destruct b as [|[] kz vz b1 b2]; flat.
Qed.

Lemma bubble_left_flatten c k v l r d m d' : bubble_left c k v l r d = Ret (m, d') -> flatten m = flatten l ++ (k, v) :: flatten r.
Proof.
  unfold bubble_left. destruct d.
  - destruct c, l as [|[] kx vx a b]; try discriminate.
    + intro E. injection E as <- <-. exact (balance_left_flatten k v (Tree Red kx vx a b) r).
    + destruct b as [|[] ky vy b1 b2]; try discriminate. intro E. injection E as <- <-. change (flatten a ++ (kx, vx) :: flatten (balance_left k v (Tree Red ky vy b1 b2) r) = flatten (Tree Red kx vx a (Tree Black ky vy b1 b2)) ++ (k, v) :: flatten r).
      rewrite balance_left_flatten. flat.
    + intro E. injection E as <- <-. exact (balance_left_flatten k v (Tree Red kx vx a b) r).
  - intro E. injection E as <- <-. reflexivity.
Qed.

Lemma bubble_right_flatten c k v l r d m d' : bubble_right c k v l r d = Ret (m, d') -> flatten m = flatten l ++ (k, v) :: flatten r.
Proof.
  unfold bubble_right. destruct d.
  - destruct c, r as [|[] kx vx a b]; try discriminate.
    + intro E. injection E as <- <-. exact (balance_right_flatten k v l (Tree Red kx vx a b)).
    + destruct a as [|[] ky vy b1 b2]; try discriminate. intro E. injection E as <- <-. change (flatten (balance_right k v l (Tree Red ky vy b1 b2)) ++ (kx, vx) :: flatten b = flatten l ++ (k, v) :: flatten (Tree Red kx vx (Tree Black ky vy b1 b2) b)).
      rewrite balance_right_flatten. flat.
    + intro E. injection E as <- <-. exact (balance_right_flatten k v l (Tree Red kx vx a b)).
  - intro E. injection E as <- <-. reflexivity.
Qed.

Lemma insert_flatten k v t : increasing cmp (flatten t) -> flatten (insert cmp k v t) = put cmp false k v (flatten t).
Proof.
  induction t as [|c ky vy l IHl r IHr]; intro I; [reflexivity|]. cbn [flatten] in *. apply (increasing_mid cmp law) in I as (I1 & I2 & BL & A).
  cbn [insert]. destruct (cmp k ky) eqn:C.
  - rewrite put_below by (intros k' v' I; rewrite (cmp_eq_l cmp law k ky k' C); eauto). cbn [put]. rewrite C. now destruct c.
  - rewrite put_app_above by (apply above_cons; split; auto; eapply above_trans; eauto).
    destruct c; cbn [flatten]; rewrite ?balance_left_flatten, IHl by auto; reflexivity.
  - rewrite put_below by (eapply below_trans; eauto). cbn [put]. rewrite C. rewrite <- IHr by auto.
    destruct c; rewrite ?balance_right_flatten; reflexivity.
Qed.

Lemma get_flatten k t : increasing cmp (flatten t) -> get cmp k t = lookup cmp k (flatten t).
Proof.
  induction t as [|c ky vy l IHl r IHr]; intro I; [reflexivity|]. cbn [flatten] in *. apply (increasing_mid cmp law) in I as (I1 & I2 & BL & A).
  cbn [get]. destruct (cmp k ky) eqn:C.
  - rewrite lookup_below by (intros k' v' I; rewrite (cmp_eq_l cmp law k ky k' C); eauto). cbn [lookup]. now rewrite C.
  - rewrite lookup_app_above by (apply above_cons; split; auto; eapply above_trans; eauto). auto.
  - rewrite lookup_below by (eapply below_trans; eauto). cbn [lookup]. rewrite C. auto.
Qed.

Lemma get_min_flatten t : get_min t = first (flatten t).
Proof.
  induction t as [|c k v l IHl r IHr]; [reflexivity|]. destruct l as [|c' k' v' ll lr]; [reflexivity|].
  change (get_min (Tree c k v (Tree c' k' v' ll lr) r)) with (get_min (Tree c' k' v' ll lr)). rewrite IHl. cbn [flatten]. unfold first.
  destruct (flatten ll); reflexivity.
Qed.

Lemma final_app (a b : entries) : b <> [] -> final (a ++ b) = final b.
Proof.
  intro N. unfold final. rewrite rev_app_distr. destruct (rev b) eqn:E; [|reflexivity].
  apply (f_equal (@rev _)) in E. rewrite rev_involutive in E. cbn in E. tauto.
Qed.

Lemma get_max_flatten t : get_max t = final (flatten t).
Proof.
  induction t as [|c k v l IHl r IHr]; [reflexivity|]. cbn [flatten]. rewrite final_app by discriminate. destruct r as [|c' k' v' rl rr]; [reflexivity|].
  change (get_max (Tree c k v l (Tree c' k' v' rl rr))) with (get_max (Tree c' k' v' rl rr)). rewrite IHr.
  change ((k, v) :: flatten (Tree c' k' v' rl rr)) with ([(k, v)] ++ flatten (Tree c' k' v' rl rr)). rewrite final_app; auto.
  cbn [flatten]. destruct (flatten rl); discriminate.
Qed.

(** ** The colours *)

Lemma ok_red n t red : ok false n t -> ok red n t.
Proof. destruct t as [|[] k v l r]; cbn; auto. intros (E & _). discriminate. Qed.

(** A tree that may have a red node below a red top node, on one side. *)
Definition nearly (n : nat) (t : tree) : Prop :=
  match t with
  | Tree Red _ _ l r => (ok true n l /\ ok false n r) \/ (ok false n l /\ ok true n r)
  | _ => ok true n t
  end.
(** One that may have so on both sides. *)
Definition loose (n : nat) (t : tree) : Prop :=
  match t with
  | Tree Red _ _ l r => ok true n l /\ ok true n r
  | _ => ok true n t
  end.

Lemma nearly_loose n t : nearly n t -> loose n t.
Proof. destruct t as [|[] k v l r]; cbn; auto. intros [[]|[]]; auto using ok_red. Qed.

Lemma ok_nearly n t : ok true n t -> nearly n t.
Proof. destruct t as [|[] k v l r]; cbn; auto. intros (_ & ? & ?). auto using ok_red. Qed.

Lemma balance_left_ok n k v l r : loose n l -> ok true n r -> ok true (S n) (balance_left k v l r).
Proof.
  unfold balance_left. destruct l as [|[] ky vy a b]; cbn [loose]; intros L R; [cbn in *; auto| |split; auto].
  destruct L as [La Lb]. destruct a as [|[] kx vx a1 a2].
  - destruct b as [|[] kz vz b1 b2]; cbn in *; intuition auto using ok_red.
  - cbn in *. intuition auto using ok_red.
  - destruct b as [|[] kz vz b1 b2]; destruct n; cbn in *; intuition auto using ok_red.
Qed.

Lemma balance_right_ok n k v l r : ok true n l -> loose n r -> ok true (S n) (balance_right k v l r).
Proof.
  unfold balance_right. destruct r as [|[] ky vy a b]; cbn [loose]; intros L R; [cbn in *; auto| |split; auto].
  destruct R as [La Lb]. destruct a as [|[] kx vx a1 a2].
  - destruct b as [|[] kz vz b1 b2]; cbn in *; intuition auto using ok_red.
  - cbn in *. intuition auto using ok_red.
  - destruct b as [|[] kz vz b1 b2]; destruct n; cbn in *; intuition auto using ok_red.
Qed.

Lemma insert_ok k v t : forall n, (ok true n t -> nearly n (insert cmp k v t)) /\ (ok false n t -> ok true n (insert cmp k v t)).
Proof.
  induction t as [|[] ky vy l IHl r IHr]; intro n; cbn [insert].
  - cbn. intuition lia.
  - split; [|intros (E & _); discriminate]. intros (_ & Ol & Or). destruct (cmp k ky); cbn [nearly].
    + auto using ok_red.
    + left. split; [now apply IHl|auto].
    + right. split; [auto|now apply IHr].
  - enough (ok true n (Tree Black ky vy l r) -> ok true n match cmp k ky with Eq => Tree Black k v l r | Lt => balance_left ky vy (insert cmp k v l) r | Gt => balance_right ky vy l (insert cmp k v r) end) as Q.
    { split; intro O; [apply ok_nearly, Q, O|apply Q, O]. }
    destruct n as [|n]; [intros []|]. intros (Ol & Or). destruct (cmp k ky).
    + cbn. auto.
    + apply balance_left_ok; auto. apply nearly_loose. now apply IHl.
    + apply balance_right_ok; auto. apply nearly_loose. now apply IHr.
Qed.

(** A tree is a map if its top node is black and its entries are in order. *)
Lemma blacken_ok n t : loose n t -> exists n', ok false n' (fst (blacken t)).
Proof. destruct t as [|[] k v l r]; cbn [loose blacken fst]; intro O; [exists n; exact O|exists (S n); exact O|exists n; destruct n; exact O]. Qed.

Lemma map_insert_ok n k v t : ok false n t -> exists n', ok false n' (map_insert cmp k v t).
Proof. intro O. apply (blacken_ok n), nearly_loose, ok_nearly. now apply insert_ok. Qed.

(** ** Removing *)

(** The tree after a removal below: it may lack a black node on every way down. *)
Definition short (red : bool) (n : nat) (t : tree) (d : bool) : Prop :=
  if d then exists n', n = S n' /\ ok true n' t else ok red n t.

Definition black_of (c : color) (n : nat) : option nat :=
  match c, n with Red, n => Some n | Black, S n => Some n | Black, O => None end.

Lemma bubble_left_ok red n c k v l r d m : (c = Red -> red = true) -> black_of c n = Some m ->
  ok (match c with Red => false | Black => true end) m l -> short (match c with Red => false | Black => true end) m r d ->
  exists t d', bubble_left c k v l r d = Ret (t, d') /\ short red n t d'.
Proof.
  intros Rd BK Ol Or. unfold bubble_left. destruct d; cbn [short] in Or.
  - destruct Or as (m' & -> & Or). destruct c; cbn in BK.
    + injection BK as ->. rewrite Rd by auto. destruct l as [|[] kx vx a b]; cbn in Ol; [discriminate|destruct Ol; discriminate|].
      eexists _, _. split; [reflexivity|]. cbn [short]. apply balance_left_ok; cbn; tauto.
    + destruct n as [|n]; [discriminate|]. injection BK as ->. destruct l as [|[] kx vx a b]; cbn in Ol; [discriminate| |].
      * destruct Ol as (_ & Oa & Ob). destruct b as [|[] ky vy b1 b2]; cbn in Ob; [discriminate|destruct Ob; discriminate|].
        eexists _, _. split; [reflexivity|]. cbn [short]. split; [now apply ok_red|]. apply balance_left_ok; cbn; tauto.
      * eexists _, _. split; [reflexivity|]. cbn [short]. eexists. split; [reflexivity|]. apply balance_left_ok; cbn; tauto.
  - eexists _, _. split; [reflexivity|]. cbn [short]. destruct c; cbn in BK.
    + injection BK as ->. cbn. auto.
    + destruct n; [discriminate|]. injection BK as ->. cbn. auto.
Qed.

Lemma bubble_right_ok red n c k v l r d m : (c = Red -> red = true) -> black_of c n = Some m ->
  short (match c with Red => false | Black => true end) m l d -> ok (match c with Red => false | Black => true end) m r ->
  exists t d', bubble_right c k v l r d = Ret (t, d') /\ short red n t d'.
Proof.
  intros Rd BK Ol Or. unfold bubble_right. destruct d; cbn [short] in Ol.
  - destruct Ol as (m' & -> & Ol). destruct c; cbn in BK.
    + injection BK as ->. rewrite Rd by auto. destruct r as [|[] kx vx a b]; cbn in Or; [discriminate|destruct Or; discriminate|].
      eexists _, _. split; [reflexivity|]. cbn [short]. apply balance_right_ok; cbn; tauto.
    + destruct n as [|n]; [discriminate|]. injection BK as ->. destruct r as [|[] kx vx a b]; cbn in Or; [discriminate| |].
      * destruct Or as (_ & Oa & Ob). destruct a as [|[] ky vy b1 b2]; cbn in Oa; [discriminate|destruct Oa; discriminate|].
        eexists _, _. split; [reflexivity|]. cbn [short]. split; [|now apply ok_red]. apply balance_right_ok; cbn; tauto.
      * eexists _, _. split; [reflexivity|]. cbn [short]. eexists. split; [reflexivity|]. apply balance_right_ok; cbn; tauto.
  - eexists _, _. split; [reflexivity|]. cbn [short]. destruct c; cbn in BK.
    + injection BK as ->. cbn. auto.
    + destruct n; [discriminate|]. injection BK as ->. cbn. auto.
Qed.

Lemma ok_parts red n c k v l r : ok red n (Tree c k v l r) -> (c = Red -> red = true) /\
  exists m, black_of c n = Some m /\ ok (match c with Red => false | Black => true end) m l /\ ok (match c with Red => false | Black => true end) m r.
Proof. destruct c; cbn; [|destruct n; cbn; [tauto|]]; intuition (eauto; try discriminate). Qed.

Lemma remove_min_ok t : forall red n, ok red n t -> t <> Leaf ->
  exists t' k v d, remove_min t = Ret (t', k, v, d) /\ flatten t = (k, v) :: flatten t' /\ short red n t' d.
Proof.
  induction t as [|c kx vx l IHl r IHr]; intros red n O N; [tauto|].
  assert (l <> Leaf -> exists t' k v d, (let* (l, k, v, d) := remove_min l in let* (m, d) := bubble_right c kx vx l r d in Ret (m, k, v, d)) = Ret (t', k, v, d) /\
    flatten (Tree c kx vx l r) = (k, v) :: flatten t' /\ short red n t' d) as Q.
  { intro NL. destruct (ok_parts _ _ _ _ _ _ _ O) as (Rd & m & BK & Ol & Or). destruct (IHl _ _ Ol NL) as (l' & k & v & d & -> & F & S0). cbn [bind].
    destruct (bubble_right_ok red n c kx vx l' r d m Rd BK S0 Or) as (t & d' & E & S1). rewrite E. cbn [bind]. eexists _, _, _, _. split; [reflexivity|].
    split; [|auto]. cbn [flatten]. rewrite F. rewrite (bubble_right_flatten _ _ _ _ _ _ _ _ E). reflexivity. }
  cbn [remove_min]. destruct c, l as [|c' k' v' ll lr]; try (apply Q; discriminate).
  - eexists _, _, _, _. split; [reflexivity|]. split; [reflexivity|]. cbn [short]. cbn in O. destruct O as (-> & _ & O). now apply ok_red.
  - destruct n as [|n]; [destruct O|]. destruct O as [Ol Or]. cbn in Ol. subst n. destruct r as [|[] k' v' rl rr].
    + eexists _, _, _, _. split; [reflexivity|]. split; [reflexivity|]. cbn. eauto.
    + eexists _, _, _, _. split; [reflexivity|]. split; [reflexivity|]. cbn in *. destruct Or as (_ & ? & ?). auto using ok_red.
    + destruct Or.
Qed.

Lemma remove_max_ok t : forall red n, ok red n t -> t <> Leaf ->
  exists t' k v d, remove_max t = Ret (t', k, v, d) /\ flatten t = flatten t' ++ [(k, v)] /\ short red n t' d.
Proof.
  induction t as [|c kx vx l IHl r IHr]; intros red n O N; [tauto|].
  assert (r <> Leaf -> exists t' k v d, (let* (r, k, v, d) := remove_max r in let* (m, d) := bubble_left c kx vx l r d in Ret (m, k, v, d)) = Ret (t', k, v, d) /\
    flatten (Tree c kx vx l r) = flatten t' ++ [(k, v)] /\ short red n t' d) as Q.
  { intro NL. destruct (ok_parts _ _ _ _ _ _ _ O) as (Rd & m & BK & Ol & Or). destruct (IHr _ _ Or NL) as (r' & k & v & d & -> & F & S0). cbn [bind].
    destruct (bubble_left_ok red n c kx vx l r' d m Rd BK Ol S0) as (t & d' & E & S1). rewrite E. cbn [bind]. eexists _, _, _, _. split; [reflexivity|].
    split; [|auto]. cbn [flatten]. rewrite F. rewrite (bubble_left_flatten _ _ _ _ _ _ _ _ E). now rewrite <- app_assoc. }
  destruct r as [|c' k' v' rl rr].
  - destruct c.
    + cbn [remove_max]. eexists _, _, _, _. split; [destruct l; reflexivity|]. split; [reflexivity|]. cbn [short]. cbn in O. destruct O as (-> & O & _). now apply ok_red.
    + destruct n as [|n]; [destruct O|]. destruct O as [Ol Or]. cbn in Or. subst n. destruct l as [|[] k' v' ll lr].
      * eexists _, _, _, _. split; [reflexivity|]. split; [reflexivity|]. cbn. eauto.
      * eexists _, _, _, _. split; [reflexivity|]. split; [reflexivity|]. cbn in *. destruct Ol as (_ & ? & ?). auto using ok_red.
      * destruct Ol.
  - replace (remove_max (Tree c kx vx l (Tree c' k' v' rl rr))) with
      (let* (r, k, v, d) := remove_max (Tree c' k' v' rl rr) in let* (m, d) := bubble_left c kx vx l r d in Ret (m, k, v, d)); [apply Q; discriminate|].
    destruct c; [reflexivity|]. destruct l as [|[] ? ? ? ?]; reflexivity.
Qed.

Lemma short_blacken red n t d : short red n t d -> exists n', ok false n' (fst (blacken t)).
Proof.
  intro S0. assert (exists n', ok true n' t) as [n' O].
  { destruct d; cbn in S0; [destruct S0 as (n' & _ & O); eauto|]. exists n. destruct red; auto. now apply ok_red. }
  apply (blacken_ok n'), nearly_loose, ok_nearly, O.
Qed.

Lemma remove_ok k t : increasing cmp (flatten t) -> forall red n, ok red n t ->
  exists o, remove cmp k t = Ret o /\
    match o with
    | None => lookup cmp k (flatten t) = None
    | Some (t', v, d) => lookup cmp k (flatten t) = Some v /\ flatten t' = del cmp k (flatten t) /\ short red n t' d
    end.
Proof.
  induction t as [|c kx vx l IHl r IHr]; intros I red n O; [eexists; split; reflexivity|].
  cbn [flatten] in *. apply (increasing_mid cmp law) in I as (I1 & I2 & BL & A).
  destruct (ok_parts _ _ _ _ _ _ _ O) as (Rd & m & BK & Ol & Or). cbn [remove]. destruct (cmp k kx) eqn:C.
  - assert (below cmp k (flatten l)) as BK' by (intros k' v' I; rewrite (cmp_eq_l cmp law k kx k' C); eauto).
    rewrite lookup_below, del_below by auto. cbn [lookup del]. rewrite C.
    enough (exists t' d, match r with
            | Leaf => match c with Black => Ret (blacken l) | Red => Ret (l, false) end
            | _ => let* (r, ky, vy, d) := remove_min r in bubble_left c ky vy l r d
            end = Ret (t', d) /\ flatten t' = flatten l ++ flatten r /\ short red n t' d) as (t' & d & -> & F & S0).
    { cbn [bind]. eexists. split; [reflexivity|]. repeat split; auto. }
    destruct r as [|c' k' v' rl rr] eqn:ER.
    + cbn [flatten]. rewrite app_nil_r. destruct c; cbn in BK.
      * injection BK as ->. eexists _, _. split; [reflexivity|]. split; [reflexivity|]. cbn. rewrite Rd by auto. now apply ok_red.
      * destruct n as [|n]; [discriminate|]. injection BK as ->. cbn in Or. subst m. destruct l as [|[] ? ? ? ?].
        -- eexists _, _. split; [reflexivity|]. split; [reflexivity|]. cbn. eauto.
        -- eexists _, _. split; [reflexivity|]. split; [reflexivity|]. cbn in *. destruct Ol as (_ & ? & ?). auto using ok_red.
        -- destruct Ol.
    + rewrite <- ER in *. destruct (remove_min_ok r _ _ Or) as (r' & ky & vy & d & -> & F & S0); [congruence|]. cbn [bind].
      destruct (bubble_left_ok red n c ky vy l r' d m Rd BK Ol S0) as (t & d' & E & S1). exists t, d'. split; auto. split; auto.
      rewrite F. apply (bubble_left_flatten _ _ _ _ _ _ _ _ E).
  - assert (above cmp k ((kx, vx) :: flatten r)) as AB by (apply above_cons; split; auto; eapply above_trans; eauto).
    rewrite lookup_app_above, del_app_above by auto. destruct (IHl I1 _ _ Ol) as (o & -> & Q). cbn [bind]. destruct o as [[[l' v] d]|].
    + destruct Q as (Q1 & Q2 & Q3). destruct (bubble_right_ok red n c kx vx l' r d m Rd BK Q3 Or) as (t & d' & E & S1). rewrite E. cbn [bind].
      eexists. split; [reflexivity|]. repeat split; auto. rewrite <- Q2. apply (bubble_right_flatten _ _ _ _ _ _ _ _ E).
    + eexists. split; [reflexivity|]. auto.
  - rewrite lookup_below, del_below by (eapply below_trans; eauto). cbn [lookup del]. rewrite C. destruct (IHr I2 _ _ Or) as (o & -> & Q). cbn [bind]. destruct o as [[[r' v] d]|].
    + destruct Q as (Q1 & Q2 & Q3). destruct (bubble_left_ok red n c kx vx l r' d m Rd BK Ol Q3) as (t & d' & E & S1). rewrite E. cbn [bind].
      eexists. split; [reflexivity|]. repeat split; auto. rewrite <- Q2. apply (bubble_left_flatten _ _ _ _ _ _ _ _ E).
    + eexists. split; [reflexivity|]. auto.
Qed.

End Tree.
