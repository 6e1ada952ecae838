(** * The shape of a B-tree, and the operations on its arrays *)
From Verif.Base Require Import Base.
From Verif.OrdMap Require Import Model Spec SpecTree ProofsSpec.
Local Open Scope nat_scope.
Local Open Scope list_scope.

Lemma bind_pure {A B} (a : A) (k : A -> outcome B) : Base.bind (Ret a) k = k a.
Proof. reflexivity. Qed.

(** ** Arrays *)
Section Arrays.
Context {A : Type}.
Implicit Types (l : list A) (x y : A).

Lemma firstn_mid l1 l2 i : i = List.length l1 -> firstn i (l1 ++ l2) = l1.
Proof. intros ->. rewrite firstn_app, Nat.sub_diag, firstn_all. cbn. apply app_nil_r. Qed.

Lemma skipn_mid l1 l2 i : i = List.length l1 -> skipn i (l1 ++ l2) = l2.
Proof. intros ->. rewrite skipn_app, Nat.sub_diag, skipn_all. reflexivity. Qed.

Lemma skipn_mid1 l1 x l2 i : i = List.length l1 -> skipn (S i) (l1 ++ x :: l2) = l2.
Proof. intros ->. change (x :: l2) with ([x] ++ l2). rewrite app_assoc. apply skipn_mid. rewrite app_length. cbn. lia. Qed.

Lemma nth_error_mid l1 x l2 i : i = List.length l1 -> nth_error (l1 ++ x :: l2) i = Some x.
Proof. intros ->. rewrite nth_error_app2 by lia. now rewrite Nat.sub_diag. Qed.

Lemma load_mid l1 x l2 i : i = List.length l1 -> load i (l1 ++ x :: l2) = Ret x.
Proof. intro E. unfold load. now rewrite nth_error_mid. Qed.

Lemma store_mid l1 x y l2 i : i = List.length l1 -> store i y (l1 ++ x :: l2) = Ret (l1 ++ y :: l2).
Proof.
  intro E. unfold store. rewrite firstn_mid, skipn_mid1 by auto.
  rewrite (proj2 (Nat.ltb_lt _ _)); auto. rewrite app_length. cbn. lia.
Qed.

Lemma open_mid cap l1 x l2 i : i = List.length l1 -> List.length l1 + List.length l2 < cap -> open_at cap i x (l1 ++ l2) = Ret (l1 ++ x :: l2).
Proof.
  intros E C. unfold open_at. rewrite firstn_mid, skipn_mid by auto. rewrite app_length.
  rewrite (proj2 (Nat.leb_le _ _)), (proj2 (Nat.ltb_lt _ _)) by lia. reflexivity.
Qed.

Lemma open_end cap l x i : i = List.length l -> List.length l < cap -> open_at cap i x l = Ret (l ++ [x]).
Proof. intros E C. rewrite <- (app_nil_r l) at 1. apply open_mid; cbn; lia. Qed.

Lemma close_mid l1 x l2 i : i = List.length l1 -> close_at i (l1 ++ x :: l2) = Ret (l1 ++ l2).
Proof.
  intro E. unfold close_at. rewrite firstn_mid, skipn_mid1 by auto.
  rewrite (proj2 (Nat.ltb_lt _ _)); auto. rewrite app_length. cbn. lia.
Qed.

Lemma append_fits cap l1 l2 : List.length l1 + List.length l2 <= cap -> append cap l1 l2 = Ret (l1 ++ l2).
Proof. intro C. unfold append. now rewrite (proj2 (Nat.leb_le _ _)). Qed.

(** A list cut at a position, and at an element. *)
Lemma cut l i : i <= List.length l -> exists l1 l2, l = l1 ++ l2 /\ i = List.length l1.
Proof. intro H. exists (firstn i l), (skipn i l). split; [now rewrite firstn_skipn|]. rewrite firstn_length. lia. Qed.

Lemma cut_at l i : i < List.length l -> exists l1 x l2, l = l1 ++ x :: l2 /\ i = List.length l1.
Proof.
  intro H. destruct (cut l i) as (l1 & l2 & -> & E); [lia|]. destruct l2 as [|x l2]; [rewrite app_nil_r in H; lia|]. eauto.
Qed.

Lemma cut_last l : 0 < List.length l -> exists l1 x, l = l1 ++ [x].
Proof.
  intro H. destruct (cut_at l (List.length l - 1)) as (l1 & x & l2 & E & L); [lia|]. exists l1, x.
  destruct l2; auto. rewrite E, app_length in L. cbn in L. lia.
Qed.

End Arrays.

Section Tree.
Context {K V : Type} (cmp : K -> K -> comparison).
Notation node := (node K V).
Notation entry := (K * V)%type.
Implicit Types n : node.

Lemma edge_do_mid {A} (f : node -> outcome A) es1 c es2 i : i = List.length es1 -> edge_do f i (es1 ++ c :: es2) = f c.
Proof. intros ->. induction es1; auto. Qed.

(** ** The entries of a tree, in order *)

Fixpoint inter (fs : list (list entry)) (xs : list entry) : list entry :=
  match fs, xs with
  | [], _ => []
  | f :: _, [] => f
  | f :: fs, x :: xs => f ++ x :: inter fs xs
  end.

Fixpoint flatten (n : node) : list entry :=
  match n with
  | Node xs None => xs
  | Node xs (Some es) => inter (List.map flatten es) xs
  end.

(** Those before an edge and those after it. *)
Fixpoint before (es : list node) (xs : list entry) : list entry :=
  match es, xs with
  | e :: es, x :: xs => flatten e ++ x :: before es xs
  | _, _ => []
  end.
Fixpoint after (xs : list entry) (es : list node) : list entry :=
  match xs, es with
  | x :: xs, e :: es => x :: flatten e ++ after xs es
  | _, _ => []
  end.

Lemma inter_after c es xs : List.length es = List.length xs -> inter (List.map flatten (c :: es)) xs = flatten c ++ after xs es.
Proof.
  revert c xs. induction es as [|e es IH]; intros c [|x xs] L; try discriminate; cbn [List.map inter after].
  - now rewrite app_nil_r.
  - rewrite <- IH by (cbn in L; lia). reflexivity.
Qed.

Lemma inter_app es1 es2 xs1 xs2 : List.length es1 = List.length xs1 ->
  inter (List.map flatten (es1 ++ es2)) (xs1 ++ xs2) = before es1 xs1 ++ inter (List.map flatten es2) xs2.
Proof.
  revert xs1. induction es1 as [|e es1 IH]; intros [|x xs1] L; try discriminate; auto.
  cbn [List.map app inter before]. rewrite IH by (cbn in L; lia). rewrite <- app_assoc. reflexivity.
Qed.

Lemma flatten_at es1 c es2 xs1 xs2 : List.length es1 = List.length xs1 -> List.length es2 = List.length xs2 ->
  flatten (Node (xs1 ++ xs2) (Some (es1 ++ c :: es2))) = before es1 xs1 ++ flatten c ++ after xs2 es2.
Proof. intros L1 L2. cbn [flatten]. rewrite inter_app by auto. f_equal. now apply inter_after. Qed.

Lemma before_app es1 es2 xs1 xs2 : List.length es1 = List.length xs1 ->
  before (es1 ++ es2) (xs1 ++ xs2) = before es1 xs1 ++ before es2 xs2.
Proof.
  revert xs1. induction es1 as [|e es1 IH]; intros [|x xs1] L; try discriminate; auto.
  cbn [app before]. rewrite IH by (cbn in L; lia). rewrite <- app_assoc. reflexivity.
Qed.

Lemma after_app es1 es2 xs1 xs2 : List.length es1 = List.length xs1 ->
  after (xs1 ++ xs2) (es1 ++ es2) = after xs1 es1 ++ after xs2 es2.
Proof.
  revert xs1. induction es1 as [|e es1 IH]; intros [|x xs1] L; try discriminate; auto.
  cbn [app after]. rewrite IH by (cbn in L; lia). now rewrite <- app_assoc.
Qed.

(** ** Balanced trees *)

Lemma ok_weaken lo lo' h n : lo' <= lo -> ok lo h n -> ok lo' h n.
Proof. destruct n as [xs [es|]], h; cbn; try tauto; intuition lia. Qed.

Lemma ok_raise lo lo' h n : lo' <= length_ n -> ok lo h n -> ok lo' h n.
Proof. unfold length_. destruct n as [xs [es|]], h; cbn; try tauto; intuition lia. Qed.

Lemma ok_length lo h n : ok lo h n -> lo <= length_ n <= 11.
Proof. unfold length_. destruct n as [xs [es|]], h; cbn; tauto. Qed.

Lemma ok_leaf lo n : ok lo 0 n -> exists xs, n = Node xs None /\ lo <= List.length xs <= 11.
Proof. destruct n as [xs [es|]]; cbn; try tauto. eauto. Qed.

Lemma ok_inner lo h n : ok lo (S h) n -> exists xs es, n = Node xs (Some es) /\ lo <= List.length xs <= 11 /\
  List.length es = S (List.length xs) /\ Forall (ok 5 h) es.
Proof. destruct n as [xs [es|]]; cbn; try tauto. eauto 8. Qed.

Lemma flatten_nonempty h n lo : ok lo h n -> 1 <= length_ n -> flatten n <> [].
Proof.
  destruct h; intros O L.
  - apply ok_leaf in O as (xs & -> & _). cbn in *. destruct xs; cbn in *; [lia|discriminate].
  - apply ok_inner in O as (xs & es & -> & _ & E & _). cbn in *. destruct xs as [|x xs], es as [|e es]; cbn in *; try lia.
    intro H. apply app_eq_nil in H as [_ H]. discriminate.
Qed.

(** An inner node, at one of its edges. *)
Definition at_edge (i : nat) (n : node) (xs1 xs2 : list entry) (es1 : list node) (c : node) (es2 : list node) : Prop :=
  n = Node (xs1 ++ xs2) (Some (es1 ++ c :: es2)) /\ List.length es1 = i /\ List.length xs1 = i /\ List.length es2 = List.length xs2.

Lemma inner_at h (xs : list entry) (es : list node) i : List.length es = S (List.length xs) -> Forall (ok 5 h) es -> i <= List.length xs ->
  exists xs1 xs2 es1 c es2, at_edge i (Node xs (Some es)) xs1 xs2 es1 c es2 /\
    Forall (ok 5 h) es1 /\ ok 5 h c /\ Forall (ok 5 h) es2.
Proof.
  intros L F I. destruct (cut xs i) as (xs1 & xs2 & -> & X); [auto|]. destruct (cut_at es i) as (es1 & c & es2 & -> & E); [lia|].
  apply Forall_app in F as [F1 F2]. apply Forall_cons_iff in F2 as [FC F2]. rewrite !app_length in L. cbn in L.
  exists xs1, xs2, es1, c, es2. unfold at_edge. repeat split; auto; lia.
Qed.

(** ** Searching *)

Lemma search_from_split key (l : list entry) i :
  match search_from cmp i key l with
  | Found j => exists l1 k v l2, l = l1 ++ (k, v) :: l2 /\ j = i + List.length l1 /\ cmp key k = Eq
  | GoDown j => exists l1 l2, l = l1 ++ l2 /\ j = i + List.length l1 /\
      (forall k v, In (k, v) l1 -> cmp key k = Gt) /\
      match l2 with [] => True | (k, _) :: _ => cmp key k = Lt end
  end.
Proof.
  revert i. induction l as [|[k v] l IH]; intro i; cbn [search_from].
  - exists [], []. cbn. repeat split; auto; try lia.
  - destruct (cmp key k) eqn:C.
    + exists [], k, v, l. cbn. repeat split; auto; lia.
    + exists [], ((k, v) :: l). cbn. repeat split; auto; try lia.
    + specialize (IH (S i)). destruct (search_from cmp (S i) key l) as [j|j].
      * destruct IH as (l1 & k2 & v2 & l2 & -> & -> & E). exists ((k, v) :: l1), k2, v2, l2. cbn. repeat split; auto; lia.
      * destruct IH as (l1 & l2 & -> & -> & G & E). exists ((k, v) :: l1), l2. cbn. repeat split; auto; try lia.
        intros k2 v2 [Q|Q]; [congruence|eauto].
Qed.

End Tree.
