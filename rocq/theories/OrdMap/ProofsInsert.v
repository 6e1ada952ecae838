(** * Searching a B-tree and inserting *)
From Verif.Base Require Import Base.
From Verif.OrdMap Require Import Model Spec SpecTree ProofsSpec Proofs.
Local Open Scope nat_scope.
Local Open Scope list_scope.

Section Tree.
Context {K V : Type} (cmp : K -> K -> comparison) (law : lawful cmp).
Notation node := (node K V).
Notation entry := (K * V)%type.

Lemma before_below key (es : list node) xs : increasing cmp (before es xs) -> (forall k v, In (k, v) xs -> cmp key k = Gt) -> below cmp key (before es xs).
Proof.
  revert xs. induction es as [|e es IH]; intros [|[k v] xs] H G; try apply below_nil. cbn [before] in *.
  apply (increasing_mid cmp law) in H as (_ & H & BL & _). assert (C : cmp key k = Gt) by (eapply G; left; reflexivity).
  apply below_app. split; [eapply below_trans; eauto|]. apply below_cons. split; auto. apply IH; auto.
  intros k2 v2 I. eapply G. right. exact I.
Qed.

Lemma after_above key xs (es : list node) : increasing cmp (after xs es) -> match xs with [] => True | (k, _) :: _ => cmp key k = Lt end -> above cmp key (after xs es).
Proof.
  destruct xs as [|[k v] xs], es as [|e es]; intros H L; try apply above_nil. cbn [after] in *. apply increasing_cons in H as [A _].
  apply above_cons. split; auto. eapply above_trans; eauto.
Qed.

(** What a search tells of an inner node and of a leaf. *)
Lemma search_inner key h (xs : list entry) (es : list node) : List.length es = S (List.length xs) -> Forall (ok 5 h) es ->
  increasing cmp (flatten (Node xs (Some es))) ->
  match search cmp key (Node xs (Some es)) with
  | Found i => exists xs1 k v xs2 es1 c r es2, at_edge (S i) (Node xs (Some es)) (xs1 ++ [(k, v)]) xs2 (es1 ++ [c]) r es2 /\
      i = List.length xs1 /\ i = List.length es1 /\
      cmp key k = Eq /\ below cmp key (before es1 xs1 ++ flatten c) /\ above cmp key (flatten r ++ after xs2 es2) /\
      Forall (ok 5 h) es1 /\ ok 5 h c /\ ok 5 h r /\ Forall (ok 5 h) es2
  | GoDown i => exists xs1 xs2 es1 c es2, at_edge i (Node xs (Some es)) xs1 xs2 es1 c es2 /\
      below cmp key (before es1 xs1) /\ above cmp key (after xs2 es2) /\ increasing cmp (flatten c) /\
      Forall (ok 5 h) es1 /\ ok 5 h c /\ Forall (ok 5 h) es2
  end.
Proof.
  intros L F H. unfold search. cbn [elems_of]. pose proof (search_from_split cmp key xs 0) as Q. destruct (search_from cmp 0 key xs) as [i|i].
  - destruct Q as (xs1 & k & v & xs2 & -> & -> & E). cbn [Nat.add]. rewrite app_length in L. cbn in L.
    destruct (cut_at es (List.length xs1)) as (es1 & c & es2' & -> & Le); [lia|]. destruct es2' as [|r es2]; [rewrite app_length in L; cbn in L; lia|].
    rewrite app_length in L. cbn in L.
    apply Forall_app in F as [F1 F]. apply Forall_cons_iff in F as [Fc F]. apply Forall_cons_iff in F as [Fr F2].
    exists xs1, k, v, xs2, es1, c, r, es2. rewrite flatten_at in H by (cbn; lia). cbn [after] in H. rewrite app_assoc in H.
    apply (increasing_mid cmp law) in H as (_ & _ & BL & A).
    unfold at_edge. rewrite <- !app_assoc, !app_length. cbn [app List.length].
    repeat split; auto; try lia.
    + intros k2 v2 I. rewrite (cmp_eq_l cmp law key k k2 E). eauto.
    + intros k2 v2 I. rewrite (cmp_eq_l cmp law key k k2 E). eauto.
  - destruct Q as (xs1 & xs2 & -> & -> & G & E). cbn [Nat.add].
    destruct (inner_at h (xs1 ++ xs2) es (List.length xs1)) as (ys1 & ys2 & es1 & c & es2 & A & F1 & Fc & F2); auto; [rewrite app_length; lia|].
    pose proof A as (Eq & L1 & L2 & L3). injection Eq as EX ->. assert (ys1 = xs1 /\ ys2 = xs2) as [-> ->].
    { apply (f_equal (firstn (List.length xs1))) in EX as EX1. rewrite !firstn_mid in EX1 by auto. subst ys1. apply app_inv_head in EX. auto. }
    exists xs1, xs2, es1, c, es2. rewrite flatten_at in H by lia. apply increasing_app in H as (H1 & H & _). apply increasing_app in H as (H2 & H3 & _).
    repeat split; auto; try apply A.
    + now apply before_below.
    + now apply after_above.
Qed.

Lemma search_leaf key (xs : list entry) : increasing cmp xs ->
  match search cmp key (Node xs None) with
  | Found i => exists xs1 k v xs2, xs = xs1 ++ (k, v) :: xs2 /\ i = List.length xs1 /\ cmp key k = Eq /\ below cmp key xs1 /\ above cmp key xs2
  | GoDown i => exists xs1 xs2, xs = xs1 ++ xs2 /\ i = List.length xs1 /\ below cmp key xs1 /\ above cmp key xs2
  end.
Proof.
  intro H. unfold search. cbn [elems_of]. pose proof (search_from_split cmp key xs 0) as Q. destruct (search_from cmp 0 key xs) as [i|i].
  - destruct Q as (xs1 & k & v & xs2 & -> & -> & E). apply (increasing_mid cmp law) in H as (_ & _ & BL & A).
    exists xs1, k, v, xs2. repeat split; auto.
    + intros k2 v2 I. rewrite (cmp_eq_l cmp law key k k2 E). eauto.
    + intros k2 v2 I. rewrite (cmp_eq_l cmp law key k k2 E). eauto.
  - destruct Q as (xs1 & xs2 & -> & -> & G & E). exists xs1, xs2. repeat split; auto.
    apply increasing_app in H as (_ & H & _). destruct xs2 as [|[k v] xs2]; [apply above_nil|]. apply increasing_cons in H as [A _].
    apply above_cons. split; auto. eapply above_trans; eauto.
Qed.

(** What the map says of a key found at an entry. *)
Lemma found_lookup key l1 k (v : V) l2 : cmp key k = Eq -> below cmp key l1 -> lookup cmp key (l1 ++ (k, v) :: l2) = Some v.
Proof. intros E BL. rewrite lookup_below by auto. cbn. now rewrite E. Qed.

Lemma found_put key w l1 k (v : V) l2 : cmp key k = Eq -> below cmp key l1 -> put cmp true key w (l1 ++ (k, v) :: l2) = l1 ++ (k, w) :: l2.
Proof. intros E BL. rewrite put_below by auto. cbn. now rewrite E. Qed.

Lemma found_del key l1 k (v : V) l2 : cmp key k = Eq -> below cmp key l1 -> del cmp key (l1 ++ (k, v) :: l2) = l1 ++ l2.
Proof. intros E BL. rewrite del_below by auto. cbn. now rewrite E. Qed.

Lemma gap_lookup key (l1 l2 : list entry) : below cmp key l1 -> above cmp key l2 -> lookup cmp key (l1 ++ l2) = None.
Proof. intros. rewrite lookup_below by auto. now apply lookup_above. Qed.

Lemma gap_put key w (l1 l2 : list entry) : below cmp key l1 -> above cmp key l2 -> put cmp true key w (l1 ++ l2) = l1 ++ (key, w) :: l2.
Proof. intros BL A. rewrite put_below by auto. f_equal. exact (put_app_above cmp true key w [] l2 A). Qed.

Lemma elem_at_mid i (xs1 : list entry) x xs2 es : i = List.length xs1 -> elem_at i (Node (xs1 ++ x :: xs2) es) = Ret x.
Proof.
  intro E. unfold elem_at, length_. cbn [elems_of]. rewrite (proj2 (Nat.ltb_lt _ _)) by (rewrite app_length; cbn; lia). cbn [assert_]. rewrite bind_pure. now apply load_mid.
Qed.

Lemma value_at_mid i (xs1 : list entry) k v xs2 es : i = List.length xs1 -> value_at i (Node (xs1 ++ (k, v) :: xs2) es) = Ret v.
Proof.
  intro E. unfold value_at, length_. cbn [elems_of]. rewrite (proj2 (Nat.ltb_lt _ _)) by (rewrite app_length; cbn; lia). cbn [assert_]. rewrite bind_pure. rewrite load_mid by auto. reflexivity.
Qed.

Lemma replace_value_at_mid i (xs1 : list entry) k v w xs2 es : i = List.length xs1 ->
  replace_value_at i w (Node (xs1 ++ (k, v) :: xs2) es) = Ret (v, Node (xs1 ++ (k, w) :: xs2) es).
Proof.
  intro E. unfold replace_value_at, length_. cbn [elems_of edges_of]. rewrite (proj2 (Nat.ltb_lt _ _)) by (rewrite app_length; cbn; lia). cbn [assert_]. rewrite bind_pure.
  rewrite load_mid by auto. rewrite bind_pure. rewrite store_mid by auto. reflexivity.
Qed.

(** ** Looking up *)

Lemma get_unfold key (n : node) : get cmp key n =
  match search cmp key n with
  | Found i => let* v := value_at i n in Ret (Some v)
  | GoDown i => match n with Node _ None => Ret None | Node _ (Some edges) => edge_do (fun c => get cmp key c) i edges end
  end.
Proof. now destruct n as [xs [es|]]. Qed.

Lemma get_ok key h : forall lo (n : node), ok lo h n -> increasing cmp (flatten n) -> get cmp key n = Ret (lookup cmp key (flatten n)).
Proof.
  induction h as [|h IH]; intros lo n O H; rewrite get_unfold.
  - apply ok_leaf in O as (xs & -> & L). cbn [flatten] in *. pose proof (search_leaf key xs H) as Q. destruct (search cmp key _) as [i|i].
    + destruct Q as (xs1 & k & v & xs2 & -> & -> & E & BL & A). rewrite value_at_mid, found_lookup by auto. reflexivity.
    + destruct Q as (xs1 & xs2 & -> & -> & BL & A). rewrite gap_lookup by auto. reflexivity.
  - apply ok_inner in O as (xs & es & -> & L & Le & F). pose proof (search_inner key h xs es Le F H) as Q. destruct (search cmp key _) as [i|i].
    + destruct Q as (xs1 & k & v & xs2 & es1 & c & r & es2 & (-> & L1 & L2 & L3) & -> & E1 & E & BL & A & _).
      rewrite flatten_at, !before_app by (rewrite ?app_length in *; cbn in *; lia). cbn [before].
      rewrite <- !app_assoc. cbn [app]. rewrite value_at_mid by auto. rewrite app_assoc. rewrite found_lookup by auto. reflexivity.
    + destruct Q as (xs1 & xs2 & es1 & c & es2 & (E & L1 & L2 & L3) & BL & A & HC & F1 & Fc & F2). injection E as -> ->.
      rewrite flatten_at by lia. rewrite edge_do_mid by auto. rewrite (IH 5) by auto. now rewrite (lookup_mid cmp).
Qed.

Lemma get_min_ok h : forall lo (n : node), ok lo h n -> 1 <= length_ n -> exists e l, get_min n = Ret e /\ flatten n = e :: l.
Proof.
  induction h as [|h IH]; intros lo n O L.
  - apply ok_leaf in O as (xs & -> & _). destruct xs as [|x xs]; [cbn in L; lia|]. exists x, xs. auto.
  - apply ok_inner in O as (xs & es & -> & _ & Le & F). destruct es as [|e es]; [discriminate|]. apply Forall_cons_iff in F as [Fe F].
    pose proof (ok_length _ _ _ Fe). destruct (IH 5 e) as (x & l & G & E); auto; [lia|]. exists x. cbn [get_min edge_do]. rewrite G. cbn in Le.
    change (flatten (Node xs (Some (e :: es)))) with (flatten (Node ([] ++ xs) (Some ([] ++ e :: es)))). rewrite flatten_at by (cbn; lia). rewrite E.
    cbn [before app]. eauto.
Qed.

Lemma get_max_ok h : forall lo (n : node), ok lo h n -> 1 <= length_ n -> exists e l, get_max n = Ret e /\ flatten n = l ++ [e].
Proof.
  induction h as [|h IH]; intros lo n O L.
  - apply ok_leaf in O as (xs & -> & _). unfold length_ in L. cbn [elems_of] in L. destruct (cut_last xs) as (l & x & ->); [lia|]. exists x, l. split; auto.
    cbn [get_max]. apply elem_at_mid. unfold length_. cbn [elems_of]. rewrite app_length. cbn. lia.
  - apply ok_inner in O as (xs & es & -> & _ & Le & F). destruct (cut_last es) as (es1 & c & ->); [lia|]. apply Forall_app in F as [F1 F]. inversion F as [|? ? Fc ?]; subst.
    pose proof (ok_length _ _ _ Fc). destruct (IH 5 c) as (x & l & G & E); auto; [lia|]. exists x. rewrite app_length in Le. cbn in Le.
    exists (before es1 xs ++ l). cbn [get_max]. rewrite edge_do_mid by lia. split; auto.
    rewrite <- (app_nil_r xs) at 1. rewrite flatten_at by (cbn; lia). cbn [after]. rewrite app_nil_r, E. now rewrite app_assoc.
Qed.

(** ** Inserting *)

Definition b_elems : cap_elems = 11 := eq_refl.
Definition b_edges : cap_edges = 12 := eq_refl.
Definition b_half : B - 1 = 5 := eq_refl.

Lemma has_room_spec (n : node) : length_ n <= 11 -> has_room n = Nat.ltb (length_ n) 11.
Proof. intro L. unfold has_room. rewrite b_elems. destruct (Nat.eqb_spec 11 (length_ n)), (Nat.ltb_spec (length_ n) 11); cbn; auto; lia. Qed.

Definition leaf_flag (r : option node) : bool := match r with None => true | Some _ => false end.

(** Inserting at an element position of a leaf, or after the node at an edge of an inner node. *)
Lemma room_insert_leaf i (xs1 xs2 : list entry) k v : i = List.length xs1 -> List.length xs1 + List.length xs2 < 11 ->
  room_insert_at i k v None (Node (xs1 ++ xs2) None) = Ret (Node (xs1 ++ (k, v) :: xs2) None).
Proof.
  intros E L. unfold room_insert_at. cbn [is_leaf edges_of Bool.eqb assert_]. rewrite bind_pure.
  rewrite has_room_spec by (unfold length_; cbn; rewrite app_length; lia). unfold length_. cbn [elems_of].
  rewrite (proj2 (Nat.ltb_lt _ _)) by (rewrite app_length; lia). cbn [assert_]. rewrite bind_pure. rewrite b_elems. rewrite open_mid by auto. reflexivity.
Qed.

Lemma room_insert_inner i (xs1 xs2 : list entry) (es1 : list node) c es2 k v r :
  List.length xs1 = i -> List.length es1 = i -> List.length es2 = List.length xs2 -> List.length xs1 + List.length xs2 < 11 ->
  room_insert_at i k v (Some r) (Node (xs1 ++ xs2) (Some (es1 ++ c :: es2))) =
  Ret (Node (xs1 ++ (k, v) :: xs2) (Some (es1 ++ c :: r :: es2))).
Proof.
  intros E1 E2 E3 L. unfold room_insert_at. cbn [is_leaf edges_of Bool.eqb assert_]. rewrite bind_pure.
  rewrite has_room_spec by (unfold length_; cbn; rewrite app_length; lia). unfold length_. cbn [elems_of].
  rewrite (proj2 (Nat.ltb_lt _ _)) by (rewrite app_length; lia). cbn [assert_]. rewrite bind_pure. rewrite b_elems, b_edges. rewrite open_mid by auto. rewrite bind_pure.
  change (es1 ++ c :: es2) with (es1 ++ [c] ++ es2). rewrite app_assoc. rewrite open_mid by (rewrite ?app_length; cbn; lia). rewrite bind_pure.
  rewrite <- app_assoc. reflexivity.
Qed.

Lemma full_split_leaf (l : list entry) m r : List.length l = 5 -> List.length r = 5 ->
  full_split (Node (l ++ m :: r) None) = Ret (Node l None, m, Node r None).
Proof.
  intros L R. unfold full_split, is_full, length_. cbn [elems_of edges_of]. rewrite app_length. cbn [List.length]. rewrite L, R.
  change (Nat.eqb cap_elems (5 + 6)) with true. cbn [assert_]. rewrite bind_pure, b_half. rewrite load_mid by auto. rewrite bind_pure.
  rewrite firstn_mid by auto. change B with (S 5). rewrite skipn_mid1 by auto. now rewrite <- R, firstn_all.
Qed.

Lemma full_split_inner (l : list entry) m r (le re : list node) : List.length l = 5 -> List.length r = 5 -> List.length le = 6 -> List.length re = 6 ->
  full_split (Node (l ++ m :: r) (Some (le ++ re))) = Ret (Node l (Some le), m, Node r (Some re)).
Proof.
  intros L R LE RE. unfold full_split, is_full, length_. cbn [elems_of edges_of]. rewrite app_length. cbn [List.length]. rewrite L, R.
  change (Nat.eqb cap_elems (5 + 6)) with true. cbn [assert_]. rewrite bind_pure, b_half. rewrite load_mid by auto. rewrite bind_pure.
  rewrite firstn_mid by auto. change B with (S 5). rewrite skipn_mid1 by auto. rewrite (firstn_mid le), (skipn_mid le) by auto.
  rewrite <- RE at 1. rewrite firstn_all. rewrite <- R at 1. now rewrite firstn_all.
Qed.

(** What an insertion below may give back. *)
Definition inserted (lo h : nat) (key : K) (value : V) (l : list entry) (r : insertion K V) (n : node) : Prop :=
  match r with
  | Replace v => lookup cmp key l = Some v /\ flatten n = put cmp true key value l /\ ok lo h n
  | Fit => lookup cmp key l = None /\ flatten n = put cmp true key value l /\ ok lo h n
  | Split k v rn => lookup cmp key l = None /\ flatten n ++ (k, v) :: flatten rn = put cmp true key value l /\ ok 5 h n /\ ok 5 h rn
  end.

Lemma leaf_insert_at lo (xs1 xs2 : list entry) k v : lo <= List.length xs1 + List.length xs2 <= 11 ->
  exists r n, insert_at (List.length xs1) k v None (Node (xs1 ++ xs2) None) = Ret (r, n) /\
    match r with
    | Fit => n = Node (xs1 ++ (k, v) :: xs2) None /\ List.length xs1 + List.length xs2 <= 10
    | Split k' v' rn => flatten n ++ (k', v') :: flatten rn = xs1 ++ (k, v) :: xs2 /\ ok 5 0 n /\ ok 5 0 rn
    | Replace _ => False
    end.
Proof.
  intros L. unfold insert_at. cbn [is_leaf edges_of Bool.eqb assert_]. rewrite bind_pure.
  rewrite has_room_spec by (unfold length_; cbn; rewrite app_length; lia). unfold length_ at 1. cbn [elems_of]. rewrite app_length.
  destruct (Nat.ltb_spec (List.length xs1 + List.length xs2) 11) as [R|R].
  - rewrite room_insert_leaf by auto. eexists _, _. split; [reflexivity|]. split; [auto|lia].
  - destruct (Nat.le_gt_cases (List.length xs1) 5) as [I|I].
    + destruct (cut_at xs2 (5 - List.length xs1)) as (a & m & b & -> & La); [lia|]. rewrite app_length in R, L. cbn in R, L.
      rewrite app_assoc. rewrite full_split_leaf by (rewrite ?app_length; lia). rewrite bind_pure. destruct m as [mk mv]. unfold length_. cbn [elems_of].
      rewrite (proj2 (Nat.leb_le _ _)) by (rewrite app_length; lia). rewrite room_insert_leaf by lia. rewrite bind_pure.
      eexists _, _. split; [reflexivity|]. cbn [flatten ok]. rewrite <- app_assoc, app_length. cbn [app List.length]. split; [reflexivity|lia].
    + destruct (cut_at xs1 5) as (a & m & b & -> & La); [lia|]. rewrite app_length in R, L, I |- *. cbn in R, L, I |- *.
      rewrite <- app_assoc. cbn [app]. rewrite full_split_leaf by (rewrite ?app_length; lia). rewrite bind_pure. destruct m as [mk mv]. unfold length_. cbn [elems_of].
      rewrite (proj2 (Nat.leb_gt _ _)) by lia. rewrite room_insert_leaf by lia. rewrite bind_pure.
      eexists _, _. split; [reflexivity|]. cbn [flatten ok]. rewrite <- app_assoc, app_length. cbn [app List.length]. split; [reflexivity|lia].
Qed.

Lemma inner_insert_at lo h (xs1 xs2 : list entry) (es1 : list node) c es2 k v rn :
  List.length es1 = List.length xs1 -> List.length es2 = List.length xs2 ->
  Forall (ok 5 h) es1 -> ok 5 h c -> ok 5 h rn -> Forall (ok 5 h) es2 ->
  lo <= List.length xs1 + List.length xs2 <= 11 ->
  exists r n, insert_at (List.length xs1) k v (Some rn) (Node (xs1 ++ xs2) (Some (es1 ++ c :: es2))) = Ret (r, n) /\
    let all := before es1 xs1 ++ flatten c ++ (k, v) :: flatten rn ++ after xs2 es2 in
    match r with
    | Fit => flatten n = all /\ ok lo (S h) n
    | Split k' v' r => flatten n ++ (k', v') :: flatten r = all /\ ok 5 (S h) n /\ ok 5 (S h) r
    | Replace _ => False
    end.
Proof.
  intros L1 L2 F1 Fc Fr F2 L. unfold insert_at. cbn [is_leaf edges_of Bool.eqb assert_]. rewrite bind_pure.
  rewrite has_room_spec by (unfold length_; cbn; rewrite app_length; lia). unfold length_ at 1. cbn [elems_of]. rewrite app_length.
  destruct (Nat.ltb_spec (List.length xs1 + List.length xs2) 11) as [R|R].
  - rewrite room_insert_inner by auto. eexists _, _. split; [reflexivity|]. cbn zeta. split.
    + rewrite flatten_at by (cbn; lia). reflexivity.
    + cbn [ok]. rewrite !app_length. cbn. repeat split; try lia. apply Forall_app. auto.
  - destruct (Nat.le_gt_cases (List.length xs1) 5) as [I|I].
    + destruct (cut_at xs2 (5 - List.length xs1)) as (a & m & b & -> & La); [lia|]. rewrite app_length in R, L, L2. cbn in R, L, L2.
      destruct (cut_at es2 (5 - List.length xs1)) as (ea & e & eb & -> & Lea); [lia|]. rewrite app_length in L2. cbn in L2.
      apply Forall_app in F2 as [Fa F2]. apply Forall_cons_iff in F2 as [Fe Fb].
      change (es1 ++ c :: ea ++ e :: eb) with (es1 ++ (c :: ea) ++ e :: eb). rewrite !app_assoc. rewrite full_split_inner by (rewrite ?app_length; cbn; lia).
      rewrite bind_pure. destruct m as [mk mv]. unfold length_. cbn [elems_of].
      rewrite (proj2 (Nat.leb_le _ _)) by (rewrite app_length; lia). rewrite room_insert_inner by lia. rewrite bind_pure.
      eexists _, _. split; [reflexivity|]. cbn zeta. repeat split.
      * rewrite flatten_at by (cbn; lia). cbn [flatten]. rewrite inter_after by lia. rewrite after_app by lia. cbn [after].
        rewrite <- !app_assoc. cbn [app]. now rewrite <- !app_assoc.
      * rewrite app_length. cbn. lia.
      * rewrite app_length. cbn. lia.
      * rewrite !app_length. cbn. lia.
      * apply Forall_app. split; auto.
      * lia.
      * lia.
      * cbn. lia.
      * auto.
    + destruct (cut_at xs1 5) as (a & m & b & -> & La); [lia|]. rewrite app_length in R, L, I, L1 |- *. cbn in R, L, I, L1 |- *.
      destruct (cut_at es1 5) as (ea & e & eb & -> & Lea); [lia|]. rewrite app_length in L1. cbn in L1.
      apply Forall_app in F1 as [Fa F1]. apply Forall_cons_iff in F1 as [Fe Fb].
      rewrite <- !app_assoc. cbn [app].
      change (ea ++ e :: eb ++ c :: es2) with (ea ++ [e] ++ (eb ++ c :: es2)). rewrite (app_assoc ea). rewrite full_split_inner by (rewrite ?app_length; cbn; lia).
      rewrite bind_pure. destruct m as [mk mv]. unfold length_. cbn [elems_of].
      rewrite (proj2 (Nat.leb_gt _ _)) by lia. rewrite room_insert_inner by lia. rewrite bind_pure.
      eexists _, _. split; [reflexivity|]. cbn zeta. repeat split.
      * rewrite (flatten_at eb) by (cbn; lia). cbn [after].
        rewrite <- (app_nil_r a) at 1. change ([e]) with (e :: []). rewrite flatten_at by (cbn; lia). cbn [after].
        rewrite before_app by lia. cbn [before]. rewrite <- !app_assoc. reflexivity.
      * lia.
      * lia.
      * rewrite !app_length. cbn. lia.
      * apply Forall_app. split; auto.
      * rewrite app_length. cbn. lia.
      * rewrite app_length. cbn. lia.
      * rewrite !app_length. cbn. lia.
      * apply Forall_app. split; auto.
Qed.

Lemma insert_unfold key value (n : node) : insert cmp key value n =
  match search cmp key n with
  | Found i => let* (v, n) := replace_value_at i value n in Ret (Replace v, n)
  | GoDown i =>
      match n with
      | Node _ None => insert_at i key value None n
      | Node _ (Some edges) =>
          let* (r, c) := edge_do (fun c => insert cmp key value c) i edges in
          let* n := set_edge i c n in
          match r with
          | Split k v rn => insert_at i k v (Some rn) n
          | r => Ret (r, n)
          end
      end
  end.
Proof. now destruct n as [xs [es|]]. Qed.

Lemma set_edge_mid i (xs : list entry) es1 (c d : node) es2 : i = List.length es1 ->
  set_edge i d (Node xs (Some (es1 ++ c :: es2))) = Ret (Node xs (Some (es1 ++ d :: es2))).
Proof. intro E. unfold set_edge. cbn [edges_of elems_of]. rewrite store_mid by auto. reflexivity. Qed.

Lemma insert_ok key value h : forall lo (n : node), ok lo h n -> increasing cmp (flatten n) ->
  exists r n', insert cmp key value n = Ret (r, n') /\ inserted lo h key value (flatten n) r n'.
Proof.
  induction h as [|h IH]; intros lo n O H; rewrite insert_unfold.
  - apply ok_leaf in O as (xs & -> & L). cbn [flatten] in *. pose proof (search_leaf key xs H) as Q. destruct (search cmp key _) as [i|i].
    + destruct Q as (xs1 & k & v & xs2 & -> & -> & E & BL & A). rewrite replace_value_at_mid by auto. rewrite bind_pure. eexists _, _. split; [reflexivity|].
      cbn [inserted flatten ok]. rewrite found_lookup, found_put by auto. rewrite app_length in *. auto.
    + destruct Q as (xs1 & xs2 & -> & -> & BL & A). rewrite app_length in L. destruct (leaf_insert_at lo xs1 xs2 key value L) as (r & n & -> & Q).
      exists r, n. split; auto. destruct r as [v| |k v rn]; cbn [inserted]; rewrite gap_lookup, gap_put by auto; [destruct Q| |auto].
      destruct Q as [-> Q]. cbn [flatten ok]. rewrite app_length. cbn [List.length]. repeat split; auto; lia.
  - apply ok_inner in O as (xs & es & -> & L & Le & F). pose proof (search_inner key h xs es Le F H) as Q. destruct (search cmp key _) as [i|i].
    + destruct Q as (xs1 & k & v & xs2 & es1 & c & r & es2 & (E0 & L1 & L2 & L3) & -> & E1 & E & BL & A & _). injection E0 as -> ->.
      rewrite <- !app_assoc. cbn [app]. rewrite replace_value_at_mid by auto. rewrite bind_pure. eexists _, _. split; [reflexivity|].
      rewrite !app_length in *. cbn [List.length] in *. cbn [inserted].
      rewrite !flatten_at by (cbn; lia). cbn [after]. rewrite !app_assoc. rewrite found_lookup, found_put by auto. repeat split; auto.
      * rewrite app_length. cbn. lia.
      * rewrite app_length. cbn. lia.
      * rewrite !app_length. cbn. lia.
      * now rewrite <- app_assoc in F.
    + destruct Q as (xs1 & xs2 & es1 & c & es2 & (E & L1 & L2 & L3) & BL & A & HC & F1 & Fc & F2). injection E as -> ->.
      rewrite edge_do_mid by auto. destruct (IH 5 c Fc HC) as (r & c' & -> & Q). rewrite bind_pure. rewrite set_edge_mid by auto. rewrite bind_pure.
      rewrite flatten_at by lia. rewrite app_length in *. destruct r as [v| |k v rn].
      * destruct Q as (Q1 & Q2 & Q3). eexists _, _. split; [reflexivity|]. cbn [inserted]. rewrite flatten_at by lia. rewrite (lookup_mid cmp), (put_mid cmp) by auto. rewrite Q2. repeat split; auto.
        -- rewrite app_length. lia.
        -- rewrite app_length. lia.
        -- rewrite !app_length. cbn. lia.
        -- apply Forall_app. auto.
      * destruct Q as (Q1 & Q2 & Q3). eexists _, _. split; [reflexivity|]. cbn [inserted]. rewrite flatten_at by lia. rewrite (lookup_mid cmp), (put_mid cmp) by auto. rewrite Q2. repeat split; auto.
        -- rewrite app_length. lia.
        -- rewrite app_length. lia.
        -- rewrite !app_length. cbn. lia.
        -- apply Forall_app. auto.
      * destruct Q as (Q1 & Q2 & Q3 & Q4). rewrite <- L2. destruct (inner_insert_at lo h xs1 xs2 es1 c' es2 k v rn) as (r & n & -> & Q); auto; try lia.
        exists r, n. split; auto. cbn zeta in Q.
        destruct r as [w| |k' v' r]; cbn [inserted]; [destruct Q| |]; rewrite (lookup_mid cmp), (put_mid cmp) by auto; rewrite <- Q2, <- app_assoc; cbn [app]; repeat split; tauto.
Qed.

End Tree.
