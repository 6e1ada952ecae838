(** * Removing from a B-tree *)
From Verif.Base Require Import Base.
From Verif.OrdMap Require Import Model Spec SpecTree ProofsSpec Proofs ProofsInsert.
Local Open Scope nat_scope.
Local Open Scope list_scope.

Section Tree.
Context {K V : Type} (cmp : K -> K -> comparison) (law : lawful cmp).
Notation node := (node K V).
Notation entry := (K * V)%type.

Lemma edge_at_mid i (xs : list entry) es1 (c : node) es2 : i = List.length es1 -> i <= List.length xs ->
  edge_at i (Node xs (Some (es1 ++ c :: es2))) = Ret c.
Proof.
  intros E L. unfold edge_at, length_. cbn [edges_of elems_of]. rewrite (proj2 (Nat.leb_le _ _)) by auto. cbn [assert_]. rewrite bind_pure.
  now apply load_mid.
Qed.

(** Two nodes next to each other, below a node. *)
Section Pair.
Variables (h : nat) (xs1 : list entry) (x : entry) (xs2 : list entry) (es1 : list node) (es2 : list node).
Hypothesis L1 : List.length es1 = List.length xs1.
Hypothesis L2 : List.length es2 = List.length xs2.
Let i := List.length xs1.
Let n l r := Node (xs1 ++ x :: xs2) (Some (es1 ++ l :: r :: es2)).

Lemma pair_left l r : edge_at i (n l r) = Ret l.
Proof. apply edge_at_mid; unfold i; [lia|rewrite app_length; lia]. Qed.

Lemma pair_right l r : edge_at (i + 1) (n l r) = Ret r.
Proof.
  unfold n. change (es1 ++ l :: r :: es2) with (es1 ++ [l] ++ r :: es2). rewrite app_assoc. apply edge_at_mid; unfold i; rewrite app_length; cbn; lia.
Qed.

Lemma set_pair_left xs c rr (d : node) : set_edge i d (Node xs (Some (es1 ++ c :: rr :: es2))) = Ret (Node xs (Some (es1 ++ d :: rr :: es2))).
Proof. apply set_edge_mid. unfold i. lia. Qed.

Lemma set_pair_right xs c rr (d : node) : set_edge (i + 1) d (Node xs (Some (es1 ++ c :: rr :: es2))) = Ret (Node xs (Some (es1 ++ c :: d :: es2))).
Proof.
  change (es1 ++ c :: rr :: es2) with (es1 ++ [c] ++ rr :: es2). rewrite app_assoc. rewrite set_edge_mid by (rewrite app_length; unfold i; cbn; lia).
  now rewrite <- app_assoc.
Qed.

Lemma steal_left_ok l r : ok 6 h l -> ok 4 h r -> length_ r = 4 ->
  exists l' y r', steal_from_left (i + 1) (n l r) = Ret (Node (xs1 ++ y :: xs2) (Some (es1 ++ l' :: r' :: es2))) /\
    flatten l ++ x :: flatten r = flatten l' ++ y :: flatten r' /\ ok 5 h l' /\ ok 5 h r'.
Proof.
  intros Ol Or Lr. pose proof (ok_length _ _ _ Ol) as Ll. unfold steal_from_left.
  rewrite (proj2 (Nat.eqb_neq _ _)) by lia. cbn [negb assert_]. rewrite bind_pure. rewrite Nat.add_sub, pair_left, bind_pure, pair_right, bind_pure, b_half.
  rewrite (proj2 (Nat.ltb_lt _ _)), (proj2 (Nat.ltb_lt _ _)) by lia. cbn [andb assert_]. rewrite bind_pure. cbn [elems_of edges_of n].
  rewrite load_mid, bind_pure by auto.
  destruct (cut_last (elems_of l)) as (lx & y & Ey); [unfold length_ in Ll; lia|].
  assert (Lx : length_ l = S (List.length lx)) by (unfold length_; rewrite Ey, app_length; cbn; lia).
  rewrite Ey, Lx. cbn [Nat.sub]. rewrite Nat.sub_0_r. rewrite load_mid, bind_pure by auto. rewrite store_mid, bind_pure by auto.
  rewrite b_elems, b_edges. change (elems_of r) with ([] ++ elems_of r). rewrite open_mid by (unfold length_ in Lr; cbn; lia). rewrite bind_pure.
  rewrite close_mid, bind_pure by auto. rewrite app_nil_r. cbn [app].
  destruct h as [|h'].
  - apply ok_leaf in Ol as (lxs & -> & ?). apply ok_leaf in Or as (rxs & -> & ?). cbn [elems_of edges_of] in *. unfold length_ in *. cbn [elems_of] in *. subst lxs.
    rewrite bind_pure. cbn [edges_of n]. rewrite set_pair_left, bind_pure, set_pair_right. eexists _, _, _. split; [reflexivity|]. cbn [flatten ok]. rewrite <- app_assoc. cbn. repeat split; lia.
  - apply ok_inner in Ol as (lxs & les & -> & ? & Lle & Fl). apply ok_inner in Or as (rxs & res & -> & ? & Lre & Fr). unfold length_ in *. cbn [elems_of edges_of] in *. subst lxs.
    rewrite app_length in Lle. cbn in Lle. destruct (cut_last les) as (le & e & ->); [lia|]. rewrite app_length in Lle. cbn in Lle.
    rewrite load_mid, bind_pure by lia. change res with ([] ++ res) at 1. rewrite open_mid by (cbn; lia). rewrite bind_pure. rewrite close_mid, bind_pure by lia. rewrite bind_pure.
    cbn [edges_of n]. rewrite set_pair_left, bind_pure, set_pair_right. eexists _, _, _. split; [reflexivity|]. rewrite app_nil_r. cbn [app ok].
    apply Forall_app in Fl as [Fle Fe]. inversion Fe as [|? ? Fe1 ?]; subst. repeat split; auto; try (cbn; lia).
    rewrite <- (app_nil_r (lx ++ [y])). rewrite flatten_at by (rewrite ?app_length; cbn; lia). cbn [after]. rewrite app_nil_r.
    destruct (cut_last le) as (le0 & e0 & ->); [lia|]. rewrite app_length in Lle; cbn in Lle.
    rewrite before_app by lia. cbn [before flatten].
    rewrite <- (app_nil_r lx) at 2. rewrite (inter_app le0 [e0] lx []) by lia. destruct res as [|r0 res]; [cbn in Lre; lia|].
    cbn [List.map inter]. rewrite <- !app_assoc. cbn [app]. reflexivity.
Qed.

Lemma steal_right_ok l r : ok 4 h l -> length_ l = 4 -> ok 6 h r ->
  exists l' y r', steal_from_right i (n l r) = Ret (Node (xs1 ++ y :: xs2) (Some (es1 ++ l' :: r' :: es2))) /\
    flatten l ++ x :: flatten r = flatten l' ++ y :: flatten r' /\ ok 5 h l' /\ ok 5 h r'.
Proof.
  intros Ol Ll Or. pose proof (ok_length _ _ _ Or) as Lr. unfold steal_from_right.
  rewrite (proj2 (Nat.eqb_neq _ _)) by (unfold n, length_, i; cbn; rewrite app_length; cbn; lia). cbn [negb assert_]. rewrite bind_pure. rewrite pair_left, bind_pure, pair_right, bind_pure, b_half.
  rewrite (proj2 (Nat.ltb_lt _ _)), (proj2 (Nat.ltb_lt _ _)) by lia. cbn [andb assert_]. rewrite bind_pure. cbn [elems_of edges_of n].
  rewrite load_mid, bind_pure by auto.
  destruct (elems_of r) as [|y rx] eqn:Ey; [unfold length_ in Lr; rewrite Ey in Lr; cbn in Lr; lia|].
  change (load 0 (y :: rx)) with (Ret y). rewrite bind_pure. rewrite b_elems, b_edges.
  rewrite <- (app_nil_r (elems_of l)). unfold length_ in Ll. rewrite open_mid by (unfold length_; cbn; lia). rewrite bind_pure.
  rewrite store_mid, bind_pure by auto. change (close_at 0 (y :: rx)) with (Ret rx). rewrite bind_pure.
  unfold length_ in *. rewrite Ey in Lr. cbn in Lr.
  destruct h as [|h'].
  - apply ok_leaf in Ol as (lxs & -> & ?). apply ok_leaf in Or as (rxs & -> & ?). cbn [elems_of edges_of] in *. subst rxs.
    rewrite bind_pure. cbn [edges_of n]. rewrite set_pair_left, bind_pure, set_pair_right. eexists _, _, _. split; [reflexivity|]. cbn [flatten ok]. rewrite <- app_assoc, app_length. cbn. repeat split; lia.
  - apply ok_inner in Ol as (lxs & les & -> & ? & Lle & Fl). apply ok_inner in Or as (rxs & res & -> & ? & Lre & Fr). cbn [elems_of edges_of] in *. subst rxs.
    cbn in Lre. destruct res as [|e re]; [discriminate|]. change (load 0 (e :: re)) with (Ret e). rewrite bind_pure.
    rewrite open_end by lia. rewrite bind_pure. change (close_at 0 (e :: re)) with (Ret re). rewrite !bind_pure.
    cbn [edges_of n]. rewrite set_pair_left, bind_pure, set_pair_right. eexists _, _, _. split; [reflexivity|]. cbn [ok].
    apply Forall_cons_iff in Fr as [Fe Fr]. cbn in Lre. rewrite !app_length. cbn [List.length].
    repeat split; auto; try lia; [|apply Forall_app; auto].
    cbn [flatten]. destruct re as [|r0 re]; [cbn in Lre; lia|]. cbn in Lre. rewrite (inter_after e) by (cbn; lia). cbn [after].
    rewrite (inter_after r0) by lia.
    destruct (cut_last les) as (le0 & e0 & ->); [lia|]. rewrite app_length in Lle; cbn in Lle.
    rewrite <- !app_assoc. cbn [app]. rewrite (inter_app le0 [e0; e]) by lia. cbn [List.map inter].
    rewrite <- (app_nil_r lxs) at 1. change (le0 ++ [e0]) with (le0 ++ e0 :: []). rewrite inter_app by lia. cbn [List.map inter].
    rewrite <- !app_assoc. cbn [app]. reflexivity.
Qed.

Lemma merge_ok l r : ok 4 h l -> ok 4 h r -> 9 <= length_ l + length_ r <= 10 ->
  exists m, merge i (n l r) = Ret (Node (xs1 ++ xs2) (Some (es1 ++ m :: es2))) /\ flatten m = flatten l ++ x :: flatten r /\ ok 5 h m.
Proof.
  intros Ol Or Lm. unfold merge. rewrite pair_left, bind_pure, pair_right, bind_pure.
  rewrite (proj2 (Nat.leb_le _ _)) by (cbn; lia). cbn [assert_]. rewrite bind_pure. unfold n. cbn [elems_of]. rewrite load_mid, bind_pure by auto.
  rewrite close_mid, bind_pure by auto. unfold length_ in *. rewrite b_elems, b_edges. rewrite open_end by lia. rewrite bind_pure.
  rewrite append_fits by (rewrite app_length; cbn; lia). rewrite bind_pure.
  destruct h as [|h'].
  - apply ok_leaf in Ol as (lxs & -> & ?). apply ok_leaf in Or as (rxs & -> & ?). cbn [elems_of edges_of] in *.
    rewrite bind_pure. rewrite set_pair_left, bind_pure. cbn [edges_of]. 
    set (m := Node _ None). change (es1 ++ m :: Node rxs None :: es2) with (es1 ++ [m] ++ Node rxs None :: es2). rewrite app_assoc.
    rewrite close_mid by (rewrite app_length; unfold i; cbn; lia). rewrite bind_pure. exists m. rewrite <- app_assoc. split; [reflexivity|]. unfold m. cbn [flatten ok].
    rewrite <- app_assoc. split; [reflexivity|]. rewrite app_length. cbn. lia.
  - apply ok_inner in Ol as (lxs & les & -> & ? & Lle & Fl). apply ok_inner in Or as (rxs & res & -> & ? & Lre & Fr). cbn [elems_of edges_of] in *.
    rewrite append_fits by lia. rewrite !bind_pure. rewrite set_pair_left, bind_pure. cbn [edges_of].
    set (m := Node _ (Some (les ++ res))). set (rr := Node rxs _). change (es1 ++ m :: rr :: es2) with (es1 ++ [m] ++ rr :: es2). rewrite app_assoc.
    rewrite close_mid by (rewrite app_length; unfold i; cbn; lia). rewrite bind_pure. exists m. rewrite <- app_assoc. split; [reflexivity|]. unfold m, rr. cbn [ok].
    repeat split.
    + rewrite <- app_assoc. cbn [app flatten]. destruct (cut_last les) as (le0 & e0 & ->); [lia|]. rewrite app_length in Lle; cbn in Lle.
      rewrite <- !app_assoc. cbn [app]. rewrite inter_app by lia. cbn [List.map inter].
      rewrite <- (app_nil_r lxs) at 2. change (le0 ++ [e0]) with (le0 ++ e0 :: []). rewrite inter_app by lia. cbn [List.map inter]. now rewrite <- app_assoc.
    + rewrite !app_length. cbn. lia.
    + rewrite !app_length. cbn. lia.
    + rewrite !app_length. cbn. lia.
    + apply Forall_app. auto.
Qed.

Hypothesis F1 : Forall (ok 5 h) es1.
Hypothesis F2 : Forall (ok 5 h) es2.
Hypothesis Lx : List.length xs1 + List.length xs2 <= 10.

Definition repaired l r (o : outcome node) : Prop :=
  exists n', o = Ret n' /\ flatten n' = before es1 xs1 ++ flatten l ++ x :: flatten r ++ after xs2 es2 /\
    ok (List.length xs1 + List.length xs2) (S h) n'.

Lemma pair_repaired l r l' y r' : flatten l ++ x :: flatten r = flatten l' ++ y :: flatten r' -> ok 5 h l' -> ok 5 h r' ->
  repaired l r (Ret (Node (xs1 ++ y :: xs2) (Some (es1 ++ l' :: r' :: es2)))).
Proof.
  intros E Ol Or. eexists. split; [reflexivity|]. split.
  - rewrite flatten_at by (cbn; lia). cbn [after]. f_equal. change (x :: flatten r ++ after xs2 es2) with ((x :: flatten r) ++ after xs2 es2).
    rewrite !app_assoc, E, <- !app_assoc. reflexivity.
  - cbn [ok]. rewrite !app_length. cbn [List.length]. repeat split; try lia. apply Forall_app. auto.
Qed.

Lemma merge_repaired l r : ok 4 h l -> ok 4 h r -> 9 <= length_ l + length_ r <= 10 -> repaired l r (merge i (n l r)).
Proof.
  intros Ol Or Lm. destruct (merge_ok l r Ol Or Lm) as (m & -> & E & O). eexists. split; [reflexivity|]. split.
  - rewrite flatten_at by lia. rewrite E. now rewrite <- app_assoc.
  - cbn [ok]. rewrite !app_length. cbn [List.length]. repeat split; try lia. apply Forall_app. auto.
Qed.

Lemma check_left_ok l r : ok 5 h l -> ok 4 h r -> repaired l r (check_underflow_left (i + 1) (n l r)).
Proof.
  intros Ol Or. pose proof (ok_length _ _ _ Ol). pose proof (ok_length _ _ _ Or). unfold check_underflow_left.
  rewrite (proj2 (Nat.eqb_neq _ _)) by lia. cbn [negb assert_]. rewrite bind_pure. rewrite Nat.add_sub, pair_right, bind_pure, pair_left, bind_pure, b_half.
  destruct (Nat.leb_spec 5 (length_ r)); [|destruct (Nat.ltb_spec 5 (length_ l))].
  - apply pair_repaired; auto. eapply ok_raise; eauto.
  - destruct (steal_left_ok l r) as (l' & y & r' & -> & E & O1 & O2); auto; [eapply ok_raise; [|eauto]; lia|lia|]. now apply pair_repaired.
  - apply merge_repaired; [eapply ok_weaken; [|eauto]; lia|auto|lia].
Qed.

Lemma check_right_ok l r : ok 4 h l -> ok 5 h r -> repaired l r (check_underflow_right i (n l r)).
Proof.
  intros Ol Or. pose proof (ok_length _ _ _ Ol). pose proof (ok_length _ _ _ Or). unfold check_underflow_right.
  rewrite (proj2 (Nat.eqb_neq _ _)) by (unfold n, length_, i; cbn; rewrite app_length; cbn; lia). cbn [negb assert_]. rewrite bind_pure. rewrite pair_left, bind_pure, pair_right, bind_pure, b_half.
  destruct (Nat.leb_spec 5 (length_ l)); [|destruct (Nat.ltb_spec 5 (length_ r))].
  - apply pair_repaired; auto. eapply ok_raise; eauto.
  - destruct (steal_right_ok l r) as (l' & y & r' & -> & E & O1 & O2); auto; [lia|eapply ok_raise; [|eauto]; lia|]. now apply pair_repaired.
  - apply merge_repaired; [auto|eapply ok_weaken; [|eauto]; lia|lia].
Qed.

End Pair.

(** After an element left the node at an edge. *)
Lemma check_ok h i (xs1 xs2 : list entry) (es1 : list node) c es2 :
  List.length xs1 = i -> List.length es1 = i -> List.length es2 = List.length xs2 -> 1 <= List.length xs1 + List.length xs2 <= 11 ->
  Forall (ok 5 h) es1 -> ok 4 h c -> Forall (ok 5 h) es2 ->
  exists n', check_underflow i (Node (xs1 ++ xs2) (Some (es1 ++ c :: es2))) = Ret n' /\
    flatten n' = before es1 xs1 ++ flatten c ++ after xs2 es2 /\ ok (List.length xs1 + List.length xs2 - 1) (S h) n'.
Proof.
  intros X1 E1 L2 L F1 Oc F2. unfold check_underflow. destruct (Nat.eqb_spec i 0) as [Z|Z].
  - destruct xs1, es1; try (subst; discriminate). destruct xs2 as [|x xs2], es2 as [|r es2]; cbn in *; try lia. apply Forall_cons_iff in F2 as [Fr F2].
    destruct (check_right_ok h [] x xs2 [] es2) with (l := c) (r := r) as (n' & E & F & O); auto; [cbn; lia|]. exists n'. subst i. cbn in *. rewrite E. repeat split; auto.
    now rewrite Nat.sub_0_r.
  - destruct (cut_last xs1) as (ys1 & x & ->); [lia|]. destruct (cut_last es1) as (ds1 & l & ->); [lia|]. rewrite app_length in *. cbn [List.length] in *.
    apply Forall_app in F1 as [F1 Fl]. inversion Fl as [|? ? Ol ?]; subst.
    destruct (check_left_ok h ys1 x xs2 ds1 es2) with (l := l) (r := c) as (n' & E & F & O); auto; try lia. exists n'. rewrite <- !app_assoc. cbn [app]. rewrite E. split; [reflexivity|].
    split.
    + rewrite before_app by lia. cbn [before]. rewrite F, <- !app_assoc. reflexivity.
    + eapply ok_weaken; [|exact O]. lia.
Qed.

Lemma leaf_remove_mid i (xs1 : list entry) x xs2 : i = List.length xs1 -> leaf_remove_at i (Node (xs1 ++ x :: xs2) None) = Ret (x, Node (xs1 ++ xs2) None).
Proof. intro E. unfold leaf_remove_at. cbn [is_leaf edges_of elems_of assert_]. rewrite bind_pure, load_mid, bind_pure, close_mid by auto. reflexivity. Qed.

Lemma remove_smallest_ok h : forall lo (n : node), ok lo h n -> 1 <= length_ n ->
  exists e n', remove_smallest n = Ret (e, n') /\ flatten n = e :: flatten n' /\ ok (lo - 1) h n'.
Proof.
  induction h as [|h IH]; intros lo n O L.
  - apply ok_leaf in O as (xs & -> & Lx). destruct xs as [|x xs]; [cbn in L; lia|]. cbn [remove_smallest]. change (leaf_remove_at 0 (Node (x :: xs) None)) with (leaf_remove_at 0 (Node ([] ++ x :: xs) None)). rewrite leaf_remove_mid by auto.
    eexists _, _. split; [reflexivity|]. cbn in *. split; auto. lia.
  - apply ok_inner in O as (xs & es & -> & Lx & Le & F). unfold length_ in L. cbn [elems_of] in L. destruct es as [|c es]; [discriminate|]. apply Forall_cons_iff in F as [Fc F].
    cbn in Le. cbn [remove_smallest edge_do]. pose proof (ok_length _ _ _ Fc). destruct (IH 5 c) as (e & c' & -> & E & O); auto; [lia|]. rewrite bind_pure.
    change (set_edge 0 c' (Node xs (Some (c :: es)))) with (Ret (Node xs (Some (c' :: es)))). rewrite bind_pure.
    destruct (check_ok h 0 [] xs [] c' es) as (n' & C & Fl & O'); auto; [cbn; lia|]. cbn [app] in *. rewrite C, bind_pure.
    eexists _, _. split; [reflexivity|]. split.
    + change (flatten (Node xs (Some (c :: es)))) with (flatten (Node ([] ++ xs) (Some ([] ++ c :: es)))). rewrite flatten_at by (cbn; lia). rewrite Fl, E. reflexivity.
    + eapply ok_weaken; [|exact O']. cbn. lia.
Qed.

Lemma remove_largest_ok h : forall lo (n : node), ok lo h n -> 1 <= length_ n ->
  exists e n', remove_largest n = Ret (e, n') /\ flatten n = flatten n' ++ [e] /\ ok (lo - 1) h n'.
Proof.
  induction h as [|h IH]; intros lo n O L.
  - apply ok_leaf in O as (xs & -> & Lx). unfold length_ in L. cbn [elems_of] in L. destruct (cut_last xs) as (l & x & ->); [lia|]. cbn [remove_largest].
    rewrite leaf_remove_mid by (unfold length_; cbn [elems_of]; rewrite app_length; cbn; lia). rewrite app_nil_r.
    eexists _, _. split; [reflexivity|]. rewrite app_length in Lx. cbn in *. split; auto. lia.
  - apply ok_inner in O as (xs & es & -> & Lx & Le & F). unfold length_ in L. cbn [elems_of] in L. destruct (cut_last es) as (es1 & c & ->); [lia|].
    apply Forall_app in F as [F Fc]. inversion Fc as [|? ? Oc ?]; subst. rewrite app_length in Le. cbn in Le.
    cbn [remove_largest]. rewrite edge_do_mid by lia. pose proof (ok_length _ _ _ Oc). destruct (IH 5 c) as (e & c' & -> & E & O); auto; [lia|]. rewrite bind_pure.
    rewrite set_edge_mid by lia. rewrite bind_pure.
    destruct (check_ok h (List.length xs) xs [] es1 c' []) as (n' & C & Fl & O'); auto; [lia|cbn; lia|]. rewrite app_nil_r in C. rewrite C, bind_pure.
    eexists _, _. split; [reflexivity|]. split.
    + rewrite <- (app_nil_r xs) at 1. rewrite flatten_at by (cbn; lia). cbn [after] in *. rewrite Fl, E. rewrite !app_nil_r. now rewrite app_assoc.
    + eapply ok_weaken; [|exact O']. cbn. lia.
Qed.

Lemma remove_unfold key (n : node) : remove cmp key n =
  match search cmp key n with
  | Found i =>
      match n with
      | Node _ None => let* (e, n) := leaf_remove_at i n in Ret (Some e, n)
      | Node _ (Some edges) =>
          let* (x, c) := edge_do remove_smallest (i + 1) edges in
          let* n := set_edge (i + 1) c n in
          let* (e, n) := replace_elem_at i x n in
          let* n := check_underflow (i + 1) n in
          Ret (Some e, n)
      end
  | GoDown i =>
      match n with
      | Node _ None => Ret (None, n)
      | Node _ (Some edges) =>
          let* (e, c) := edge_do (fun c => remove cmp key c) i edges in
          match e with
          | None => Ret (None, n)
          | Some e =>
              let* n := set_edge i c n in
              let* n := check_underflow i n in
              Ret (Some e, n)
          end
      end
  end.
Proof. now destruct n as [xs [es|]]. Qed.

Lemma replace_elem_at_mid i (xs1 : list entry) x y xs2 es : i = List.length xs1 ->
  replace_elem_at i y (Node (xs1 ++ x :: xs2) es) = Ret (x, Node (xs1 ++ y :: xs2) es).
Proof.
  intro E. unfold replace_elem_at, length_. cbn [elems_of edges_of]. rewrite (proj2 (Nat.ltb_lt _ _)) by (rewrite app_length; cbn; lia). cbn [assert_]. rewrite bind_pure.
  rewrite load_mid by auto. rewrite bind_pure. rewrite store_mid by auto. reflexivity.
Qed.

Lemma remove_ok key h : forall lo (n : node), ok lo h n -> (h = 0 \/ 1 <= lo) -> increasing cmp (flatten n) ->
  exists r n', remove cmp key n = Ret (r, n') /\ option_map snd r = lookup cmp key (flatten n) /\
    flatten n' = del cmp key (flatten n) /\ ok (lo - 1) h n' /\ (r = None -> n' = n).
Proof.
  induction h as [|h IH]; intros lo n O Q0 H; rewrite remove_unfold.
  - apply ok_leaf in O as (xs & -> & L). cbn [flatten] in *. pose proof (search_leaf cmp law key xs H) as Q. destruct (search cmp key _) as [i|i].
    + destruct Q as (xs1 & k & v & xs2 & -> & -> & E & BL & A). rewrite leaf_remove_mid by auto. rewrite bind_pure. eexists _, _. split; [reflexivity|].
      rewrite found_lookup, found_del by auto. cbn [flatten ok]. rewrite app_length in *. cbn in *. repeat split; auto; try lia. discriminate.
    + destruct Q as (xs1 & xs2 & -> & -> & BL & A). eexists _, _. split; [reflexivity|]. rewrite gap_lookup, del_none by auto using gap_lookup.
      cbn [flatten ok]. repeat split; auto; lia.
  - apply ok_inner in O as (xs & es & -> & L & Le & F). pose proof (search_inner cmp law key h xs es Le F H) as Q. destruct (search cmp key _) as [i|i].
    + destruct Q as (xs1 & k & v & xs2 & es1 & c & r & es2 & (E0 & L1 & L2 & L3) & -> & E1 & E & BL & A & F1 & Oc & Or & F2). injection E0 as -> ->.
      rewrite edge_do_mid by lia. pose proof (ok_length _ _ _ Or). destruct (remove_smallest_ok h 5 r) as (x & r' & -> & Er & Or'); auto; [lia|]. rewrite bind_pure.
      rewrite set_edge_mid by lia. rewrite bind_pure. rewrite <- !app_assoc. cbn [app]. rewrite replace_elem_at_mid, bind_pure by auto.
      rewrite !app_length in *. cbn [List.length] in *.
      destruct (check_ok h (List.length xs1 + 1) (xs1 ++ [x]) xs2 (es1 ++ [c]) r' es2) as (n' & C & Fl & O'); auto; try (rewrite app_length; cbn; lia);
        [apply Forall_app; auto|]. rewrite <- !app_assoc in C. cbn [app] in C. rewrite C, bind_pure. eexists _, _. split; [reflexivity|].
      rewrite flatten_at by (cbn; lia). cbn [after]. rewrite app_assoc. rewrite found_lookup, found_del by auto. repeat split; auto.
      * rewrite Fl, Er. rewrite before_app by lia. cbn [before]. rewrite <- !app_assoc. reflexivity.
      * eapply ok_weaken; [|exact O']. rewrite app_length. cbn. lia.
      * discriminate.
    + destruct Q as (xs1 & xs2 & es1 & c & es2 & (E & L1 & L2 & L3) & BL & A & HC & F1 & Oc & F2). injection E as -> ->.
      rewrite edge_do_mid by auto. destruct (IH 5 c Oc (or_intror (le_S _ _ (le_S _ _ (le_S _ _ (le_S _ _ (le_n _)))))) HC) as (r & c' & -> & Q1 & Q2 & Q3 & _). rewrite bind_pure.
      rewrite flatten_at by lia. rewrite app_length in *. rewrite (lookup_mid cmp), (del_mid cmp) by auto. destruct r as [e|].
      * rewrite set_edge_mid, bind_pure by auto. destruct (check_ok h i xs1 xs2 es1 c' es2) as (n' & -> & Fl & O'); auto; [lia|]. rewrite bind_pure. eexists _, _. split; [reflexivity|].
        rewrite <- Q2. repeat split; auto; [|discriminate]. eapply ok_weaken; [|exact O']. lia.
      * eexists _, _. split; [reflexivity|]. rewrite del_none by auto. rewrite flatten_at by lia. repeat split; auto.
        -- rewrite app_length. lia.
        -- rewrite app_length. lia.
        -- rewrite !app_length. cbn. lia.
Qed.

End Tree.
