(** Facts about arrays with elements that may not be initialised. *)
From Coq Require Import Permutation.
From Verif.Base Require Import Base Buf.
Local Open Scope N_scope.
Local Open Scope list_scope.

Section Facts.
Context {A : Type}.
Implicit Types b d : buf A.

(** The element at a position, if it is initialised; a position made what is given. *)
Definition at_ b (i : N) : option A := nth (N.to_nat i) b None.
Definition upd b (i : N) (o : option A) : buf A := firstn (N.to_nat i) b ++ o :: skipn (S (N.to_nat i)) b.

Lemma at_nth b i : i < size b -> nth_error b (N.to_nat i) = Some (at_ b i).
Proof.
  unfold size, at_; intros H.
  destruct (nth_error b (N.to_nat i)) as [x|] eqn:E.
  - now rewrite (nth_error_nth b _ None E).
  - apply nth_error_None in E; lia.
Qed.
Lemma at_out b i : size b <= i -> at_ b i = None.
Proof. unfold size, at_; intros H; apply nth_overflow; lia. Qed.
Lemma at_some_in b i x : at_ b i = Some x -> i < size b.
Proof. intros H; destruct (N.lt_ge_cases i (size b)) as [L|L]; [exact L|]; rewrite at_out in H by lia; discriminate. Qed.

Lemma load_at b i x : at_ b i = Some x -> load i b = Ret x.
Proof. intros H; unfold load; rewrite at_nth by (eapply at_some_in; eassumption); now rewrite H. Qed.
Lemma load_none b i : at_ b i = None -> load i b = Panic.
Proof.
  intros H; unfold load; destruct (nth_error b (N.to_nat i)) as [[x|]|] eqn:E; try reflexivity.
  unfold at_ in H; rewrite (nth_error_nth b _ None E) in H; discriminate.
Qed.

Lemma size_upd b i o : i < size b -> size (upd b i o) = size b.
Proof.
  unfold size, upd; intros H; rewrite app_length; cbn [List.length]; rewrite firstn_length, skipn_length; lia.
Qed.
Lemma store_upd b i x : i < size b -> store i x b = Ret (upd b i (Some x)).
Proof. intros H; unfold store; rewrite (proj2 (N.ltb_lt _ _) H); reflexivity. Qed.
Lemma at_upd b i o j : i < size b -> at_ (upd b i o) j = if j =? i then o else at_ b j.
Proof.
  unfold size, upd, at_; intros H.
  assert (L : List.length (firstn (N.to_nat i) b) = N.to_nat i) by (rewrite firstn_length; lia).
  destruct (j =? i) eqn:E.
  - apply N.eqb_eq in E; subst j; rewrite app_nth2 by lia; rewrite L, Nat.sub_diag; reflexivity.
  - apply N.eqb_neq in E.
    destruct (N.lt_ge_cases j i) as [J|J].
    + rewrite app_nth1 by lia; rewrite <- (firstn_skipn (N.to_nat i) b) at 2; rewrite app_nth1 by lia; reflexivity.
    + rewrite app_nth2 by lia; rewrite L.
      replace (N.to_nat j - N.to_nat i)%nat with (S (N.to_nat j - S (N.to_nat i))) by lia; cbn [nth].
      rewrite <- (firstn_skipn (S (N.to_nat i)) b) at 2.
      rewrite app_nth2 by (rewrite firstn_length; lia); rewrite firstn_length; f_equal; lia.
Qed.
Lemma replace_upd b i x y : at_ b i = Some y -> replace i x b = Ret (y, upd b i (Some x)).
Proof.
  intros H; unfold replace; rewrite (load_at _ _ _ H); cbn [bind].
  rewrite store_upd by (eapply at_some_in; eassumption); reflexivity.
Qed.

Lemma at_firstn b n i : i < n -> at_ (firstn (N.to_nat n) b) i = at_ b i.
Proof.
  intros H; unfold at_.
  destruct (Nat.lt_ge_cases (N.to_nat i) (List.length b)) as [L|L].
  - rewrite <- (firstn_skipn (N.to_nat n) b) at 2; rewrite app_nth1; [reflexivity|]; rewrite firstn_length; lia.
  - rewrite !nth_overflow; [reflexivity|lia|rewrite firstn_length; lia].
Qed.
Lemma at_skipn b n i : at_ (skipn (N.to_nat n) b) i = at_ b (n + i).
Proof.
  unfold at_; rewrite N2Nat.inj_add; generalize (N.to_nat n) as k, (N.to_nat i) as j; intros k j.
  revert b; induction k as [|k IH]; intros b; [reflexivity|].
  destruct b as [|o b]; [destruct j; reflexivity|]; cbn [skipn Nat.add nth]; apply IH.
Qed.
Lemma at_app b d i : at_ (b ++ d) i = if i <? size b then at_ b i else at_ d (i - size b).
Proof.
  unfold at_, size; destruct (i <? N.of_nat (List.length b)) eqn:E.
  - apply N.ltb_lt in E; apply app_nth1; lia.
  - apply N.ltb_ge in E; rewrite app_nth2 by lia; f_equal; lia.
Qed.
Lemma size_app b d : size (b ++ d) = size b + size d.
Proof. unfold size; rewrite app_length; lia. Qed.
Lemma size_firstn b n : n <= size b -> size (firstn (N.to_nat n) b) = n.
Proof. unfold size; intros H; rewrite firstn_length; lia. Qed.
Lemma size_skipn b n : size (skipn (N.to_nat n) b) = size b - n.
Proof. unfold size; rewrite skipn_length; lia. Qed.

Lemma copy_at b src n d dst :
  src + n <= size b -> dst + n <= size d ->
  exists d', copy b src n d dst = Ret d' /\ size d' = size d /\
    forall q, at_ d' q = if (dst <=? q) && (q <? dst + n) then at_ b (q + src - dst) else at_ d q.
Proof.
  intros H1 H2; unfold copy.
  rewrite (proj2 (N.leb_le _ _) H1), (proj2 (N.leb_le _ _) H2); cbn [andb].
  eexists; split; [reflexivity|].
  assert (S1 : size (firstn (N.to_nat n) (skipn (N.to_nat src) b)) = n) by (apply size_firstn; rewrite size_skipn; lia).
  assert (S2 : size (firstn (N.to_nat dst) d) = dst) by (apply size_firstn; lia).
  split; [rewrite !size_app, S1, S2, size_skipn; lia|].
  intros q; rewrite !at_app, S1, S2.
  destruct (q <? dst) eqn:Q1.
  - replace (dst <=? q) with false by lia; cbn [andb]; apply at_firstn; lia.
  - replace (dst <=? q) with true by lia; cbn [andb].
    destruct (q <? dst + n) eqn:Q2.
    + replace (q - dst <? n) with true by lia; rewrite at_firstn by lia; rewrite at_skipn; f_equal; lia.
    + replace (q - dst <? n) with false by lia; rewrite at_skipn; f_equal; lia.
Qed.
Lemma move_at b src n dst :
  src + n <= size b -> dst + n <= size b ->
  exists b', move src n dst b = Ret b' /\ size b' = size b /\
    forall q, at_ b' q = if (dst <=? q) && (q <? dst + n) then at_ b (q + src - dst) else at_ b q.
Proof. exact (fun H1 H2 => copy_at b src n b dst H1 H2). Qed.

Lemma size_alloc n : size (alloc n : buf A) = n.
Proof. unfold size, alloc; rewrite repeat_length; lia. Qed.
Lemma at_alloc n i : at_ (alloc n : buf A) i = None.
Proof. unfold at_, alloc; rewrite nth_repeat; reflexivity. Qed.
Lemma size_filled (x : A) n : size (filled x n) = n.
Proof. unfold size, filled; rewrite repeat_length; lia. Qed.
Lemma at_filled (x : A) n i : i < n -> at_ (filled x n) i = Some x.
Proof.
  unfold at_, filled; intros H; assert (L : (N.to_nat i < N.to_nat n)%nat) by lia.
  revert L; generalize (N.to_nat n) (N.to_nat i); clear; intros n; induction n as [|n IH]; intros i L; [lia|].
  destruct i as [|i]; [reflexivity|]; cbn [repeat nth]; apply IH; lia.
Qed.

(** Two arrays with the same elements are the same. *)
Lemma at_ext b d : size b = size d -> (forall i, i < size b -> at_ b i = at_ d i) -> b = d.
Proof.
  unfold size, at_; intros L H; apply nth_ext with (d := None) (d' := None); [lia|].
  intros i Hi; specialize (H (N.of_nat i)); rewrite Nat2N.id in H; apply H; lia.
Qed.

(** The initialised elements. *)
Definition olist (o : option A) : list A := match o with Some x => [x] | None => [] end.
Definition filled_in b : list A := flat_map olist b.

Lemma filled_in_app b d : filled_in (b ++ d) = filled_in b ++ filled_in d.
Proof. apply flat_map_app. Qed.
Lemma split_at b i :
  i < size b -> exists x y, b = x ++ at_ b i :: y /\ List.length x = N.to_nat i /\ forall o, upd b i o = x ++ o :: y.
Proof.
  intros H; pose proof (at_nth b i H) as E; apply nth_error_split in E as (x & y & E & L).
  exists x, y; split; [exact E|split; [exact L|]].
  intros o; unfold upd; rewrite <- L; set (z := at_ b i) in *; clearbody z; subst b.
  rewrite firstn_app, Nat.sub_diag, firstn_O, app_nil_r, firstn_all2 by lia.
  rewrite skipn_app, skipn_all2 by lia; replace (S (List.length x) - List.length x)%nat with 1%nat by lia; reflexivity.
Qed.
Lemma filled_in_upd b i o : i < size b -> Permutation (olist o ++ filled_in b) (olist (at_ b i) ++ filled_in (upd b i o)).
Proof.
  intros H; destruct (split_at b i H) as (x & y & E & _ & U).
  rewrite (U o); rewrite E at 1; rewrite !filled_in_app; cbn [filled_in flat_map]; fold (filled_in y).
  rewrite !(Permutation_app_comm (filled_in x)), !app_assoc; apply Permutation_app_tail, Permutation_app_tail, Permutation_app_comm.
Qed.
Lemma filled_in_at b x : In x (filled_in b) <-> exists i, at_ b i = Some x.
Proof.
  unfold filled_in; rewrite in_flat_map; split.
  - intros (o & Hin & Ho); destruct o as [y|]; [|contradiction]; destruct Ho as [->|[]].
    apply In_nth with (d := None) in Hin as (n & Hn & En); exists (N.of_nat n); unfold at_; rewrite Nat2N.id; exact En.
  - intros (i & Hi); exists (Some x); split; [|now left].
    pose proof (at_some_in _ _ _ Hi) as L; unfold at_ in Hi; rewrite <- Hi; apply nth_In; unfold size in L; lia.
Qed.

End Facts.
