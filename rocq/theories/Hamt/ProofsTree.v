(** Trees: what each operation makes of the entries of a tree. *)
From Coq Require Import Permutation Lia.
From Verif.Base Require Import Base Buf.
From Verif.HashMap Require Import ProofsSpec.
From Verif.Hamt Require Import Model Spec ProofsBits.
Local Open Scope N_scope.
Local Open Scope list_scope.

Section Tree.
Context {K V : Type} (eqk : K -> K -> bool).
Hypothesis Refl : forall a, eqk a a = true.
Hypothesis Sym : forall a b, eqk a b = true -> eqk b a = true.
Hypothesis Trans : forall a b c, eqk a b = true -> eqk b c = true -> eqk a c = true.
Notation tree := (tree K V).
Notation pair := (N * K)%type.
Implicit Types (t c : tree) (k : K) (v : V) (h : N).

Definition eqp (a b : pair) : bool := (fst a =? fst b) && eqk (snd a) (snd b).
Lemma lawful_k : lawful eqk (fun _ => 0).
Proof. repeat split; auto. Qed.
Lemma lawful_p : lawful eqp (fun _ => 0).
Proof.
  unfold eqp; split; [|split; [|split; [|split; auto; reflexivity]]].
  - intros [h k]; cbn; now rewrite N.eqb_refl, Refl.
  - intros [h k] [h' k']; cbn; rewrite !Bool.andb_true_iff, !N.eqb_eq; intros [-> ?]; auto.
  - intros [h k] [h2 k2] [h3 k3]; cbn; rewrite !Bool.andb_true_iff, !N.eqb_eq; intros [-> ?] [-> ?]; eauto.
Qed.
Lemma eqk_swap k k' : eqk k k' = eqk k' k.
Proof. destruct (eqk k k') eqn:E, (eqk k' k) eqn:F; trivial; [apply Sym in E|apply Sym in F]; congruence. Qed.

(** ** Entries *)
Definition gmap h (l : list (K * V)) : list (pair * V) := map (fun e => ((h, fst e), snd e)) l.
Definition shift (i : nat) (e : pair * V) : pair * V := ((fst (fst e) * 32 + N.of_nat i, snd (fst e)), snd e).
Definition scontent (rec : tree -> list (pair * V)) (oe : option (N * K * V)) (oc : option tree) : list (pair * V) :=
  match oe, oc with
  | Some (h, k, v), None => gmap h [(k, v)]
  | Some (h, k, v), Some (Collision _ l) => gmap h ((k, v) :: l)
  | None, Some c => rec c
  | _, _ => []
  end.
Fixpoint content (n : nat) t : list (pair * V) :=
  match n, t with
  | S n, Tree em cm es cs => flat_map (fun i => map (shift i) (scontent (content n) (bget em es i) (bget cm cs i))) (seq 0 32)
  | _, _ => []
  end.
Definition swf (n : nat) (rec : tree -> Prop) (oe : option (N * K * V)) (oc : option tree) : Prop :=
  match oe, oc with
  | Some (h, _, _), None => h < 32 ^ N.of_nat n
  | Some (h, _, _), Some (Collision num l) => h < 32 ^ N.of_nat n /\ num = N.of_nat (List.length l) /\ l <> []
  | Some _, Some (Tree _ _ _ _) => False
  | None, Some c => rec c
  | None, None => True
  end.
(** A tree has two elements, or a child that is a tree. *)
Definition bigt t : Prop :=
  match t with
  | Tree em cm es cs => (2 <= List.length es)%nat \/ exists j c, (j < 32)%nat /\ bget em es j = None /\ bget cm cs j = Some c
  | Collision _ _ => False
  end.
Fixpoint wf (n : nat) t : Prop :=
  match n, t with
  | S n, Tree em cm es cs => bok em es /\ bok cm cs /\ forall i, (i < 32)%nat -> swf n (fun c => wf n c /\ bigt c) (bget em es i) (bget cm cs i)
  | _, _ => False
  end.

Lemma content_empty n : content n empty = [].
Proof. destruct n; [reflexivity|]; cbn [content empty]; induction (seq 0 32) as [|i l IH]; [reflexivity|exact IH]. Qed.
Lemma wf_empty n : wf (S n) empty.
Proof. split; [|split]; try apply bok_nil; intros i H; exact Logic.I. Qed.

(** ** Finite maps on hashes and keys *)
Lemma value_gmap h h' k l : value_of eqp (h, k) (gmap h' l) = if h =? h' then value_of eqk k l else None.
Proof.
  induction l as [|[k' v] l IH]; [destruct (h =? h'); reflexivity|].
  cbn [gmap map fst snd]; fold (gmap h' l); rewrite !value_of_cons, IH; unfold eqp; cbn [fst snd].
  destruct (h =? h'), (eqk k k'); reflexivity.
Qed.
Lemma put_gmap h k v l : put eqp (h, k) v (gmap h l) = gmap h (put eqk k v l).
Proof.
  induction l as [|[k' v'] l IH]; [reflexivity|].
  cbn [gmap map fst snd put]; fold (gmap h l); unfold eqp at 1; cbn [fst snd]; rewrite N.eqb_refl; cbn [andb].
  rewrite IH; destruct (eqk k k'); reflexivity.
Qed.
Lemma del_gmap h k l : del eqp (h, k) (gmap h l) = gmap h (del eqk k l).
Proof.
  induction l as [|[k' v'] l IH]; [reflexivity|].
  cbn [gmap map fst snd del filter]; fold (gmap h l); fold (del eqk k l); fold (del eqp (h, k) (gmap h l)).
  rewrite IH; unfold eqp; cbn [fst snd]; rewrite N.eqb_refl; destruct (eqk k k'); reflexivity.
Qed.
Lemma distinct_gmap h l : distinct eqp (gmap h l) -> distinct eqk l.
Proof.
  induction l as [|[k v] l IH]; [reflexivity|]; cbn [gmap map fst snd distinct]; fold (gmap h l).
  rewrite value_gmap, N.eqb_refl; intuition.
Qed.
Lemma eqp_shift i h k h' k' : eqp (h * 32 + N.of_nat i, k) (h' * 32 + N.of_nat i, k') = eqp (h, k) (h', k').
Proof.
  unfold eqp; cbn [fst snd]; f_equal.
  destruct (N.eqb_spec h h') as [->|D]; [apply N.eqb_refl|]; apply N.eqb_neq; lia.
Qed.
Lemma shift_cons i h k v l : map (shift i) (((h, k), v) :: l) = ((h * 32 + N.of_nat i, k), v) :: map (shift i) l.
Proof. reflexivity. Qed.
Lemma value_shift i h k l : value_of eqp (h * 32 + N.of_nat i, k) (map (shift i) l) = value_of eqp (h, k) l.
Proof.
  induction l as [|[[h' k'] v] l IH]; [reflexivity|].
  rewrite shift_cons, !value_of_cons, IH, eqp_shift; reflexivity.
Qed.
Lemma put_shift i h k v l : put eqp (h * 32 + N.of_nat i, k) v (map (shift i) l) = map (shift i) (put eqp (h, k) v l).
Proof.
  induction l as [|[[h' k'] v'] l IH]; [reflexivity|].
  rewrite shift_cons; cbn [put]; rewrite eqp_shift, IH; destruct (eqp (h, k) (h', k')); reflexivity.
Qed.
Lemma del_shift i h k l : del eqp (h * 32 + N.of_nat i, k) (map (shift i) l) = map (shift i) (del eqp (h, k) l).
Proof.
  induction l as [|[[h' k'] v'] l IH]; [reflexivity|].
  rewrite shift_cons; cbn [del filter fst]; fold (del eqp (h, k) l); fold (del eqp (h * 32 + N.of_nat i, k) (map (shift i) l)).
  rewrite eqp_shift, IH; destruct (eqp (h, k) (h', k')); reflexivity.
Qed.
Lemma distinct_shift i l : distinct eqp (map (shift i) l) -> distinct eqp l.
Proof.
  induction l as [|[[h k] v] l IH]; [reflexivity|]; rewrite shift_cons; cbn [distinct]; rewrite value_shift; intuition.
Qed.

Definition cnth (g : N) (l : list (pair * V)) : nat := List.length (filter (fun e => fst (fst e) =? g) l).
Lemma cnth_app g a b : cnth g (a ++ b) = (cnth g a + cnth g b)%nat.
Proof. unfold cnth; now rewrite filter_app, app_length. Qed.
Lemma cnth_gmap g h l : cnth g (gmap h l) = if h =? g then List.length l else O.
Proof.
  unfold cnth; induction l as [|e l IH]; [destruct (h =? g); reflexivity|]; cbn [gmap map filter fst]; fold (gmap h l).
  destruct (h =? g); cbn [List.length]; now rewrite IH.
Qed.
Lemma cnth_shift g i l : cnth (g * 32 + N.of_nat i) (map (shift i) l) = cnth g l.
Proof.
  unfold cnth; induction l as [|[[h k] v] l IH]; [reflexivity|]; rewrite shift_cons; cbn [filter fst].
  replace (h * 32 + N.of_nat i =? g * 32 + N.of_nat i) with (h =? g); [destruct (h =? g); cbn [List.length]; now rewrite IH|].
  destruct (N.eqb_spec h g) as [->|D]; [symmetry; apply N.eqb_refl|symmetry; apply N.eqb_neq; lia].
Qed.

Section Parts.
Context {P : Type} (eq : P -> P -> bool) (hash : P -> N) (L : lawful eq hash).
Implicit Types (a b d : list (P * V)).
Lemma value_of_app p a b : value_of eq p (a ++ b) = match value_of eq p a with Some v => Some v | None => value_of eq p b end.
Proof.
  induction a as [|[q v] a IH]; [reflexivity|]; cbn [app]; rewrite !value_of_cons; destruct (eq p q); auto.
Qed.
Lemma put_app_in p v a b w : value_of eq p a = Some w -> put eq p v (a ++ b) = put eq p v a ++ b.
Proof.
  induction a as [|[q u] a IH]; [discriminate|]; rewrite value_of_cons; cbn [app put].
  destruct (eq p q); [reflexivity|]; intros H; cbn [app]; now rewrite IH.
Qed.
Lemma put_app_out p v a b : value_of eq p a = None -> put eq p v (a ++ b) = a ++ put eq p v b.
Proof.
  induction a as [|[q u] a IH]; [reflexivity|]; rewrite value_of_cons; cbn [app put].
  destruct (eq p q); [discriminate|]; intros H; now rewrite IH.
Qed.
Lemma del_app p a b : del eq p (a ++ b) = del eq p a ++ del eq p b.
Proof. apply filter_app. Qed.
Lemma around_value p a b d : value_of eq p a = None -> value_of eq p d = None -> value_of eq p (a ++ b ++ d) = value_of eq p b.
Proof. intros Ha Hd; rewrite !value_of_app, Ha, Hd; destruct (value_of eq p b); reflexivity. Qed.
Lemma around_put p v a b b' d : value_of eq p a = None -> value_of eq p d = None -> Permutation b' (put eq p v b) ->
  Permutation (a ++ b' ++ d) (put eq p v (a ++ b ++ d)).
Proof.
  intros Ha Hd H; rewrite put_app_out by exact Ha; apply Permutation_app_head.
  destruct (value_of eq p b) eqn:E.
  - rewrite (put_app_in _ _ _ _ _ E); now apply Permutation_app_tail.
  - rewrite put_app_out, put_absent by assumption.
    rewrite put_absent in H by exact E; rewrite H, <- app_assoc; apply Permutation_app_head, Permutation_app_comm.
Qed.
Lemma around_del p a b b' d : value_of eq p a = None -> value_of eq p d = None -> Permutation b' (del eq p b) ->
  Permutation (a ++ b' ++ d) (del eq p (a ++ b ++ d)).
Proof.
  intros Ha Hd H; rewrite !del_app, (del_absent _ _ a), (del_absent _ _ d) by assumption.
  now apply Permutation_app_head, Permutation_app_tail.
Qed.
Lemma distinct_app_r a b : distinct eq (a ++ b) -> distinct eq b.
Proof. induction a as [|[q v] a IH]; [trivial|]; cbn [app distinct]; tauto. Qed.
Lemma distinct_around a b d : distinct eq (a ++ b ++ d) -> distinct eq b.
Proof. intros H; apply distinct_app_r in H; exact (distinct_app _ _ _ H). Qed.
End Parts.

(** ** One slot of a tree changed *)
Lemma same {A} (m : N) (l : list A) i j : bget m l j = if Nat.eqb j i then bget m l i else bget m l j.
Proof. destruct (Nat.eqb_spec j i) as [->|]; reflexivity. Qed.
Lemma seq_split i : (i < 32)%nat -> seq 0 32 = seq 0 i ++ i :: seq (S i) (31 - i).
Proof. intros H; replace 32%nat with (i + (1 + (31 - i)))%nat at 1 by lia; rewrite seq_app; reflexivity. Qed.
Lemma flat_map_ext_in {A B} (f g : A -> list B) l : (forall x, In x l -> f x = g x) -> flat_map f l = flat_map g l.
Proof.
  induction l as [|x l IH]; intros H; [reflexivity|]; cbn [flat_map]; rewrite H, IH by (intros; try apply H; cbn; auto); reflexivity.
Qed.
Lemma outside (f : nat -> list (pair * V)) i h k l : N.to_nat (h mod 32) = i -> ~ In i l -> (forall j, In j l -> (j < 32)%nat) ->
  value_of eqp (h, k) (flat_map (fun j => map (shift j) (f j)) l) = None.
Proof.
  intros Hi Hn Hl; apply value_of_none; intros e I; apply in_flat_map in I as (j & J & I).
  apply in_map_iff in I as ([[h' k'] v] & <- & I); unfold eqp, shift; cbn [fst snd].
  replace (h =? h' * 32 + N.of_nat j) with false; [reflexivity|symmetry; apply N.eqb_neq].
  intros ->; apply Hn; rewrite <- Hi; specialize (Hl j J).
  rewrite N.add_comm, N.mod_add, N.mod_small, Nat2N.id by lia; exact J.
Qed.

Lemma set_ok n em cm es cs em' cm' es' cs' i oe oc :
  wf (S n) (Tree em cm es cs) -> (i < 32)%nat -> bok em' es' -> bok cm' cs' ->
  (forall j, (j < 32)%nat -> bget em' es' j = if Nat.eqb j i then oe else bget em es j) ->
  (forall j, (j < 32)%nat -> bget cm' cs' j = if Nat.eqb j i then oc else bget cm cs j) ->
  swf n (fun c => wf n c /\ bigt c) oe oc ->
  let s := scontent (content n) (bget em es i) (bget cm cs i) in
  let s' := scontent (content n) oe oc in
  let l := content (S n) (Tree em cm es cs) in
  let l' := content (S n) (Tree em' cm' es' cs') in
  wf (S n) (Tree em' cm' es' cs') /\
  forall h k, N.to_nat (h mod 32) = i ->
    (forall v, Permutation s' (put eqp (h / 32, k) v s) -> Permutation l' (put eqp (h, k) v l)) /\
    (Permutation s' (del eqp (h / 32, k) s) -> Permutation l' (del eqp (h, k) l)).
Proof.
  intros (Be & Bc & W) Hi Be' Bc' He Hc Hs s s' l l'; split.
  - split; [exact Be'|]; split; [exact Bc'|]; intros j Hj; rewrite He, Hc by exact Hj.
    destruct (Nat.eqb_spec j i); [exact Hs|apply W, Hj].
  - intros h k Hh.
    assert (Eh : h = h / 32 * 32 + N.of_nat i) by (rewrite <- Hh, N2Nat.id, N.mul_comm; apply N.div_mod; lia).
    set (f := fun j => map (shift j) (scontent (content n) (bget em es j) (bget cm cs j))).
    assert (E : l = flat_map f (seq 0 i) ++ map (shift i) s ++ flat_map f (seq (S i) (31 - i))).
    { unfold l; cbn [content]; fold f; rewrite (seq_split i Hi), flat_map_app; reflexivity. }
    assert (E' : l' = flat_map f (seq 0 i) ++ map (shift i) s' ++ flat_map f (seq (S i) (31 - i))).
    { unfold l'; cbn [content]; rewrite (seq_split i Hi), flat_map_app; cbn [flat_map]; f_equal; [|f_equal].
      - apply flat_map_ext_in; intros j J; apply in_seq in J; unfold f; rewrite He, Hc, (proj2 (Nat.eqb_neq j i)) by lia; reflexivity.
      - rewrite He, Hc, Nat.eqb_refl by exact Hi; reflexivity.
      - apply flat_map_ext_in; intros j J; apply in_seq in J; unfold f; rewrite He, Hc, (proj2 (Nat.eqb_neq j i)) by lia; reflexivity. }
    assert (Ha : value_of eqp (h, k) (flat_map f (seq 0 i)) = None).
    { apply (outside _ i); [exact Hh|rewrite in_seq; lia|intros j J; apply in_seq in J; lia]. }
    assert (Hd : value_of eqp (h, k) (flat_map f (seq (S i) (31 - i))) = None).
    { apply (outside _ i); [exact Hh|rewrite in_seq; lia|intros j J; apply in_seq in J; lia]. }
    rewrite E, E'; split; [intros v P; apply around_put|intros P; apply around_del]; trivial; rewrite Eh at 1.
    + rewrite put_shift; now apply Permutation_map.
    + rewrite del_shift; now apply Permutation_map.
Qed.
Lemma big_set em cm es cs em' cm' es' cs' i oe oc :
  bok em es -> (i < 32)%nat -> bok em' es' ->
  (forall j, (j < 32)%nat -> bget em' es' j = if Nat.eqb j i then oe else bget em es j) ->
  (forall j, (j < 32)%nat -> bget cm' cs' j = if Nat.eqb j i then oc else bget cm cs j) ->
  match oe, oc with Some _, _ => bget em es i <> None \/ bget cm cs i = None | None, Some _ => True | None, None => False end ->
  bigt (Tree em cm es cs) -> bigt (Tree em' cm' es' cs').
Proof.
  intros Be Hi Be' He Hc Ho [Two|(j & c & Hj & Ge & Gc)].
  - destruct oe as [e|]; [|destruct oc as [c|]; [|contradiction]].
    + left; destruct (two_indices _ _ Be Two) as (a & b & x & y & Ha & Hb & D & Ga & Gb).
      destruct (Nat.eq_dec a i) as [->|Da].
      * apply (two_buckets em' es' i b e y); trivial; rewrite He by assumption; [rewrite Nat.eqb_refl; reflexivity|].
        rewrite (proj2 (Nat.eqb_neq b i)) by auto; exact Gb.
      * destruct (Nat.eq_dec b i) as [->|Db].
        -- apply (two_buckets em' es' a i x e); trivial; rewrite He by assumption; [|rewrite Nat.eqb_refl; reflexivity].
           rewrite (proj2 (Nat.eqb_neq a i)) by auto; exact Ga.
        -- apply (two_buckets em' es' a b x y); trivial; rewrite He by assumption; [rewrite (proj2 (Nat.eqb_neq a i)) by auto; exact Ga|].
           rewrite (proj2 (Nat.eqb_neq b i)) by auto; exact Gb.
    + right; exists i, c; rewrite He, Hc, Nat.eqb_refl by exact Hi; auto.
  - right; destruct (Nat.eq_dec j i) as [->|D].
    + destruct oe as [e|]; [destruct Ho; congruence|]; destruct oc as [c'|]; [|contradiction].
      exists i, c'; rewrite He, Hc, Nat.eqb_refl by exact Hi; auto.
    + exists j, c; rewrite He, Hc, (proj2 (Nat.eqb_neq j i)) by auto; auto.
Qed.
(** An entry with another hash is in another slot. *)
Lemma other_slot n em cm es cs h e : In e (content (S n) (Tree em cm es cs)) -> fst (fst e) <> h ->
  let i := N.to_nat (h mod 32) in
  (exists j, (j < 32)%nat /\ j <> i /\ scontent (content n) (bget em es j) (bget cm cs j) <> []) \/
  (exists e', In e' (scontent (content n) (bget em es i) (bget cm cs i)) /\ fst (fst e') <> h / 32).
Proof.
  intros I D i; cbn [content] in I; apply in_flat_map in I as (j & J & I); apply in_seq in J.
  apply in_map_iff in I as (e' & <- & I); destruct (Nat.eq_dec j i) as [->|Dj].
  - right; exists e'; split; [exact I|]; intros E; apply D; cbn [shift fst]; rewrite E; unfold i; rewrite N2Nat.id, N.mul_comm.
    symmetry; apply N.div_mod; lia.
  - left; exists j; split; [lia|]; split; [exact Dj|]; intros E; rewrite E in I; contradiction I.
Qed.
Lemma big_other n em cm es cs em' cm' es' cs' i oe oc j :
  bok em es -> (i < 32)%nat -> bok em' es' ->
  (forall j, (j < 32)%nat -> bget em' es' j = if Nat.eqb j i then oe else bget em es j) ->
  (forall j, (j < 32)%nat -> bget cm' cs' j = if Nat.eqb j i then oc else bget cm cs j) ->
  oe <> None -> (j < 32)%nat -> j <> i -> scontent (content n) (bget em es j) (bget cm cs j) <> [] ->
  bigt (Tree em' cm' es' cs').
Proof.
  intros Be Hi Be' He Hc Ho Hj D Hs; destruct oe as [e|]; [|congruence].
  destruct (bget em es j) as [x|] eqn:Gj.
  - left; apply (two_buckets em' es' i j e x); auto; rewrite He by assumption; [rewrite Nat.eqb_refl; reflexivity|].
    rewrite (proj2 (Nat.eqb_neq j i)) by auto; exact Gj.
  - right; destruct (bget cm cs j) as [c|] eqn:Gc; [|contradiction Hs; reflexivity].
    exists j, c; rewrite He, Hc, (proj2 (Nat.eqb_neq j i)) by auto; auto.
Qed.
Lemma big_insert n em cm es cs em' cm' es' cs' h oe oc :
  bok em es -> bok em' es' -> let i := N.to_nat (h mod 32) in
  (forall j, (j < 32)%nat -> bget em' es' j = if Nat.eqb j i then oe else bget em es j) ->
  (forall j, (j < 32)%nat -> bget cm' cs' j = if Nat.eqb j i then oc else bget cm cs j) ->
  match oe, oc with
  | Some _, _ => (bget em es i <> None \/ bget cm cs i = None) /\ (forall e, In e (scontent (content n) (bget em es i) (bget cm cs i)) -> fst (fst e) = h / 32)
  | None, Some _ => True
  | None, None => False
  end ->
  bigt (Tree em cm es cs) \/ (exists e, In e (content (S n) (Tree em cm es cs)) /\ fst (fst e) <> h) -> bigt (Tree em' cm' es' cs').
Proof.
  intros Be Be' i He Hc Ho H; assert (Hi : (i < 32)%nat) by (unfold i; pose proof (N.mod_lt h 32); lia).
  destruct oe as [e|]; [|destruct oc as [c|]; [|contradiction]; right; exists i, c; rewrite He, Hc, Nat.eqb_refl by exact Hi; auto].
  destruct Ho as [Ho Hg]; destruct H as [B|(x & I & D)].
  - apply (big_set em cm es cs em' cm' es' cs' i (Some e) oc); trivial.
  - destruct (other_slot _ _ _ _ _ _ _ I D) as [(j & Hj & Dj & N)|(e' & I' & D')].
    + apply (big_other n em cm es cs em' cm' es' cs' i (Some e) oc j); trivial; discriminate.
    + contradiction D'; apply Hg, I'.
Qed.
Lemma gmap_hash h l e : In e (gmap h l) -> fst (fst e) = h.
Proof. intros I; apply in_map_iff in I as (? & <- & _); reflexivity. Qed.
Lemma slot_of n em cm es cs i : (i < 32)%nat ->
  let s := scontent (content n) (bget em es i) (bget cm cs i) in
  let l := content (S n) (Tree em cm es cs) in
  (forall h k, N.to_nat (h mod 32) = i -> value_of eqp (h, k) l = value_of eqp (h / 32, k) s) /\
  (distinct eqp l -> distinct eqp s) /\ (forall g, cnth g s <= cnth (g * 32 + N.of_nat i) l)%nat.
Proof.
  intros Hi s l.
  set (f := fun j => map (shift j) (scontent (content n) (bget em es j) (bget cm cs j))).
  assert (E : l = flat_map f (seq 0 i) ++ map (shift i) s ++ flat_map f (seq (S i) (31 - i))).
  { unfold l; cbn [content]; fold f; rewrite (seq_split i Hi), flat_map_app; reflexivity. }
  rewrite E; split; [|split].
  - intros h k Hh.
    assert (Eh : h = h / 32 * 32 + N.of_nat i) by (rewrite <- Hh, N2Nat.id, N.mul_comm; apply N.div_mod; lia).
    rewrite around_value; [rewrite Eh at 1; apply value_shift| |].
    + apply (outside _ i); [exact Hh|rewrite in_seq; lia|intros j J; apply in_seq in J; lia].
    + apply (outside _ i); [exact Hh|rewrite in_seq; lia|intros j J; apply in_seq in J; lia].
  - intros D; apply (distinct_around eqp), distinct_shift in D; exact D.
  - intros g; rewrite !cnth_app, cnth_shift; lia.
Qed.

Lemma find_spec key (l : list (K * V)) i :
  match find_from eqk i key l with
  | None => value_of eqk key l = None
  | Some (j, k, v) => exists x y, l = x ++ (k, v) :: y /\ j = (i + List.length x)%nat /\ eqk k key = true /\ value_of eqk key x = None /\ value_of eqk key l = Some v
  end.
Proof.
  revert i; induction l as [|[k v] l IH]; intros i; [reflexivity|]; cbn [find_from].
  destruct (eqk k key) eqn:E.
  - exists [], l; split; [reflexivity|]; split; [cbn [List.length]; lia|]; split; [exact E|]; split; [reflexivity|].
    rewrite value_of_cons, eqk_swap, E; reflexivity.
  - specialize (IH (S i)); destruct (find_from eqk (S i) key l) as [[[j k'] v']|].
    + destruct IH as (x & y & -> & -> & Ek & Hx & Hl); exists ((k, v) :: x), y; split; [reflexivity|]; split; [cbn [List.length]; lia|]; split; [exact Ek|]; split.
      * rewrite value_of_cons, eqk_swap, E; exact Hx.
      * cbn [app]; rewrite value_of_cons, eqk_swap, E; exact Hl.
    + rewrite value_of_cons, eqk_swap, E; exact IH.
Qed.

Lemma search_ok n em cm es cs i : wf (S n) (Tree em cm es cs) -> (i < 32)%nat ->
  search (bit i) (Tree em cm es cs) =
  Ret (match bget em es i, bget cm cs i with Some e, _ => Some (FoundElem e) | None, Some c => Some (FoundChild c) | None, None => None end).
Proof.
  intros (Be & Bc & W) Hi; unfold search; rewrite (exists_bget _ _ _ Be Hi), (exists_bget _ _ _ Bc Hi).
  destruct (bget em es i) eqn:Ge; [rewrite (get_bget _ _ _ _ Hi Ge); reflexivity|].
  destruct (bget cm cs i) eqn:Gc; [rewrite (get_bget _ _ _ _ Hi Gc)|]; reflexivity.
Qed.
Lemma collision_ok n em cm es cs i e : wf (S n) (Tree em cm es cs) -> (i < 32)%nat -> bget em es i = Some e ->
  collision_elems (bit i) cm cs = Ret (match bget cm cs i with Some (Collision _ l) => Some l | _ => None end).
Proof.
  intros (Be & Bc & W) Hi Ge; unfold collision_elems; rewrite (exists_bget _ _ _ Bc Hi); specialize (W i Hi).
  rewrite Ge in W; destruct e as [[h k] v]; destruct (bget cm cs i) as [[|num l]|] eqn:Gc; cbn [swf] in W; [contradiction| |reflexivity].
  rewrite (get_bget _ _ _ _ Hi Gc); cbn [bind as_collision]; destruct W as (_ & -> & _).
  rewrite N.leb_refl, Nat2N.id, firstn_all; reflexivity.
Qed.

Lemma pow_div n h : h < 32 ^ N.of_nat (S n) -> h / 32 < 32 ^ N.of_nat n.
Proof. rewrite Nat2N.inj_succ, N.pow_succ_r'; intros H; apply N.div_lt_upper_bound; lia. Qed.
Lemma from_collision_ok l : N.of_nat (List.length l) < w32 -> @from_collision K V l = Collision (N.of_nat (List.length l)) l.
Proof. intros H; unfold from_collision; now rewrite N.mod_small. Qed.
Lemma array_update_mid {A} (x y : list A) e e' : array_update (List.length x) e' (x ++ e :: y) = Ret (x ++ e' :: y).
Proof.
  unfold array_update; rewrite app_length; cbn [List.length]; rewrite (proj2 (Nat.ltb_lt _ _)) by lia.
  rewrite firstn_app, firstn_all, Nat.sub_diag, firstn_O, app_nil_r; f_equal; f_equal; f_equal.
  change (x ++ e :: y) with (x ++ [e] ++ y); rewrite app_assoc, skipn_app, skipn_all2 by (rewrite app_length; cbn; lia).
  rewrite app_length; cbn [List.length]; replace (S (List.length x) - (List.length x + 1))%nat with O by lia; reflexivity.
Qed.
Lemma array_remove_mid {A} (x y : list A) e : array_remove (List.length x) (x ++ e :: y) = Ret (x ++ y).
Proof.
  unfold array_remove; rewrite app_length; cbn [List.length]; rewrite (proj2 (Nat.ltb_lt _ _)) by lia.
  rewrite firstn_app, firstn_all, Nat.sub_diag, firstn_O, app_nil_r; f_equal; f_equal.
  change (x ++ e :: y) with (x ++ [e] ++ y); rewrite app_assoc, skipn_app, skipn_all2 by (rewrite app_length; cbn; lia).
  rewrite app_length; cbn [List.length]; replace (S (List.length x) - (List.length x + 1))%nat with O by lia; reflexivity.
Qed.

(** A new child has the elements it is made of. *)
Definition coll (c : option tree) : option (list (K * V)) := match c with Some (Collision _ l) => Some l | _ => None end.
Lemma flat_one (f : nat -> list (pair * V)) i : (i < 32)%nat -> (forall j, (j < 32)%nat -> j <> i -> f j = []) -> flat_map f (seq 0 32) = f i.
Proof.
  intros Hi H; rewrite (seq_split i Hi), flat_map_app; cbn [flat_map].
  assert (N : forall l, (forall j, In j l -> (j < 32)%nat /\ j <> i) -> flat_map f l = []).
  { induction l as [|j l IH]; intros Hl; [reflexivity|]; cbn [flat_map]; rewrite H, IH by (try (intros; apply Hl); cbn; auto); reflexivity. }
  rewrite !N, app_nil_r; [reflexivity| |]; intros j J; apply in_seq in J; lia.
Qed.
Lemma new_child_ok n h k v (c : option tree) : h < 32 ^ N.of_nat (S n) -> swf (S n) (fun _ => False) (Some (h, k, v)) c ->
  N.of_nat (cnth h (scontent (fun _ => []) (Some (h, k, v)) c)) <= w32 ->
  let t := new_child h k v (coll c) in
  wf (S n) t /\ content (S n) t = scontent (fun _ => []) (Some (h, k, v)) c.
Proof.
  intros Hh Hs Hl t; unfold t, new_child; rewrite consume_ok; set (i := N.to_nat (h mod 32)).
  assert (Hi : (i < 32)%nat) by (unfold i; pose proof (N.mod_lt h 32); lia).
  assert (Eh : h = h / 32 * 32 + N.of_nat i) by (unfold i; rewrite N2Nat.id, N.mul_comm; apply N.div_mod; lia).
  pose proof (pow_div _ _ Hh) as Hd.
  assert (Es : forall l, map (shift i) (gmap (h / 32) l) = gmap h l).
  { intros l; unfold gmap; rewrite map_map; apply map_ext; intros e; unfold shift; cbn [fst snd]; now rewrite <- Eh. }
  destruct c as [[|num l]|]; cbn [coll].
  - contradiction Hs.
  - cbn [swf] in Hs; destruct Hs as (_ & -> & Hn).
    cbn [scontent] in Hl; rewrite cnth_gmap, N.eqb_refl in Hl; cbn [List.length] in Hl.
    rewrite from_collision_ok by lia.
    split.
    + split; [now apply bok_one|]; split; [now apply bok_one|]; intros j Hj; rewrite !bget_one by exact Hj.
      destruct (Nat.eqb_spec j i); [|exact Logic.I]; cbn [swf]; auto.
    + cbn [content]; rewrite (flat_one _ i Hi); rewrite ?bget_one, ?Nat.eqb_refl by exact Hi; [apply Es|].
      intros j Hj D; rewrite !bget_one, (proj2 (Nat.eqb_neq j i)) by (trivial; lia); reflexivity.
  - split.
    + split; [now apply bok_one|]; split; [apply bok_nil|]; intros j Hj; rewrite bget_one, bget_nil by exact Hj.
      destruct (Nat.eqb_spec j i); [exact Hd|exact Logic.I].
    + cbn [content]; rewrite (flat_one _ i Hi); rewrite ?bget_one, ?Nat.eqb_refl by exact Hi; [apply Es|].
      intros j Hj D; rewrite bget_one, bget_nil, (proj2 (Nat.eqb_neq j i)) by (trivial; lia); reflexivity.
Qed.

(** ** Getting *)
Lemma get_ok n : forall t h k fuel, (n <= fuel)%nat -> wf n t -> get eqk fuel h k t = Ret (value_of eqp (h, k) (content n t)).
Proof.
  induction n as [|n IH]; [intros t h k fuel _ []|]; intros [em cm es cs|] h k [|fuel] Hf W; try lia; [|contradiction W].
  cbn [get]; rewrite consume_ok; set (i := N.to_nat (h mod 32)).
  assert (Hi : (i < 32)%nat) by (unfold i; pose proof (N.mod_lt h 32); lia).
  destruct (slot_of n em cm es cs i Hi) as (Ev & _ & _); rewrite (Ev h k eq_refl).
  rewrite (search_ok n _ _ _ _ _ W Hi); cbn [bind].
  pose proof W as (_ & _ & W'); specialize (W' i Hi).
  destruct (bget em es i) as [[[eh ek] ev]|] eqn:Ge.
  - rewrite (collision_ok n _ _ _ _ _ _ W Hi Ge); cbn [bind].
    set (l := match bget cm cs i with Some (Collision _ l) => (ek, ev) :: l | _ => [(ek, ev)] end).
    replace (scontent _ _ _) with (gmap eh l) by (unfold l; destruct (bget cm cs i) as [[|]|]; [contradiction W'| |]; reflexivity).
    rewrite value_gmap, N.eqb_sym; destruct (h / 32 =? eh); cbn [negb]; [|reflexivity].
    unfold l; destruct (bget cm cs i) as [[|num l']|]; [contradiction W'| |]; rewrite value_of_cons, eqk_swap; destruct (eqk k ek); try reflexivity.
    pose proof (find_spec k l' 0) as F; destruct (find_from eqk 0 k l') as [[[j k'] v']|]; [|now rewrite F].
    destruct F as (x & y & _ & _ & _ & _ & ->); reflexivity.
  - destruct (bget cm cs i) as [c|] eqn:Gc; cbn [scontent]; [|reflexivity].
    apply IH; [lia|exact (proj1 W')].
Qed.

(** ** Inserting *)
Lemma insert_ok n : forall t h k v fuel, (n <= fuel)%nat -> wf n t -> h < 32 ^ N.of_nat n -> (forall g, N.of_nat (cnth g (content n t)) <= w32) ->
  (value_of eqp (h, k) (content n t) = None -> N.of_nat (cnth h (content n t)) < w32) ->
  exists t', insert eqk fuel h k v t = Ret (value_of eqp (h, k) (content n t), t') /\ wf n t' /\
    Permutation (content n t') (put eqp (h, k) v (content n t)) /\
    (bigt t \/ (exists e, In e (content n t) /\ fst (fst e) <> h) -> bigt t').
Proof.
  induction n as [|n IH]; [intros t h k v fuel _ []|]; intros [em cm es cs|] h k v [|fuel] Hf W Hh Hlen Hfit; try lia; [|contradiction W].
  cbn [insert]; rewrite consume_ok; set (i := N.to_nat (h mod 32)).
  assert (Hi : (i < 32)%nat) by (unfold i; pose proof (N.mod_lt h 32); lia).
  destruct (slot_of n em cm es cs i Hi) as (Ev & _ & Hs); rewrite (Ev h k eq_refl).
  pose proof (pow_div _ _ Hh) as Hd; set (h' := h / 32) in *.
  assert (Hs1 : forall g, N.of_nat (cnth g (scontent (content n) (bget em es i) (bget cm cs i))) <= w32).
  { intros g; specialize (Hs g); specialize (Hlen (g * 32 + N.of_nat i)); lia. }
  assert (Hs2 : value_of eqp (h', k) (scontent (content n) (bget em es i) (bget cm cs i)) = None -> N.of_nat (cnth h' (scontent (content n) (bget em es i) (bget cm cs i))) < w32).
  { intros E; rewrite (Ev h k eq_refl) in Hfit; specialize (Hfit E); specialize (Hs h').
    replace (h' * 32 + N.of_nat i) with h in Hs by (unfold h', i; rewrite N2Nat.id, N.mul_comm; apply N.div_mod; lia); lia. }
  clear Hs Hlen Hfit.
  rewrite (search_ok n _ _ _ _ _ W Hi); cbn [bind].
  pose proof W as (Be & Bc & W'); specialize (W' i Hi).
  pose proof (fun j (_ : (j < 32)%nat) => same em es i j) as Se; pose proof (fun j (_ : (j < 32)%nat) => same cm cs i j) as Sc.
  destruct (bget em es i) as [[[eh ek] ev]|] eqn:Ge.
  - rewrite (collision_ok n _ _ _ _ _ _ W Hi Ge); cbn [bind].
    destruct (N.eqb_spec eh h') as [->|De].
    + destruct (eqk ek k) eqn:Ek.
      * destruct (update_ok em es i (h', ek, v) _ Be Hi Ge) as (es' & -> & Be' & He); cbn [bind].
        edestruct (set_ok n em cm es cs em cm es' cs i (Some (h', ek, v)) (bget cm cs i) W Hi Be' Bc He Sc) as (Wn & Q).
        { destruct (bget cm cs i) as [[|]|]; [contradiction W'| |]; exact W'. }
        destruct (Q h k eq_refl) as [Q' _]; eexists; split; [|split; [exact Wn|split; [apply Q'|]]].
        -- do 2 f_equal; destruct (bget cm cs i) as [[|]|]; [contradiction W'| |]; cbn [scontent]; rewrite value_gmap, N.eqb_refl, value_of_cons, eqk_swap, Ek; reflexivity.
        -- rewrite Ge; fold h'; destruct (bget cm cs i) as [[|]|]; [contradiction W'| |]; cbn [scontent]; rewrite put_gmap; cbn [put]; rewrite eqk_swap, Ek; reflexivity.
        -- apply (big_insert n _ _ _ _ _ _ _ _ h _ _ Be Be' He Sc); fold i; rewrite Ge; split; [left; discriminate|]; intros e I.
           destruct (bget cm cs i) as [[|]|]; [contradiction W'| |]; cbn [scontent] in I; apply gmap_hash in I; exact I.
      * destruct (bget cm cs i) as [[|num l]|] eqn:Gc; [contradiction W'| |].
        -- cbn [swf] in W'; destruct W' as (Hb & -> & Hn).
           cbn [scontent] in Hs1, Hs2; specialize (Hs1 h'); rewrite value_gmap, value_of_cons, eqk_swap, Ek in Hs2; rewrite cnth_gmap, N.eqb_refl in Hs1, Hs2; cbn [List.length] in Hs1, Hs2.
           pose proof (find_spec k l 0) as F; destruct (find_from eqk 0 k l) as [[[j k'] v']|].
           ++ destruct F as (x & y & El & -> & Ek' & Hx & Vl); cbn [Nat.add]; rewrite El, array_update_mid; cbn [bind].
              rewrite from_collision_ok by (rewrite El in Hs1; rewrite !app_length in *; cbn [List.length] in *; lia).
              set (l' := x ++ (k', v) :: y) in *.
              destruct (update_ok cm cs i (Collision (N.of_nat (List.length l')) l') _ Bc Hi Gc) as (cs' & -> & Bc' & Hc); cbn [bind].
              edestruct (set_ok n em cm es cs em cm es cs' i (bget em es i) (Some (Collision (N.of_nat (List.length l')) l')) W Hi Be Bc' (fun j _ => same em es i j) Hc) as (Wn & Q).
              { rewrite Ge; cbn [swf]; repeat split; trivial; unfold l'; destruct x; discriminate. }
              destruct (Q h k eq_refl) as [Q' _]; eexists; split; [|split; [exact Wn|split; [apply Q'|]]].
              ** do 2 f_equal; cbn [scontent]; rewrite value_gmap, N.eqb_refl, value_of_cons, eqk_swap, Ek, <- El, Vl; reflexivity.
              ** rewrite Ge, Gc; fold h'; cbn [scontent]; rewrite put_gmap; cbn [put]; rewrite eqk_swap, Ek, El.
                 rewrite put_mid by (trivial; rewrite eqk_swap; exact Ek'); reflexivity.
              ** apply (big_insert n _ _ _ _ _ _ _ _ h _ _ Be Be (fun j _ => same em es i j) Hc); fold i; rewrite Ge, Gc; split; [left; discriminate|]; intros e I; cbn [scontent] in I; apply gmap_hash in I; exact I.
           ++ rewrite from_collision_ok by (specialize (Hs2 F); rewrite !app_length in *; cbn [List.length] in *; lia).
              set (l' := l ++ [(k, v)]) in *.
              destruct (update_ok cm cs i (Collision (N.of_nat (List.length l')) l') _ Bc Hi Gc) as (cs' & -> & Bc' & Hc); cbn [bind].
              edestruct (set_ok n em cm es cs em cm es cs' i (bget em es i) (Some (Collision (N.of_nat (List.length l')) l')) W Hi Be Bc' (fun j _ => same em es i j) Hc) as (Wn & Q).
              { rewrite Ge; cbn [swf]; repeat split; trivial; unfold l'; destruct l; discriminate. }
              destruct (Q h k eq_refl) as [Q' _]; eexists; split; [|split; [exact Wn|split; [apply Q'|]]].
              ** do 2 f_equal; cbn [scontent]; rewrite value_gmap, N.eqb_refl, value_of_cons, eqk_swap, Ek, F; reflexivity.
              ** rewrite Ge, Gc; fold h'; cbn [scontent]; rewrite put_gmap; cbn [put]; rewrite eqk_swap, Ek, put_absent by exact F; reflexivity.
              ** apply (big_insert n _ _ _ _ _ _ _ _ h _ _ Be Be (fun j _ => same em es i j) Hc); fold i; rewrite Ge, Gc; split; [left; discriminate|]; intros e I; cbn [scontent] in I; apply gmap_hash in I; exact I.
        -- rewrite from_collision_ok by reflexivity; cbn [List.length].
           set (c' := Collision (N.of_nat 1) [(k, v)]) in *.
           destruct (add_ok cm cs i c' Bc Hi Gc) as (cm' & cs' & -> & Bc' & Hc); cbn [bind].
           edestruct (set_ok n em cm es cs em cm' es cs' i (bget em es i) (Some c') W Hi Be Bc' (fun j _ => same em es i j) Hc) as (Wn & Q).
           { rewrite Ge; cbn [swf c']; repeat split; trivial; discriminate. }
           destruct (Q h k eq_refl) as [Q' _]; eexists; split; [|split; [exact Wn|split; [apply Q'|]]].
           ** do 2 f_equal; cbn [scontent]; rewrite value_gmap, N.eqb_refl, value_of_cons, eqk_swap, Ek; reflexivity.
           ** rewrite Ge, Gc; fold h'; cbn [scontent c']; rewrite put_gmap; cbn [put]; rewrite eqk_swap, Ek; reflexivity.
           ** apply (big_insert n _ _ _ _ _ _ _ _ h _ _ Be Be (fun j _ => same em es i j) Hc); fold i; rewrite Ge, Gc; split; [left; discriminate|]; intros e I; cbn [scontent] in I; apply gmap_hash in I; exact I.
    + assert (Hn : exists n', n = S n').
      { destruct n as [|n']; [|eauto]; destruct De; cbn in Hd; clear - W' Hd.
        destruct (bget cm cs i) as [[|]|]; [contradiction W'| |]; cbn in W'; lia. }
      destruct Hn as [n' ->].
      assert (Hb : eh < 32 ^ N.of_nat (S n')) by (destruct (bget cm cs i) as [[|]|]; [contradiction W'|destruct W'; assumption|exact W']).
      assert (Ecm : scontent (content (S n')) (Some (eh, ek, ev)) (bget cm cs i) = scontent (fun _ => []) (Some (eh, ek, ev)) (bget cm cs i)) by reflexivity.
      destruct (new_child_ok n' eh ek ev (bget cm cs i) Hb) as [Wc Cc].
      { destruct (bget cm cs i) as [[|]|]; exact W'. }
      { rewrite <- Ecm; apply Hs1. }
      replace (match bget cm cs i with Some (Collision _ l) => Some l | _ => None end) with (coll (bget cm cs i)) by reflexivity.
      destruct (IH (new_child eh ek ev (coll (bget cm cs i))) h' k v fuel ltac:(lia) Wc Hd) as (c' & -> & Wc' & Pc' & Gc').
      { rewrite Cc, <- Ecm; exact Hs1. }
      { intros _; rewrite Cc; destruct (bget cm cs i) as [[|]|]; [contradiction W'| |]; cbn [scontent]; rewrite cnth_gmap, (proj2 (N.eqb_neq eh h')) by auto; reflexivity. }
      cbn [bind]; destruct (remove_ok em es i _ Be Hi Ge) as (em' & es' & -> & Be' & He); cbn [bind].
      assert (X : exists cm' cs', match coll (bget cm cs i) with None => buckets_add cm (bit i) c' cs | Some _ => let* children := buckets_update cm (bit i) c' cs in Ret (cm, children) end = Ret (cm', cs') /\ bok cm' cs' /\ forall j, (j < 32)%nat -> bget cm' cs' j = if Nat.eqb j i then Some c' else bget cm cs j).
      { destruct (bget cm cs i) as [[|num l]|] eqn:Gc; [contradiction W'| |]; cbn [coll].
        - destruct (update_ok cm cs i c' _ Bc Hi Gc) as (cs' & -> & Bc' & Hc); cbn [bind]; eauto.
        - destruct (add_ok cm cs i c' Bc Hi Gc) as (cm' & cs' & -> & Bc' & Hc); eauto 6. }
      destruct X as (cm' & cs' & -> & Bc' & Hc); cbn [bind].
      assert (Big : bigt c').
      { apply Gc'; right; exists ((eh, ek), ev); rewrite Cc; split; [|exact De].
        destruct (bget cm cs i) as [[|]|]; [contradiction W'| |]; left; reflexivity. }
      destruct (set_ok (S n') em cm es cs em' cm' es' cs' i None (Some c') W Hi Be' Bc' He Hc (conj Wc' Big)) as (Wn & Q).
      assert (Vn : value_of eqp (h', k) (scontent (content (S n')) (Some (eh, ek, ev)) (bget cm cs i)) = None).
      { destruct (bget cm cs i) as [[|]|]; [contradiction W'| |]; cbn [scontent]; rewrite value_gmap, (proj2 (N.eqb_neq h' eh)) by auto; reflexivity. }
      destruct (Q h k eq_refl) as [Q' _]; eexists; split; [|split; [exact Wn|split; [apply Q'|]]].
      * rewrite Vn; reflexivity.
      * rewrite Ge, Ecm, <- Cc; exact Pc'.
      * apply (big_insert (S n') _ _ _ _ _ _ _ _ h _ _ Be Be' He Hc Logic.I).
  - destruct (bget cm cs i) as [c|] eqn:Gc.
    + destruct W' as [W' Big]; destruct (IH c h' k v fuel ltac:(lia) W' Hd Hs1 Hs2) as (c' & -> & Wc' & Pc' & Gc'); cbn [bind].
      destruct (update_ok cm cs i c' _ Bc Hi Gc) as (cs' & -> & Bc' & Hc); cbn [bind].
      destruct (set_ok n em cm es cs em cm es cs' i None (Some c') W Hi Be Bc') as (Wn & Q); [rewrite <- Ge; exact (fun j _ => same em es i j)|exact Hc|exact (conj Wc' (Gc' (or_introl Big)))|].
      destruct (Q h k eq_refl) as [Q' _]; eexists; split; [reflexivity|split; [exact Wn|split; [apply Q'|]]].
      * rewrite Ge, Gc; exact Pc'.
      * apply (big_insert n em cm es cs em cm es cs' h None (Some c') Be Be); [rewrite <- Ge; exact (fun j _ => same em es i j)|exact Hc|exact Logic.I].
    + destruct (add_ok em es i (h', k, v) Be Hi Ge) as (em' & es' & -> & Be' & He); cbn [bind].
      destruct (set_ok n em cm es cs em' cm es' cs i (Some (h', k, v)) None W Hi Be' Bc He) as (Wn & Q); [rewrite <- Gc; exact (fun j _ => same cm cs i j)|exact Hd|].
      destruct (Q h k eq_refl) as [Q' _]; eexists; split; [reflexivity|split; [exact Wn|split; [apply Q'|]]].
      * rewrite Ge, Gc; reflexivity.
      * apply (big_insert n em cm es cs em' cm es' cs h (Some (h', k, v)) None Be Be' He); [rewrite <- Gc; exact (fun j _ => same cm cs i j)|]; fold i; rewrite Ge, Gc; split; [right; reflexivity|]; intros e [].
Qed.

(** ** Removing *)
Lemma put_collision_ok cm cs i l c : bok cm cs -> (i < 32)%nat -> bget cm cs i = Some c -> N.of_nat (List.length l) < w32 ->
  exists cm' cs', put_collision (bit i) cm l cs = Ret (cm', cs') /\ bok cm' cs' /\
    forall j, (j < 32)%nat -> bget cm' cs' j = if Nat.eqb j i then match l with [] => None | _ => Some (Collision (N.of_nat (List.length l)) l) end else bget cm cs j.
Proof.
  intros Bc Hi Gc Hl; unfold put_collision; destruct l as [|e l]; [eapply remove_ok; eauto|].
  rewrite from_collision_ok by exact Hl.
  edestruct (update_ok cm cs i) as (cs' & -> & Bc' & Hc); [exact Bc|exact Hi|exact Gc|]; cbn [bind]; eauto.
Qed.

Lemma del_first k e (l : list (K * V)) : eqk k (fst e) = true -> distinct eqk (e :: l) -> del eqk k (e :: l) = l.
Proof.
  destruct e as [k' v']; cbn [fst distinct del filter]; intros E [H D]; rewrite E; cbn [negb]; fold (del eqk k l).
  apply del_absent; rewrite (value_of_eqk eqk _ lawful_k _ _ _ E); exact H.
Qed.
Lemma del_mid k (x : list (K * V)) e y : eqk k (fst e) = true -> distinct eqk (x ++ e :: y) -> del eqk k (x ++ e :: y) = x ++ y.
Proof.
  destruct e as [k' v']; cbn [fst]; intros E D; apply (distinct_mid eqk _ lawful_k) in D as [D H].
  rewrite <- (value_of_eqk eqk _ lawful_k _ _ _ E) in H; apply value_of_app_none in H as [Hx Hy].
  rewrite del_app; cbn [del filter fst]; rewrite E; cbn [negb]; fold (del eqk k y).
  rewrite !del_absent by assumption; reflexivity.
Qed.

Lemma pow_small n : (n <= 11)%nat -> 32 ^ N.of_nat n < 2 ^ 59.
Proof. intros H; apply (N.le_lt_trans _ (32 ^ 11)); [apply N.pow_le_mono_r; lia|reflexivity]. Qed.

Lemma remove_all n : forall t h k fuel, (n <= fuel)%nat -> (n <= 13)%nat -> wf n t -> distinct eqp (content n t) -> (forall g, N.of_nat (cnth g (content n t)) <= w32) ->
  exists r, remove eqk fuel h k t = Ret r /\
    match r with
    | None => value_of eqp (h, k) (content n t) = None
    | Some (v, b, t') => value_of eqp (h, k) (content n t) = Some v /\ wf n t' /\
        Permutation (content n t') (del eqp (h, k) (content n t)) /\
        (b = true -> exists em cm es cs, t' = Tree em cm es cs /\ merges em cm = true) /\
        (b = false -> bigt t -> bigt t')
    end.
Proof.
  induction n as [|n IH]; [intros t h k fuel _ _ []|]; intros [em cm es cs|] h k [|fuel] Hf H13 W D Hlen; try lia; [|contradiction W].
  cbn [remove]; rewrite consume_ok; set (i := N.to_nat (h mod 32)).
  assert (Hi : (i < 32)%nat) by (unfold i; pose proof (N.mod_lt h 32); lia).
  destruct (slot_of n em cm es cs i Hi) as (Ev & Ds & Hs); specialize (Ev h k eq_refl); specialize (Ds D).
  set (h' := h / 32) in *.
  assert (Hs1 : forall g, N.of_nat (cnth g (scontent (content n) (bget em es i) (bget cm cs i))) <= w32).
  { intros g; specialize (Hs g); specialize (Hlen (g * 32 + N.of_nat i)); lia. }
  clear Hs Hlen.
  rewrite (search_ok n _ _ _ _ _ W Hi); cbn [bind].
  pose proof W as (Be & Bc & W'); specialize (W' i Hi).
  destruct (bget em es i) as [[[eh ek] ev]|] eqn:Ge.
  - rewrite (collision_ok n _ _ _ _ _ _ W Hi Ge); cbn [bind].
    destruct (N.eqb_spec eh h') as [->|De]; cbn [negb].
    2:{ exists None; split; [reflexivity|]; rewrite Ev.
        destruct (bget cm cs i) as [[|]|]; [contradiction W'| |]; cbn [scontent]; rewrite value_gmap, (proj2 (N.eqb_neq h' eh)) by auto; reflexivity. }
    destruct (bget cm cs i) as [[|num l]|] eqn:Gc; [contradiction W'| |].
    + cbn [swf] in W'; destruct W' as (Hb & -> & Hn); cbn [scontent] in Ds, Ev; apply distinct_gmap in Ds.
      rewrite value_gmap, N.eqb_refl, value_of_cons, eqk_swap in Ev.
      cbn [scontent] in Hs1; specialize (Hs1 h'); rewrite cnth_gmap, N.eqb_refl in Hs1; cbn [List.length] in Hs1.
      destruct (eqk ek k) eqn:Ek.
      * destruct l as [|[nk nv] l]; [contradiction Hn; reflexivity|].
        destruct (update_ok em es i (h', nk, nv) _ Be Hi Ge) as (es' & -> & Be' & He); cbn [bind].
        destruct (put_collision_ok cm cs i l _ Bc Hi Gc) as (cm' & cs' & -> & Bc' & Hc); [cbn [List.length] in Hs1; lia|]; cbn [bind].
        edestruct (set_ok n em cm es cs em cm' es' cs' i _ _ W Hi Be' Bc' He Hc) as (Wn & Q).
        { destruct l; cbn [swf]; repeat split; trivial; discriminate. }
        destruct (Q h k eq_refl) as [_ Q']; eexists; split; [reflexivity|].
        split; [exact Ev|]; split; [exact Wn|]; split; [|split; [discriminate|intros _]].
        2:{ apply (big_set em cm es cs _ _ _ _ i _ _ Be Hi Be' He Hc); left; rewrite Ge; discriminate. }
        apply Q'; rewrite Ge, Gc; fold h'.
        replace (scontent _ (Some (h', nk, nv)) _) with (gmap h' ((nk, nv) :: l)) by (destruct l; reflexivity).
        cbn [scontent]; rewrite del_gmap, del_first by (trivial; rewrite eqk_swap; exact Ek); reflexivity.
      * pose proof (find_spec k l 0) as F; destruct (find_from eqk 0 k l) as [[[j k'] v']|].
        -- destruct F as (x & y & El & -> & Ek' & Hx & Vl); cbn [Nat.add]; rewrite El, array_remove_mid; cbn [bind].
           destruct (put_collision_ok cm cs i (x ++ y) _ Bc Hi Gc) as (cm' & cs' & -> & Bc' & Hc).
           { rewrite El in Hs1; rewrite !app_length in *; cbn [List.length] in *; lia. }
           cbn [bind].
           edestruct (set_ok n em cm es cs em cm' es cs' i (bget em es i) _ W Hi Be Bc' (fun j _ => same em es i j) Hc) as (Wn & Q).
           { rewrite Ge; destruct (x ++ y); cbn [swf]; repeat split; trivial; discriminate. }
           destruct (Q h k eq_refl) as [_ Q']; eexists; split; [reflexivity|].
           split; [congruence|]; split; [exact Wn|]; split; [|split; [discriminate|intros _]].
           2:{ apply (big_set em cm es cs _ _ _ _ i _ _ Be Hi Be (fun j _ => same em es i j) Hc); rewrite Ge; left; discriminate. }
           apply Q'; rewrite Ge, Gc; fold h'.
           replace (scontent _ (Some (h', ek, ev)) (match x ++ y with [] => _ | _ => _ end)) with (gmap h' ((ek, ev) :: (x ++ y))) by (destruct (x ++ y); reflexivity).
           cbn [scontent]; rewrite del_gmap, El.
           change ((ek, ev) :: x ++ (k', v') :: y) with (((ek, ev) :: x) ++ (k', v') :: y); rewrite del_mid; [reflexivity| |].
           ++ cbn [fst]; rewrite eqk_swap; exact Ek'.
           ++ rewrite El in Ds; exact Ds.
        -- exists None; split; [reflexivity|congruence].
    + cbn [scontent] in Ev; rewrite value_gmap, N.eqb_refl, value_of_cons, eqk_swap in Ev.
      destruct (eqk ek k) eqn:Ek; [|exists None; split; [reflexivity|exact Ev]].
      destruct (remove_ok em es i _ Be Hi Ge) as (em' & es' & -> & Be' & He); cbn [bind].
      destruct (set_ok n em cm es cs em' cm es' cs i None None W Hi Be' Bc He) as (Wn & Q); [rewrite <- Gc; exact (fun j _ => same cm cs i j)|exact Logic.I|].
      destruct (Q h k eq_refl) as [_ Q']; eexists; split; [reflexivity|].
      split; [exact Ev|]; split; [exact Wn|]; split; [|split; [eauto 8|]].
      2:{ intros M [Two|(j & c & Hj & Gj & Cj)].
          - destruct (merges_not em' cm es' cs Be' Bc M) as [N1|(j & c & Hj & Gj & Cj)]; [|right; eauto 8].
            destruct (two_indices _ _ Be Two) as (a & b & x & y & Ha & Hb & Dab & Ga & Gb).
            assert (O : (1 <= List.length es')%nat).
            { destruct (Nat.eq_dec a i) as [->|Da].
              - apply (one_bucket em' es' b y Be'); rewrite He, (proj2 (Nat.eqb_neq b i)) by auto; exact Gb.
              - apply (one_bucket em' es' a x Be'); rewrite He, (proj2 (Nat.eqb_neq a i)) by auto; exact Ga. }
            left; lia.
          - right; exists j, c; split; [exact Hj|]; split; [|exact Cj]; rewrite He by exact Hj; destruct (Nat.eqb j i); [reflexivity|exact Gj]. }
      apply Q'; rewrite Ge, Gc; fold h'; cbn [scontent]; rewrite del_gmap; cbn [del filter fst]; rewrite eqk_swap, Ek; reflexivity.
  - destruct (bget cm cs i) as [c|] eqn:Gc; [|exists None; split; [reflexivity|exact Ev]].
    cbn [scontent] in Hs1, Ev, Ds.
    destruct W' as [W' Big]; destruct (IH c h' k fuel ltac:(lia) ltac:(lia) W' Ds Hs1) as (r & -> & R); cbn [bind].
    destruct r as [[[v b] c']|]; [|exists None; split; [reflexivity|congruence]].
    destruct R as (Vc & Wc & Pc & Hb & Hk); rewrite <- Ev in Vc.
    destruct b.
    + destruct (Hb eq_refl) as (em1 & cm1 & es1 & cs1 & -> & M); clear Hb.
      destruct n as [|n]; [contradiction Wc|].
      destruct Wc as (Be1 & Bc1 & W1).
      destruct (merges_exact em1 cm1 es1 cs1 Be1 Bc1 M) as (i1 & [[ch ck] cv] & Hi1 & -> & -> & Cc).
      assert (G1 : bget (bit i1) [(ch, ck, cv)] i1 = Some (ch, ck, cv)).
      { unfold bget; rewrite testbit_bit, Nat.eqb_refl, cnt_bit_low by lia; reflexivity. }
      assert (N1 : forall {A} (l : list A) j, j <> i1 -> bget (bit i1) l j = None).
      { intros A l j Dj; unfold bget; rewrite testbit_bit, (proj2 (Nat.eqb_neq i1 j)) by auto; reflexivity. }
      pose proof (W1 i1 Hi1) as S1; rewrite G1 in S1.
      set (oc1 := match cs1 with [] => None | c :: _ => Some c end).
      assert (Go : forall j, (j < 32)%nat -> bget cm1 cs1 j = if Nat.eqb j i1 then oc1 else None).
      { intros j Hj; unfold oc1; destruct Cc as [[-> ->]|(c1 & -> & ->)]; [destruct (Nat.eqb j i1); reflexivity|].
        destruct (Nat.eqb_spec j i1) as [->|Dj]; [|now apply N1].
        unfold bget; rewrite testbit_bit, Nat.eqb_refl, cnt_bit_low by lia; reflexivity. }
      rewrite Go, Nat.eqb_refl in S1 by exact Hi1.
      assert (Bch : ch < 32 ^ N.of_nat n) by (destruct oc1 as [[|]|]; cbn [swf] in S1; [contradiction S1|destruct S1; assumption|exact S1]).
      rewrite restore_ok; [|exact Hi1|pose proof (pow_small n); lia].
      set (ch' := ch * 32 + N.of_nat i1) in *.
      assert (Bch' : ch' < 32 ^ N.of_nat (S n)) by (rewrite Nat2N.inj_succ, N.pow_succ_r'; unfold ch'; lia).
      assert (C1 : content (S n) (Tree (bit i1) cm1 [(ch, ck, cv)] cs1) = scontent (content (S n)) (Some (ch', ck, cv)) oc1).
      { cbn [content]; rewrite (flat_one _ i1 Hi1).
        - rewrite G1, Go, Nat.eqb_refl by exact Hi1; unfold ch'; destruct oc1 as [[|num l]|]; [contradiction S1| |reflexivity].
          cbn [scontent gmap map]; f_equal; rewrite map_map; apply map_ext; intros e; reflexivity.
        - intros j Hj Dj; rewrite N1, Go, (proj2 (Nat.eqb_neq j i1)) by auto; reflexivity. }
      destruct (add_ok em es i (ch', ck, cv) Be Hi Ge) as (em' & es' & -> & Be' & He); cbn [bind].
      assert (X : exists cm' cs', (if cm1 =? 0 then buckets_remove cm (bit i) cs
                     else match cs1 with [] => Panic | c :: _ => let* children := buckets_update cm (bit i) c cs in Ret (cm, children) end) = Ret (cm', cs') /\
                   bok cm' cs' /\ forall j, (j < 32)%nat -> bget cm' cs' j = if Nat.eqb j i then oc1 else bget cm cs j).
      { unfold oc1; destruct Cc as [[-> ->]|(c1 & -> & ->)].
        - cbn [N.eqb]; eapply remove_ok; eauto.
        - pose proof (bit_pos i1); rewrite (proj2 (N.eqb_neq (bit i1) 0)) by lia.
          destruct (update_ok cm cs i c1 _ Bc Hi Gc) as (cs' & -> & Bc' & Hc); cbn [bind]; eauto. }
      destruct X as (cm' & cs' & -> & Bc' & Hc); cbn [bind].
      destruct (set_ok (S n) em cm es cs em' cm' es' cs' i (Some (ch', ck, cv)) oc1 W Hi Be' Bc' He Hc) as (Wn & Q).
      { destruct oc1 as [[|]|]; cbn [swf] in *; [contradiction S1|destruct S1; auto|exact Bch']. }
      destruct (Q h k eq_refl) as [_ Q']; eexists; split; [reflexivity|].
      split; [exact Vc|]; split; [exact Wn|]; split; [|split; [eauto 8|]].
      2:{ intros Mf _; destruct (merges_not em' cm' es' cs' Be' Bc' Mf) as [N2|(j & d & Hj & Gj & Cj)]; [|right; eauto 8].
          assert (O : (1 <= List.length es')%nat) by (apply (one_bucket em' es' i (ch', ck, cv) Be'); rewrite He, Nat.eqb_refl by exact Hi; reflexivity).
          left; lia. }
      apply Q'.
      rewrite Ge, Gc; fold h'; rewrite <- C1; exact Pc.
    + destruct (update_ok cm cs i c' _ Bc Hi Gc) as (cs' & -> & Bc' & Hc); cbn [bind].
      destruct (set_ok n em cm es cs em cm es cs' i None (Some c') W Hi Be Bc') as (Wn & Q); [rewrite <- Ge; exact (fun j _ => same em es i j)|exact Hc|exact (conj Wc (Hk eq_refl Big))|].
      destruct (Q h k eq_refl) as [_ Q']; eexists; split; [reflexivity|].
      split; [exact Vc|]; split; [exact Wn|]; split; [|split; [discriminate|intros _ _]].
      2:{ right; exists i, c'; rewrite Hc, Nat.eqb_refl by exact Hi; auto. }
      apply Q'.
      rewrite Ge, Gc; exact Pc.
Qed.
End Tree.
