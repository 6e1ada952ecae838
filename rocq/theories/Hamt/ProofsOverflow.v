(** More than [2 ^ 32] keys with one hash: their number is kept in 32 bits. *)
From Coq Require Import Lia.
From Verif.Base Require Import Base Buf.
From Verif.HashMap Require Import ProofsSpec ProofsMap.
From Verif.Hamt Require Import Model Spec ProofsBits ProofsTree ProofsMap.
Local Open Scope N_scope.
Local Open Scope list_scope.

Definition zero (_ : N) : N := 0.
Definition ent (i : nat) : N * N := (N.of_nat i, N.of_nat i).
Definition state (n : nat) : hmap N N :=
  match n with
  | O => map_empty
  | S O => (1, Tree 1 0 [(0, 0, 0)] [])
  | S (S n) => (N.of_nat (S (S n)), Tree 1 1 [(0, 0, 0)] [from_collision (map ent (seq 1 (S n)))])
  end.

Lemma find_absent n m : (n <= m)%nat -> find_from N.eqb 0 (N.of_nat m) (map ent (seq 1 (n - 1))) = None.
Proof.
  intros H; pose proof (find_spec N.eqb (proj1 (@lawful_k N N.eqb N.eqb_refl ltac:(intros a b E; apply N.eqb_eq in E; subst; apply N.eqb_refl) ltac:(intros a b c E F; apply N.eqb_eq in E, F; subst; apply N.eqb_refl)))
    ltac:(intros a b E; apply N.eqb_eq in E; subst; apply N.eqb_refl) ltac:(intros a b c E F; apply N.eqb_eq in E, F; subst; apply N.eqb_refl) (N.of_nat m) (map ent (seq 1 (n - 1))) 0) as F.
  destruct (find_from _ _ _ _) as [[[j k] v]|]; [|reflexivity].
  destruct F as (x & y & E & _ & Ek & _); apply N.eqb_eq in Ek; subst k.
  assert (I : In (N.of_nat m, v) (map ent (seq 1 (n - 1)))) by (rewrite E; apply in_elt).
  apply in_map_iff in I as (i & Ei & I); unfold ent in Ei; injection Ei as Ei _; apply in_seq in I; lia.
Qed.
Lemma insert_group f (l : list (N * N)) k v : k <> 0 -> N.of_nat (List.length l) < w32 -> find_from N.eqb 0 k l = None ->
  insert N.eqb (S f) 0 k v (Tree 1 1 [(0, 0, 0)] [from_collision l]) = Ret (None, Tree 1 1 [(0, 0, 0)] [from_collision (l ++ [(k, v)])]).
Proof.
  intros Hk Hl Hf; cbn [insert]; change (consume_hash 0) with (1, 0).
  unfold search, collision_elems, buckets_get; change (exists_ 1 1) with true; change (bucket_index 1 1) with O; cbn [nth_error bind].
  change (0 =? 0) with true; rewrite (proj2 (N.eqb_neq 0 k)) by auto.
  rewrite from_collision_ok at 1 by exact Hl; unfold as_collision.
  rewrite N.leb_refl, Nat2N.id, firstn_all; cbn [bind]; rewrite Hf.
  unfold buckets_update; change (bucket_index 1 1) with O; change (buckets_length 1) with 1%nat.
  reflexivity.
Qed.
Lemma get_group f (l : list (N * N)) k : k <> 0 -> N.of_nat (List.length l) = w32 ->
  get N.eqb (S f) 0 k (Tree 1 1 [(0, 0, 0)] [from_collision l]) = Ret None.
Proof.
  intros Hk Hl; cbn [get]; change (consume_hash 0) with (1, 0).
  unfold search, collision_elems, buckets_get; change (exists_ 1 1) with true; change (bucket_index 1 1) with O; cbn [nth_error bind].
  change (0 =? 0) with true; cbn [negb]; rewrite (proj2 (N.eqb_neq 0 k)) by auto.
  unfold from_collision, as_collision; rewrite Hl; change (w32 mod w32) with 0.
  replace (0 <=? w32) with true by reflexivity; reflexivity.
Qed.
Lemma step_state n : N.of_nat n <= 2 ^ 32 -> map_insert N.eqb zero (N.of_nat n) (N.of_nat n) (state n) = Ret (state (S n)).
Proof.
  intros H; destruct n as [|[|n]]; [reflexivity|reflexivity|].
  set (l := map ent (seq 1 (S n))).
  assert (El : List.length l = S n) by (unfold l; now rewrite map_length, seq_length).
  unfold map_insert, zero, depth; change (state (S (S n))) with (N.of_nat (S (S n)), Tree 1 1 [(0, 0, 0)] [from_collision l]); cbn [fst snd].
  rewrite insert_group; [|lia|rewrite El; unfold w32; lia|].
  2:{ replace l with (map ent (seq 1 (S (S n) - 1))) by (unfold l; f_equal; f_equal; lia); apply find_absent; lia. }
  cbn [bind state]; do 2 f_equal.
  - unfold add64; rewrite N.mod_small by (unfold w64; lia); lia.
  - do 3 f_equal; unfold l; replace (S (S n)) with (S n + 1)%nat by lia; rewrite (seq_app (S n) 1 1), map_app.
    unfold ent at 3; cbn [map seq Nat.add]; rewrite Nat.add_1_r; reflexivity.
Qed.
Definition inserts (n : nat) : list (call N N) := map (fun i => Insert i (N.of_nat i) (N.of_nat i)) (seq 0 n).
Lemma run_app fuel cs cs' : forall ms : list (hmap N N), run N.eqb zero fuel ms (cs ++ cs') =
  let* (a, ms) := run N.eqb zero fuel ms cs in let* (b, ms) := run N.eqb zero fuel ms cs' in Ret (a ++ b, ms).
Proof.
  induction cs as [|c cs IH]; intros ms; cbn [app run bind].
  - destruct (run N.eqb zero fuel ms cs') as [[? ?]| |]; reflexivity.
  - destruct (step N.eqb zero fuel ms c) as [[a ms1]| |]; cbn [bind]; trivial; rewrite IH.
    destruct (run N.eqb zero fuel ms1 cs) as [[b ms2]| |]; cbn [bind]; trivial.
    destruct (run N.eqb zero fuel ms2 cs') as [[? ?]| |]; reflexivity.
Qed.
Lemma nth_states n m : (m < n)%nat -> nth_error (map state (seq 0 n)) m = Some (state m).
Proof. intros H; rewrite (map_nth_error state m (seq 0 n) (d := m)); [reflexivity|]; rewrite (nth_error_nth' _ O) by (rewrite seq_length; lia); now rewrite seq_nth. Qed.
Lemma run_inserts fuel n : N.of_nat n <= 2 ^ 32 + 1 ->
  run N.eqb zero fuel [map_empty] (inserts n) = Ret (repeat ADone n, map state (seq 0 (S n))).
Proof.
  induction n as [|n IH]; intros H; [reflexivity|].
  unfold inserts; replace (S n) with (n + 1)%nat at 1 by lia; rewrite seq_app, map_app, run_app; fold (inserts n); rewrite IH by lia.
  set (st := map state (seq 0 (S n))); cbn [bind seq map run step Nat.add]; unfold on.
  replace (nth_error st n) with (Some (state n)) by (symmetry; apply nth_states; lia).
  rewrite step_state by lia; cbn [bind]; unfold st.
  replace (repeat ADone (S n)) with (repeat (@ADone N N) n ++ [ADone]) by (symmetry; apply repeat_cons).
  change (state 0 :: state 1 :: map state (seq 2 n)) with (map state (seq 0 (S (S n)))).
  replace (S (S n)) with (S n + 1)%nat by lia; rewrite (seq_app (S n) 1 0), map_app; reflexivity.
Qed.

Definition many : nat := N.to_nat (2 ^ 32 + 1).
Lemma many_eq : many = N.to_nat (2 ^ 32 + 1).
Proof. reflexivity. Qed.
Opaque many.
Lemma many_pred : exists m, many = S (S m) /\ N.of_nat (S m) = 2 ^ 32.
Proof. rewrite many_eq; exists (N.to_nat (2 ^ 32 - 1)); split; lia. Qed.

Lemma run_many fuel : exists ms, run N.eqb zero fuel [map_empty] (inserts many ++ [Get many (2 ^ 32)]) = Ret (repeat ADone many ++ [AValue None], ms).
Proof.
  rewrite run_app, run_inserts by (rewrite many_eq; lia); cbn [bind run step]; unfold on; rewrite nth_states by lia.
  destruct many_pred as (m & Em & Hm); rewrite Em.
  replace (map_get N.eqb zero (2 ^ 32) (state (S (S m)))) with (@Ret (option N) None); [eexists; reflexivity|symmetry].
  unfold map_get, zero, depth; cbn [state snd]; apply get_group; [lia|]; rewrite map_length, seq_length; exact Hm.
Qed.

Lemma spec_run_app cs cs' : forall ls : list (list (N * N)), spec_run N.eqb ls (cs ++ cs') =
  let (a, ls) := spec_run N.eqb ls cs in let (b, ls) := spec_run N.eqb ls cs' in (a ++ b, ls).
Proof.
  induction cs as [|c cs IH]; intros ls; cbn [app spec_run].
  - destruct (spec_run N.eqb ls cs'); reflexivity.
  - destruct (spec_step N.eqb ls c) as [a ls1]; rewrite IH; destruct (spec_run N.eqb ls1 cs) as [b ls2], (spec_run N.eqb ls2 cs'); reflexivity.
Qed.
Fixpoint entries_of (n : nat) : list (N * N) := match n with O => [] | S n => put N.eqb (N.of_nat n) (N.of_nat n) (entries_of n) end.
Lemma nth_entries n m : (m < n)%nat -> nth_error (map entries_of (seq 0 n)) m = Some (entries_of m).
Proof. intros H; rewrite (map_nth_error entries_of m (seq 0 n) (d := m)); [reflexivity|]; rewrite (nth_error_nth' _ O) by (rewrite seq_length; lia); now rewrite seq_nth. Qed.
Lemma spec_inserts n : spec_run N.eqb [[]] (inserts n) = (repeat ADone n, map entries_of (seq 0 (S n))).
Proof.
  induction n as [|n IH]; [reflexivity|].
  unfold inserts; replace (S n) with (n + 1)%nat at 1 by lia; rewrite seq_app, map_app, spec_run_app; fold (inserts n); rewrite IH.
  replace (map entries_of (seq 0 (S (S n)))) with (map entries_of (seq 0 (S n)) ++ [entries_of (S n)]).
  2:{ replace (S (S n)) with (S n + 1)%nat by lia; rewrite (seq_app (S n) 1 0), map_app; reflexivity. }
  set (st := map entries_of (seq 0 (S n))); cbn [seq map spec_run spec_step Nat.add]; unfold with_version.
  replace (nth_error st n) with (Some (entries_of n)) by (symmetry; apply nth_entries; lia).
  replace (repeat ADone (S n)) with (repeat (@ADone N N) n ++ [ADone]) by (symmetry; apply repeat_cons).
  reflexivity.
Qed.
Lemma spec_many : fst (spec_run N.eqb [[]] (inserts many ++ [Get many (2 ^ 32)])) = repeat ADone many ++ [AValue (Some (2 ^ 32))].
Proof.
  rewrite spec_run_app, spec_inserts; cbn [spec_run spec_step]; unfold with_version; rewrite nth_entries by lia.
  destruct many_pred as (m & Em & Hm); rewrite Em; cbn [entries_of fst]; rewrite Hm.
  rewrite (lookup_put_ N.eqb zero), N.eqb_refl; [reflexivity|].
  split; [apply N.eqb_refl|]; split; [intros a b E; apply N.eqb_eq in E; subst; apply N.eqb_refl|].
  split; [intros a b c E F; apply N.eqb_eq in E, F; subst; apply N.eqb_refl|]; split; reflexivity.
Qed.
Theorem overflow : exists (hash : N -> N) (cs : list (call N N)), lawful N.eqb hash /\ Forall (proper N.eqb) cs /\
  forall fuel, exists r ms, run N.eqb hash fuel [map_empty] cs = Ret (r, ms) /\ ~ Forall2 agree r (fst (spec_run N.eqb [[]] cs)).
Proof.
  exists zero, (inserts many ++ [Get many (2 ^ 32)]); split; [|split].
  - split; [apply N.eqb_refl|]; split; [intros a b E; apply N.eqb_eq in E; subst; apply N.eqb_refl|].
    split; [intros a b c E F; apply N.eqb_eq in E, F; subst; apply N.eqb_refl|]; split; reflexivity.
  - apply Forall_app; split; [|repeat constructor]; unfold inserts; apply Forall_forall; intros c I; apply in_map_iff in I as (i & <- & _); exact Logic.I.
  - intros fuel; destruct (run_many fuel) as [ms E]; exists (repeat ADone many ++ [AValue None]), ms; split; [exact E|].
    rewrite spec_many; intros F; apply Forall2_app_inv_l in F as (x & y & F1 & F2 & Exy).
    inversion F2 as [|a b p q Hab Hpq]; subst; inversion Hpq; subst.
    apply app_inj_tail in Exy as [_ <-]; discriminate Hab.
Qed.
