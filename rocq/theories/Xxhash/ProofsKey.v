From Verif.Base Require Import Base Buf BaseFacts.
From Verif.HashMap Require Import Spec.
From Verif.Xxhash Require Import Model Spec ProofsBits Proofs ProofsDigest.
Local Open Scope N_scope.
Local Open Scope list_scope.

Section Ind.
Variable P : value -> Prop.
Hypothesis Hb : forall l, P (VBytes l).
Hypothesis Hf : forall n x, P (VFloat n x).
Hypothesis Hs : forall l, Forall P l -> P (VSeq l).
Hypothesis Ha : forall t l, Forall P l -> P (VAlt t l).
Hypothesis Hc : forall s i l, Forall P l -> P (VCon s i l).
Fixpoint value_rect_ (v : value) : P v :=
  let all := fix all (l : list value) : Forall P l :=
    match l with [] => Forall_nil P | v :: l => Forall_cons v (value_rect_ v) (all l) end in
  match v with
  | VBytes l => Hb l
  | VFloat n x => Hf n x
  | VSeq l => Hs l (all l)
  | VAlt t l => Ha t l (all l)
  | VCon s i l => Hc s i l (all l)
  end.
End Ind.

Fixpoint eqs (l l' : list value) : bool :=
  match l, l' with [], [] => true | x :: l, y :: l' => eqv x y && eqs l l' | _, _ => false end.
Fixpoint plains (l : list value) : Prop := match l with [] => True | v :: l => plain v /\ plains l end.
Lemma eqs_same l : Forall (fun a => forall b, plain a -> eqv a b = true -> a = b) l ->
  forall l', plains l -> eqs l l' = true -> l = l'.
Proof.
  induction 1 as [|a l H _ IH]; intros [|b l'] Hp E; try discriminate; [reflexivity|].
  cbn [eqs] in E. apply andb_true_iff in E. destruct E as [E1 E2]. destruct Hp as [Hp1 Hp2].
  f_equal; [apply H; assumption|apply IH; assumption].
Qed.
Lemma eqv_same a : forall b, plain a -> eqv a b = true -> a = b.
Proof.
  induction a as [l|n x|l IH|t l IH|s i l IH] using value_rect_; intros b Hp E.
  - destruct b as [l'| | | |]; try discriminate. cbn in E. destruct (list_eq_dec N.eq_dec l l') as [->|]; [reflexivity|discriminate].
  - destruct Hp.
  - destruct b as [| |l'| |]; try discriminate. f_equal. apply (eqs_same l IH l' Hp E).
  - destruct b as [| | |t' l'|]; try discriminate. change ((t =? t') && eqs l l' = true) in E.
    apply andb_true_iff in E. destruct E as [E1 E2]. apply N.eqb_eq in E1. subst t'. f_equal. apply (eqs_same l IH l' Hp E2).
  - destruct b as [| | | |s' i' l']; try discriminate. change (Bool.eqb s s' && (i =? i') && eqs l l' = true) in E.
    apply andb_true_iff in E. destruct E as [E1 E2]. apply andb_true_iff in E1. destruct E1 as [E0 E1].
    apply Bool.eqb_prop in E0. apply N.eqb_eq in E1. subst s' i'. f_equal. apply (eqs_same l IH l' Hp E2).
Qed.
Lemma eqs_refl l : Forall (fun a => plain a -> eqv a a = true) l -> plains l -> eqs l l = true.
Proof.
  induction 1 as [|a l H _ IH]; intro Hp; [reflexivity|]. destruct Hp as [Hp1 Hp2]. cbn [eqs]. rewrite H by exact Hp1. apply IH. exact Hp2.
Qed.
Lemma eqv_refl a : plain a -> eqv a a = true.
Proof.
  induction a as [l|n x|l IH|t l IH|s i l IH] using value_rect_; intros Hp.
  - cbn. destruct (list_eq_dec N.eq_dec l l) as [_|C]; [reflexivity|contradiction].
  - destruct Hp.
  - apply (eqs_refl l IH Hp).
  - change ((t =? t) && eqs l l = true). rewrite N.eqb_refl. apply (eqs_refl l IH Hp).
  - change (Bool.eqb s s && (i =? i) && eqs l l = true). rewrite Bool.eqb_reflx, N.eqb_refl. apply (eqs_refl l IH Hp).
Qed.

Lemma bytes_le_bytes n x : (n < 3)%nat -> bytes (le_bytes n x).
Proof.
  intro H. assert (L : forall y, List.length (le_bytes n y) = n) by (clear H; induction n as [|n IH]; intro y; [reflexivity|cbn; rewrite IH; reflexivity]).
  split; [|rewrite L; lia]. clear. revert x. induction n as [|n IH]; intro x; [constructor|].
  cbn [le_bytes]. constructor; [apply N.mod_lt; discriminate|apply IH].
Qed.
Lemma writes_bytes a : plain a -> Forall bytes (writes a).
Proof.
  assert (Q : forall l, Forall (fun a => plain a -> Forall bytes (writes a)) l -> plains l -> Forall bytes (flat_map writes l)).
  { induction 1 as [|a0 l H _ IH]; intro Hp; [constructor|]. destruct Hp as [Hp1 Hp2]. cbn [flat_map]. apply Forall_app. split; [apply H|apply IH]; assumption. }
  induction a as [l|n x|l IH|t l IH|s i l IH] using value_rect_; intros Hp.
  - constructor; [exact Hp|constructor].
  - destruct Hp.
  - apply (Q l IH Hp).
  - cbn [writes]. apply Forall_app. split; [constructor; [apply bytes_le_bytes; lia|constructor]|]. apply (Q l IH Hp).
  - cbn [writes]. apply Forall_app. split; [|apply (Q l IH Hp)]. destruct s; [constructor; [apply bytes_le_bytes; lia|constructor]|constructor].
Qed.

Lemma hashed_app cs : forall b cs', exists b', hashed b (cs ++ cs') = hashed b cs ++ hashed b' cs'.
Proof.
  induction cs as [|c cs IH]; intros b cs'; [exists b; reflexivity|]. destruct c as [|input|]; cbn [hashed app].
  - apply IH.
  - apply IH.
  - destruct (IH b cs') as [b' E]. exists b'. rewrite E. reflexivity.
Qed.
Lemma hashed_writes ls : forall b cs, hashed b (map Write ls ++ cs) = hashed (b ++ List.concat ls) cs.
Proof.
  induction ls as [|l ls IH]; intros b cs; cbn [map app List.concat hashed]; [rewrite app_nil_r; reflexivity|].
  rewrite IH, app_assoc. reflexivity.
Qed.
Lemma hashed_value b v : hashed b (hash_value v) = [List.concat (writes v)].
Proof. unfold hash_value. cbn [hashed]. rewrite hashed_writes. reflexivity. Qed.

Lemma keys_lawful seed : seed < 2 ^ 64 ->
  exists hash : key -> N, lawful eq_key hash /\
    forall cs (k : key), Forall proper cs ->
      exists earlier, run (with_seed seed) (cs ++ hash_value (proj1_sig k)) = Ret (earlier ++ [hash k]).
Proof.
  intro Hs. destruct (streams seed Hs) as [hash [Hlt Hrun]].
  exists (fun k => hash (List.concat (writes (proj1_sig k)))). split.
  - unfold lawful, eq_key. split; [|split; [|split; [|split]]].
    + intros [a Ha]. apply eqv_refl, Ha.
    + intros [a Ha] [b Hb] E. cbn [proj1_sig] in *. rewrite <- (eqv_same a b Ha E). apply eqv_refl, Ha.
    + intros [a Ha] [b Hb] [c Hc] E E'. cbn [proj1_sig] in *. rewrite (eqv_same a b Ha E). exact E'.
    + intros [a Ha] [b Hb] E. cbn [proj1_sig] in *. rewrite (eqv_same a b Ha E). reflexivity.
    + intro a. apply Hlt.
  - intros cs [v Hv] F. cbn [proj1_sig]. rewrite Hrun.
    + destruct (hashed_app cs [] (hash_value v)) as [b' E]. rewrite E, hashed_value, map_app.
      exists (map hash (hashed [] cs)). reflexivity.
    + apply Forall_app. split; [exact F|]. unfold hash_value. constructor; [exact I|].
      apply Forall_app. split; [|constructor; [exact I|constructor]].
      apply Forall_map. apply writes_bytes, Hv.
Qed.
Lemma zeros_differ : exists a b seed, eqv a b = true /\
  run (with_seed seed) (hash_value a) <> run (with_seed seed) (hash_value b).
Proof.
  exists (VFloat 8 0), (VFloat 8 (2 ^ 63)), 0. split; [vm_compute; reflexivity|]. vm_compute. discriminate.
Qed.
