From Coq Require Import NArith ZArith Lia Permutation.
From Verif.Base Require Import Base.
From Verif.Asm Require Model.
From Verif.Obj Require Import Model Spec ProofsProduce.
From Verif.Native Require Import Model Spec.
Import Asm.Model(le_bytes).
Local Open Scope Z_scope.

(** ** Offsets *)
Lemma o_string0 : offset_of string_fields 0 = 0. Proof. reflexivity. Qed.
Lemma o_string1 : offset_of string_fields 1 = 8. Proof. reflexivity. Qed.
Lemma o_use0 : offset_of use_fields 0 = 0. Proof. reflexivity. Qed.
Lemma o_use1 : offset_of use_fields 1 = 8. Proof. reflexivity. Qed.
Lemma o_meta0 : offset_of metadata_fields 0 = 0. Proof. reflexivity. Qed.
Lemma o_meta1 : offset_of metadata_fields 1 = 4. Proof. reflexivity. Qed.
Lemma o_int0 : offset_of integer_fields 0 = 0. Proof. reflexivity. Qed.
Lemma o_int1 : offset_of integer_fields 1 = 8. Proof. reflexivity. Qed.
Lemma o_cons0 : offset_of cons_fields 0 = 0. Proof. reflexivity. Qed.
Lemma o_cons1 : offset_of cons_fields 1 = 8. Proof. reflexivity. Qed.
Lemma o_sexp0 : offset_of sexp_fields 0 = 0. Proof. reflexivity. Qed.
Lemma o_sexp1 : offset_of sexp_fields 1 = 8. Proof. reflexivity. Qed.
Lemma o_buffer0 : offset_of buffer_fields 0 = 0. Proof. reflexivity. Qed.
Lemma o_buffer1 : offset_of buffer_fields 1 = 8. Proof. reflexivity. Qed.
Lemma o_result0 : offset_of result_fields 0 = 0. Proof. reflexivity. Qed.
Lemma o_result1 : offset_of result_fields 1 = 8. Proof. reflexivity. Qed.
Lemma buffer_struct : c_struct buffer_fields = (32, 8). Proof. reflexivity. Qed.
Ltac offsets := rewrite ?o_string0, ?o_string1, ?o_use0, ?o_use1, ?o_meta0, ?o_meta1, ?o_int0, ?o_int1, ?o_cons0, ?o_cons1,
  ?o_sexp0, ?o_sexp1, ?o_buffer0, ?o_buffer1, ?o_result0, ?o_result1, ?Z.add_0_r, ?Z.add_0_l, <- ?Z.add_assoc; cbn [Z.add Pos.add Pos.succ].
Ltac offsets_in H := rewrite ?o_string0, ?o_string1, ?o_use0, ?o_use1, ?o_meta0, ?o_meta1, ?o_int0, ?o_int1, ?o_cons0, ?o_cons1,
  ?o_sexp0, ?o_sexp1, ?o_buffer0, ?o_buffer1, ?o_result0, ?o_result1, ?Z.add_0_r, ?Z.add_0_l, <- ?Z.add_assoc in H; cbn [Z.add Pos.add Pos.succ] in H.

(** ** Reading *)
Lemma load_holds m : forall n a v, holds m a (Z.of_nat n) v -> load m a n = v mod 256 ^ Z.of_nat n.
Proof.
  induction n as [|n IH]; intros a v H; [cbn; now rewrite Z.mod_1_r|].
  cbn [load]. rewrite (IH (a + 1) (v / 256)).
  - pose proof (H 0) as H0. cbn in H0. rewrite Z.add_0_r, Z.div_1_r in H0. rewrite H0 by lia.
    rewrite Z2N.id by (apply Z.mod_pos_bound; lia). rewrite Nat2Z.inj_succ, Z.pow_succ_r by lia.
    rewrite Z.rem_mul_r by lia. lia.
  - intros i Bi. rewrite <- Z.add_assoc, H by lia. replace (1 + i) with (Z.succ i) by lia. rewrite Z.pow_succ_r by lia.
    now rewrite Z.div_div by lia.
Qed.

Lemma load_field m a n v : field m a (Z.of_nat n) v -> load m a n = v.
Proof. intros [B H]. rewrite (load_holds m n a v H). now apply Z.mod_small. Qed.
Lemma load1 m a v : field m a 1 v -> load m a 1 = v. Proof. exact (load_field m a 1 v). Qed.
Lemma load4 m a v : field m a 4 v -> load m a 4 = v. Proof. exact (load_field m a 4 v). Qed.
Lemma load8 m a v : field m a 8 v -> load m a 8 = v. Proof. exact (load_field m a 8 v). Qed.

Lemma field_ext m m' a n v : (forall i, 0 <= i < n -> m' (a + i) = m (a + i)) -> field m a n v -> field m' a n v.
Proof. intros E [B H]. split; [exact B|]. intros i Bi. rewrite E by exact Bi. now apply H. Qed.

Lemma store_in m a bs i b : nth_error bs (Z.to_nat i) = Some b -> 0 <= i -> store m a bs (a + i) = b.
Proof.
  intros N P. assert (i < Z.of_nat (List.length bs)). { assert (Z.to_nat i < List.length bs)%nat by (apply nth_error_Some; congruence). lia. }
  unfold store. replace (a <=? a + i) with true by lia. replace (a + i <? _) with true by lia. cbn [andb].
  replace (a + i - a) with i by lia. apply nth_error_nth, N.
Qed.
Lemma store_out m a bs x : x < a \/ a + Z.of_nat (List.length bs) <= x -> store m a bs x = m x.
Proof. intro B. unfold store. destruct (a <=? x) eqn:E; [|reflexivity]. replace (x <? _) with false by lia. reflexivity. Qed.

Lemma field_store m a n v : 0 <= v < 256 ^ Z.of_nat n -> field (store m a (le_bytes n v)) a (Z.of_nat n) v.
Proof.
  intro B. split; [exact B|]. intros i Bi. apply store_in; [|lia]. rewrite le_bytes_nth by lia. now rewrite Z2Nat.id by lia.
Qed.
Lemma field_store_out m a n v b bs : b + Z.of_nat (List.length bs) <= a \/ a + n <= b -> field m a n v -> field (store m b bs) a n v.
Proof. intros O. apply field_ext. intros i Bi. apply store_out. lia. Qed.
Lemma field_le_out m a n v b k z : b + Z.of_nat k <= a \/ a + n <= b -> field m a n v -> field (store m b (le_bytes k z)) a n v.
Proof. intros O. apply field_store_out. now rewrite le_bytes_length. Qed.
Lemma field_store1 m a v : 0 <= v < 256 -> field (store m a (le_bytes 1 v)) a 1 v.
Proof. intro B. apply (field_store m a 1 v). exact B. Qed.
Lemma field_store4 m a v : 0 <= v < 2 ^ 32 -> field (store m a (le_bytes 4 v)) a 4 v.
Proof. intro B. apply (field_store m a 4 v). exact B. Qed.
Lemma field_store8 m a v : 0 <= v < 2 ^ 64 -> field (store m a (le_bytes 8 v)) a 8 v.
Proof. intro B. apply (field_store m a 8 v). exact B. Qed.

Lemma loads_loaded m a s : loaded m a s -> loads m a (List.length s) = s.
Proof.
  intro L. unfold loads. apply nth_ext with (d := 0%N) (d' := 0%N); [now rewrite map_length, seq_length|].
  intros i Bi. rewrite map_length, seq_length in Bi. rewrite nth_indep with (d' := m (a + Z.of_nat 0)) by now rewrite map_length, seq_length.
  rewrite (map_nth (fun i => m (a + Z.of_nat i))). rewrite seq_nth by exact Bi. cbn [Nat.add].
  apply L; [|lia]. rewrite Nat2Z.id. now apply nth_error_nth'.
Qed.

Lemma as_str_text m a s : text m a s -> as_str m (read_string m a) = s.
Proof.
  intros (q & Q & N & L). unfold as_str, read_string. cbn [fst snd]. offsets. rewrite (load8 _ _ _ Q), (load8 _ _ _ N).
  destruct s as [|b s]; [reflexivity|]. replace (_ =? 0) with false by (cbn [List.length]; lia). rewrite Nat2Z.id. now apply loads_loaded.
Qed.

(** ** From compiled code *)
Lemma read_bool_field m a (b : bool) : field m a 1 (if b then 1 else 0) -> read_bool m a = Ret b.
Proof. intro F. unfold read_bool. rewrite (load1 _ _ _ F). now destruct b. Qed.

Lemma cells_pos s : (0 < cells s)%nat.
Proof. destruct s as [l []]; cbn; lia. Qed.

Lemma cells_list loc x l : cells (Sexp loc (RList (x :: l))) = (1 + cells x + cells (Sexp loc (RList l)))%nat.
Proof. cbn. lia. Qed.
Lemma cells_pair loc x y : cells (Sexp loc (RListLike x [] y)) = (1 + cells x + cells y)%nat.
Proof. cbn. lia. Qed.
Lemma cells_list_like loc loc' x y l last : cells (Sexp loc (RListLike x (y :: l) last)) = (1 + cells x + cells (Sexp loc' (RListLike y l last)))%nat.
Proof. cbn. lia. Qed.

Ltac meta C := let A := fresh in let B := fresh in let T := fresh in
  destruct C as (A & B & T); cbn [syntax_into_host]; unfold read_sexp; offsets; cbn zeta;
  rewrite (load4 _ _ _ A), (load4 _ _ _ B), (load1 _ _ _ T); cbn [bind]; rewrite <- ?surjective_pairing.

Lemma into_host_shows m : forall p s, shows m p s -> forall fuel, (cells s <= fuel)%nat -> syntax_into_host fuel m p = Ret s.
Proof.
  intros p s H. induction H; intros [|fuel] Bf; try (pose proof (cells_pos s)); try (cbn in Bf; lia); meta H.
  - rewrite (read_bool_field _ _ _ H0). cbn [bind]. now rewrite (load8 _ _ _ H1).
  - now rewrite (load8 _ _ _ H0).
  - now rewrite (read_bool_field _ _ _ H0).
  - now rewrite (as_str_text _ _ _ H0).
  - now rewrite (as_str_text _ _ _ H0).
  - now rewrite (load4 _ _ _ H0).
  - reflexivity.
  - rewrite cells_list in Bf. rewrite (load8 _ _ _ H0), (load8 _ _ _ H1). rewrite IHshows1 by lia. cbn [bind]. rewrite IHshows2.
    + reflexivity.
    + change (cells (Sexp loc' (RList l))) with (cells (Sexp loc (RList l))). lia.
  - rewrite cells_pair in Bf. rewrite (load8 _ _ _ H0), (load8 _ _ _ H1). rewrite IHshows1 by lia. cbn [bind]. rewrite IHshows2 by lia.
    cbn [bind pack]. unfold cons_, list_like. destruct y as [ly []]; try reflexivity; destruct H4; exact I.
  - rewrite (cells_list_like _ loc') in Bf. rewrite (load8 _ _ _ H0), (load8 _ _ _ H1). rewrite IHshows1 by lia. cbn [bind]. rewrite IHshows2 by lia.
    reflexivity.
  - unfold read_use. offsets. rewrite (load8 _ _ _ H0), (load8 _ _ _ H1). now rewrite <- surjective_pairing.
Qed.

(** ** To compiled code *)

Lemma grown_refl h : grown h h [] 0.
Proof. split; [reflexivity|]. split; [reflexivity|]. reflexivity. Qed.

Lemma sum_app l l' : fold_right (fun b n => snd b + n) 0 (l ++ l') =
  fold_right (fun (b : Z * Z) n => snd b + n) 0 l + fold_right (fun b n => snd b + n) 0 l'.
Proof. induction l as [|b l IH]; cbn; [reflexivity|]. rewrite IH. lia. Qed.

Lemma grown_trans h h1 h2 l1 l2 n1 n2 : grown h h1 l1 n1 -> grown h1 h2 l2 n2 -> grown h h2 (l2 ++ l1) (n1 + n2).
Proof.
  intros (B1 & S1 & K1) (B2 & S2 & K2). split; [rewrite B2, B1; apply app_assoc|]. split; [rewrite sum_app; lia|].
  intros b x I W. rewrite (K2 b x), (K1 b x); auto. rewrite B1. apply in_or_app. now right.
Qed.

Lemma grown_block malloc h n a m : sound malloc -> malloc h n = Some a -> (forall x, ~ within (a, n) x -> m x = mem h x) ->
  grown h (Heap m ((a, n) :: blocks h)) [(a, n)] n.
Proof.
  intros S E Out. destruct (S _ _ _ E) as (_ & _ & D). split; [reflexivity|]. split; [cbn; lia|]. intros b x I W. cbn [mem]. apply Out.
  unfold within in *. cbn [fst snd]. destruct (D b I); lia.
Qed.

Definition node (m : memory) (p : Z) (meta : Z * Z) (v : view) : memory :=
  write_sexp (store (store m p (le_bytes 4 (fst meta))) (p + 4) (le_bytes 4 (snd meta))) (p + 8) v.

Ltac outs := repeat (first [rewrite store_out by (rewrite le_bytes_length; cbn [Z.of_nat Pos.of_succ_nat Pos.succ]; lia)]).

Lemma node_out m p meta v x : ~ within (p, 32) x -> node m p meta v x = m x.
Proof.
  unfold within. cbn [fst snd]. intro W. unfold node, write_sexp. offsets.
  destruct v; cbn zeta; unfold write_string, write_use; offsets; outs; reflexivity.
Qed.

Definition loc_ok (loc : Z * Z) : Prop := 0 <= fst loc < 2 ^ 32 /\ 0 <= snd loc < 2 ^ 32.

Ltac out1 := first [ apply field_store1; lia | apply field_store4; solve [auto] | apply field_store8; solve [auto]
  | apply field_le_out; [cbn [Z.of_nat Pos.of_succ_nat Pos.succ]; lia|] ].

Lemma tag_range v : 0 <= tag_of v < 256.
Proof. destruct v; cbn; lia. Qed.

Lemma node_constructed m p loc v : loc_ok loc -> constructed (node m p loc v) p loc (tag_of v).
Proof.
  intros [L1 L2]. pose proof (tag_range v) as T. unfold node, write_sexp. offsets.
  split; [|split]; destruct v; cbn zeta; unfold write_string, write_use; offsets; repeat out1.
Qed.

Lemma byte_of_range b : 0 <= byte_of b < 256.
Proof. destruct b; cbn; lia. Qed.

Definition view_fields (m : memory) (p : Z) (v : view) : Prop :=
  match v with
  | VInteger b z => field m p 1 (byte_of b) /\ field m (p + 8) 8 z
  | VFPNumber z => field m p 8 z
  | VBool b => field m p 1 (byte_of b)
  | VSymbol s | VString s => field m p 8 (fst s) /\ field m (p + 8) 8 (snd s)
  | VChar c => field m p 4 c
  | VCons a d => field m p 8 a /\ field m (p + 8) 8 d
  | VNil => True
  | VUse u => field m p 8 (fst u) /\ field m (p + 8) 8 (snd u)
  end.
Definition view_ok (v : view) : Prop :=
  match v with
  | VInteger b z => 0 <= z < 2 ^ 64
  | VFPNumber z => 0 <= z < 2 ^ 64
  | VBool b => True
  | VSymbol s | VString s => 0 <= fst s < 2 ^ 64 /\ 0 <= snd s < 2 ^ 64
  | VChar c => 0 <= c < 2 ^ 32
  | VCons a d => 0 <= a < 2 ^ 64 /\ 0 <= d < 2 ^ 64
  | VNil => True
  | VUse u => 0 <= fst u < 2 ^ 64 /\ 0 <= snd u < 2 ^ 64
  end.

Lemma node_fields m p loc v : view_ok v -> view_fields (node m p loc v) (p + 16) v.
Proof.
  unfold node, write_sexp, view_ok, view_fields. offsets. intro K.
  destruct v; cbn zeta; unfold write_string, write_use; try pose proof (byte_of_range signed); try pose proof (byte_of_range b);
    offsets; repeat match goal with H : _ /\ _ |- _ => destruct H end; repeat (match goal with |- _ /\ _ => split end); repeat out1; try exact I; auto.
Qed.

Lemma constructed_ext m m' p loc t : (forall i, 0 <= i < 32 -> m' (p + i) = m (p + i)) -> constructed m p loc t -> constructed m' p loc t.
Proof.
  intros E (A & B & C). repeat split; try apply A; try apply B; try apply C;
    intros i Bi; rewrite <- ?Z.add_assoc, E by lia; rewrite ?Z.add_assoc; [apply A|apply B|apply C]; exact Bi.
Qed.
Lemma view_fields_ext m m' p v : (forall i, 0 <= i < 32 -> m' (p + i) = m (p + i)) -> view_fields m (p + 16) v -> view_fields m' (p + 16) v.
Proof.
  intros E. assert (X : forall k n z, 0 <= k -> k + n <= 32 -> field m (p + k) n z -> field m' (p + k) n z).
  { intros k n z K1 K2. apply field_ext. intros i Bi. rewrite <- Z.add_assoc. apply E. lia. }
  destruct v; cbn [view_fields]; rewrite <- ?Z.add_assoc; cbn [Z.add Pos.add Pos.succ]; intuition (apply X; auto; lia).
Qed.

(** What [syntax_from_host] does at each S-expression: a node, after its parts. *)
Lemma node_grown malloc h p loc v : sound malloc -> malloc h 32 = Some p ->
  grown h (Heap (node (mem h) p loc v) ((p, 32) :: blocks h)) [(p, 32)] 32.
Proof. intros S E. apply (grown_block malloc); [exact S|exact E|]. intros x. apply node_out. Qed.

Lemma from_host_unfold malloc fuel h s : syntax_from_host malloc (S fuel) h s =
  (let* u := unpack s in
   let* r :=
        match snd u with
        | BInteger signed value => Ret (VInteger signed value, h)
        | BFPNumber bits => Ret (VFPNumber bits, h)
        | BBool b => Ret (VBool b, h)
        | BSymbol s => let* x := string_from_host malloc h s in Ret (VSymbol (fst x), snd x)
        | BString s => let* x := string_from_host malloc h s in Ret (VString (fst x), snd x)
        | BChar c => Ret (VChar c, h)
        | BCons car cdr =>
            let* x := syntax_from_host malloc fuel h car in
            let* y := syntax_from_host malloc fuel (snd x) cdr in
            Ret (VCons (fst x) (fst y), snd y)
        | BNil => Ret (VNil, h)
        | BUse u => Ret (VUse u, h)
        end in
   match malloc (snd r) 32 with
   | Some p => Ret (p, Heap (node (mem (snd r)) p (fst u) (fst r)) ((p, 32) :: blocks (snd r)))
   | None => Panic
   end).
Proof.
  cbn [syntax_from_host]. destruct (unpack s) as [[meta b]| |]; [|reflexivity|reflexivity]. cbn [bind fst snd].
  match goal with |- bind ?X _ = bind ?Y _ => change Y with X; destruct X as [[v h']| |] end; [|reflexivity|reflexivity].
  cbn [bind fst snd]. unfold gc_malloc. rewrite buffer_struct. cbn [fst]. destruct (malloc h' 32) as [p|]; [|reflexivity].
  cbn [bind fst snd mem blocks]. unfold node. offsets. reflexivity.
Qed.

(** The result of a conversion that takes [n] bytes and leaves what [P] says of the new blocks. *)
Definition converted {A} (malloc : heap -> Z -> option Z) (h : heap) (n : Z) (r : outcome (A * heap)) (P : A -> memory -> Prop) : Prop :=
  (exists a h' new, r = Ret (a, h') /\ grown h h' new n /\ forall m, agree new (mem h') m -> P a m) \/
  (r = Panic /\ exists h' new k j, grown h h' new k /\ 0 < j /\ k + j <= n /\ malloc h' j = None).

Lemma node_converted malloc h n (r : outcome (view * heap)) loc (P : view -> memory -> Prop) :
  sound malloc -> loc_ok loc -> 0 <= n -> converted malloc h n r (fun v m => view_ok v /\ P v m) ->
  converted malloc h (n + 32)
    (let* r := r in
     match malloc (snd r) 32 with
     | Some p => Ret (p, Heap (node (mem (snd r)) p loc (fst r)) ((p, 32) :: blocks (snd r)))
     | None => Panic
     end)
    (fun p m => 0 <= p < 2 ^ 64 /\ exists v, P v m /\ constructed m p loc (tag_of v) /\ view_fields m (p + 16) v).
Proof.
  intros S L Pn [(v & h' & new & -> & G & K)|(-> & h' & new & k & j & G & J & Le & E)].
  - cbn [bind fst snd]. destruct (malloc h' 32) as [p|] eqn:E.
    + left. eexists p, _, ([(p, 32)] ++ new). split; [reflexivity|]. split.
      { eapply grown_trans; [exact G|]. apply (node_grown malloc); assumption. }
      intros m A. destruct (S _ _ _ E) as (P1 & P2 & _). split; [lia|]. exists v.
      assert (An : agree new (mem h') m).
      { intros b x I W. rewrite <- (A b x (in_or_app _ _ _ (or_intror I)) W). cbn [mem]. symmetry.
        refine (proj2 (proj2 (node_grown malloc h' p loc v S E)) b x _ W). rewrite (proj1 G). apply in_or_app. now left. }
      destruct (K m An) as [V Q]. split; [exact Q|].
      assert (E' : forall i, 0 <= i < 32 -> m (p + i) = node (mem h') p loc v (p + i)).
      { intros i Bi. symmetry. apply (A (p, 32)); [now left|]. unfold within. cbn. lia. }
      split; [eapply constructed_ext, node_constructed; eauto|eapply view_fields_ext, node_fields; eauto].
    + right. split; [reflexivity|]. exists h', new, n, 32. repeat split; auto; try apply G; lia.
  - right. split; [reflexivity|]. exists h', new, k, j. repeat split; auto; try apply G; lia.
Qed.

Lemma string_converted malloc h s : sound malloc -> Z.of_nat (List.length s) < 2 ^ 64 ->
  converted malloc h (Z.of_nat (List.length s)) (string_from_host malloc h s)
    (fun x m => (0 <= fst x < 2 ^ 64 /\ 0 <= snd x < 2 ^ 64) /\ snd x = Z.of_nat (List.length s) /\ loaded m (fst x) s).
Proof.
  intros S B. unfold string_from_host. destruct s as [|b s].
  - left. eexists _, h, []. split; [reflexivity|]. split; [apply grown_refl|]. intros m _. cbn [fst snd]. repeat split; try lia.
    intros j c N. destruct (Z.to_nat j); discriminate N.
  - remember (b :: s) as t. unfold gc_malloc. destruct (malloc h (Z.of_nat (List.length t))) as [p|] eqn:E.
    + left. cbn [bind mem blocks]. eexists _, _, [_]. split; [reflexivity|]. split.
      { apply (grown_block malloc); auto. intros x W. unfold within in W. cbn [fst snd] in W. apply store_out. lia. }
      intros m A. cbn [fst snd]. destruct (S _ _ _ E) as (P1 & P2 & _). assert (0 < List.length t)%nat by (rewrite Heqt; cbn; lia).
      repeat split; try lia. intros j c N Pj. rewrite <- (A (p, Z.of_nat (List.length t)) (p + j)).
      * cbn [mem]. now apply store_in.
      * now left.
      * assert (Z.to_nat j < List.length t)%nat by (apply nth_error_Some; congruence). unfold within. cbn [fst snd]. lia.
    + right. split; [reflexivity|]. exists h, [], 0, (Z.of_nat (List.length t)). split; [apply grown_refl|].
      assert (0 < List.length t)%nat by (rewrite Heqt; cbn; lia). repeat split; auto; lia.
Qed.

Lemma converted_bind {A B} malloc h n n' (r : outcome (A * heap)) (f : A -> heap -> outcome (B * heap)) (P : A -> memory -> Prop) (Q : B -> memory -> Prop) :
  0 <= n' -> converted malloc h n r P ->
  (forall a h', r = Ret (a, h') -> (exists m, P a m) -> converted malloc h' n' (f a h') (fun b m => P a m -> Q b m)) ->
  converted malloc h (n + n') (let* x := r in f (fst x) (snd x)) Q.
Proof.
  intros Pn [(a & h' & new & E & G & K)|(-> & h' & new & k & j & G & J & Le & M)] F.
  - specialize (F a h' E (ex_intro _ _ (K (mem h') (fun b x _ _ => eq_refl)))). rewrite E. cbn [bind fst snd].
    destruct F as [(b & h2 & new2 & -> & G2 & K2)|(-> & h2 & new2 & k & j & G2 & J & Le & M)].
    + left. exists b, h2, (new2 ++ new). split; [reflexivity|]. split; [eapply grown_trans; eauto|]. intros m Ag. apply K2.
      * intros c x I. apply Ag. apply in_or_app. now left.
      * apply K. intros c x I W. rewrite <- (Ag c x (in_or_app _ _ _ (or_intror I)) W). symmetry. apply (proj2 (proj2 G2) c); [|exact W].
        rewrite (proj1 G). apply in_or_app. now left.
    + right. split; [reflexivity|]. exists h2, (new2 ++ new), (n + k), j. split; [eapply grown_trans; eauto|]. repeat split; auto; lia.
  - right. split; [reflexivity|]. exists h', new, k, j. repeat split; auto; try apply G; lia.
Qed.

Lemma converted_ret {A} malloc h (a : A) (P : A -> memory -> Prop) : (forall m, P a m) -> converted malloc h 0 (Ret (a, h)) P.
Proof. intro H. left. exists a, h, []. split; [reflexivity|]. split; [apply grown_refl|]. auto. Qed.

Lemma converted_mono {A} malloc h n (r : outcome (A * heap)) (P Q : A -> memory -> Prop) : (forall a m, P a m -> Q a m) ->
  converted malloc h n r P -> converted malloc h n r Q.
Proof. intros I [(a & h' & new & E & G & K)|R]; [left|right; exact R]. exists a, h', new. eauto. Qed.

Lemma footprint_list loc x l : footprint (Sexp loc (RList (x :: l))) = footprint x + footprint (Sexp loc (RList l)) + 32.
Proof. unfold footprint. rewrite cells_list. cbn [texts fold_right]. lia. Qed.
Lemma footprint_pair loc x y : footprint (Sexp loc (RListLike x [] y)) = footprint x + footprint y + 32.
Proof. unfold footprint. rewrite cells_pair. cbn [texts fold_right]. lia. Qed.
Lemma footprint_list_like loc x y l last : footprint (Sexp loc (RListLike x (y :: l) last)) =
  footprint x + footprint (Sexp loc (RListLike y l last)) + 32.
Proof. unfold footprint. rewrite (cells_list_like _ loc). cbn [texts fold_right]. lia. Qed.

Lemma texts_pos : forall s, 0 <= texts s.
Proof.
  fix texts_pos 1. intros [loc r].
  assert (L : forall l, 0 <= fold_right (fun x n => texts x + n) 0 l).
  { induction l as [|x l IH]; cbn [fold_right]; [lia|]. pose proof (texts_pos x). lia. }
  destruct r; cbn [texts]; try lia; try apply L. pose proof (L init). pose proof (texts_pos head). pose proof (texts_pos last). lia.
Qed.
Lemma footprint_pos s : 32 <= footprint s.
Proof. unfold footprint. pose proof (texts_pos s). pose proof (cells_pos s). lia. Qed.

Ltac leaf := match goal with |- converted _ _ ?n _ _ => change n with (0 + 32) end.

Lemma from_host_converted malloc : sound malloc -> forall fuel s h, proper s -> (cells s <= fuel)%nat ->
  converted malloc h (footprint s) (syntax_from_host malloc fuel h s) (fun p m => 0 <= p < 2 ^ 64 /\ shows m p s).
Proof.
  intro S. induction fuel as [|fuel IH]; intros [loc r] h Pr Bf; [pose proof (cells_pos (Sexp loc r)); lia|].
  rewrite from_host_unfold. inversion Pr as [? ? L1 L2 Pr' [El Er]]. subst loc0 r0. assert (L : loc_ok loc) by (split; assumption).
  assert (Two : forall x y f g, footprint (Sexp loc r) = footprint x + footprint y + 32 -> proper x -> proper y -> (cells x <= fuel)%nat -> (cells y <= fuel)%nat ->
    (forall m p a d, constructed m p loc 6 -> field m (p + 16) 8 a -> field m (p + 24) 8 d -> shows m a x -> shows m d y -> shows m p (Sexp loc r)) ->
    f = syntax_from_host malloc fuel h x -> (forall h', g h' = syntax_from_host malloc fuel h' y) ->
    converted malloc h (footprint (Sexp loc r))
      (let* r := (let* x := f in let* y := g (snd x) in Ret (VCons (fst x) (fst y), snd y)) in
       match malloc (snd r) 32 with
       | Some p => Ret (p, Heap (node (mem (snd r)) p loc (fst r)) ((p, 32) :: blocks (snd r)))
       | None => Panic
       end) (fun p m => 0 <= p < 2 ^ 64 /\ shows m p (Sexp loc r))).
  { intros x y f g -> Px Py Bx By Sh -> Eg. pose proof (footprint_pos x). pose proof (footprint_pos y).
    eapply converted_mono; [|eapply node_converted with (P := fun v m => exists a d, v = VCons a d /\ shows m a x /\ shows m d y); auto; [lia|]].
    - intros p m (Bp & v & (a & d & -> & Sa & Sd) & C & V1 & V2). split; [exact Bp|]. rewrite <- Z.add_assoc in V2. cbn in V2. eapply Sh; eauto.
    - eapply (converted_bind malloc h (footprint x) (footprint y) _ (fun a h' => let* y := g h' in Ret (VCons a (fst y), snd y))); [lia|apply IH; assumption|].
      intros a h' _ [m0 [Ba _]]. rewrite Eg. rewrite <- (Z.add_0_r (footprint y)).
      eapply (converted_bind malloc h' (footprint y) 0 _ (fun d h2 => Ret (VCons a d, h2))); [lia|apply IH; assumption|].
      intros d h2 _ [m1 [Bd _]]. apply converted_ret. intros m [_ Sd] [_ Sa]. split; [split; assumption|]. eauto. }
  destruct Pr'; cbn [unpack];
    match goal with |- converted _ _ _ (bind (Ret ?x) ?f) _ => change (bind (Ret x) f) with (f x) end; cbv beta; cbn [fst snd].
  - leaf. eapply converted_mono; [|eapply node_converted with (P := fun w m => w = VInteger signed v); auto; [lia|]].
    + intros p m (Bp & w & -> & C & V1 & V2). split; [exact Bp|]. rewrite <- Z.add_assoc in V2. apply shows_integer; auto.
    + apply converted_ret. auto.
  - leaf. eapply converted_mono; [|eapply node_converted with (P := fun w m => w = VFPNumber bits); auto; [lia|]].
    + intros p m (Bp & w & -> & C & V1). split; [exact Bp|]. apply shows_fpnumber; auto.
    + apply converted_ret. auto.
  - unfold footprint. cbn [cells texts]. replace (32 * _ + _) with (Z.of_nat (List.length s) + 32) by lia.
    eapply converted_mono; [|eapply node_converted with (P := fun w m => exists x, w = VSymbol x /\ snd x = Z.of_nat (List.length s) /\ loaded m (fst x) s); auto; [lia|]].
    + intros p m (Bp & w & (x & -> & Lx & Ld) & C & V1 & V2). split; [exact Bp|]. apply shows_symbol; auto. rewrite Lx in V2. exists (fst x). auto.
    + rewrite <- (Z.add_0_r (Z.of_nat _)) at 1. eapply (converted_bind malloc h _ 0 _ (fun a h' => Ret (VSymbol a, h'))); [lia|apply string_converted; auto|].
      intros a h' _ _. apply converted_ret. intros m (B & E1 & E2). split; [exact B|eauto].
  - unfold footprint. cbn [cells texts]. replace (32 * _ + _) with (Z.of_nat (List.length s) + 32) by lia.
    eapply converted_mono; [|eapply node_converted with (P := fun w m => exists x, w = VString x /\ snd x = Z.of_nat (List.length s) /\ loaded m (fst x) s); auto; [lia|]].
    + intros p m (Bp & w & (x & -> & Lx & Ld) & C & V1 & V2). split; [exact Bp|]. apply shows_string; auto. rewrite Lx in V2. exists (fst x). auto.
    + rewrite <- (Z.add_0_r (Z.of_nat _)) at 1. eapply (converted_bind malloc h _ 0 _ (fun a h' => Ret (VString a, h'))); [lia|apply string_converted; auto|].
      intros a h' _ _. apply converted_ret. intros m (B & E1 & E2). split; [exact B|eauto].
  - leaf. eapply converted_mono; [|eapply node_converted with (P := fun w m => w = VChar c); auto; [lia|]].
    + intros p m (Bp & w & -> & C & V1). split; [exact Bp|]. apply shows_char; auto.
    + apply converted_ret. intro. split; [cbn; lia|reflexivity].
  - leaf. eapply converted_mono; [|eapply node_converted with (P := fun w m => w = VNil); auto; [lia|]].
    + intros p m (Bp & w & -> & C & V1). split; [exact Bp|]. apply shows_nil; auto.
    + apply converted_ret. intro. split; [exact I|reflexivity].
  - rewrite cells_list in Bf. apply (Two x (Sexp loc (RList l)) (syntax_from_host malloc fuel h x) (fun h' => syntax_from_host malloc fuel h' (Sexp loc (RList l)))); auto; try lia.
    + apply footprint_list.
    + constructor; auto.
    + intros. eapply shows_list; eauto.
  - rewrite cells_pair in Bf. apply (Two x y (syntax_from_host malloc fuel h x) (fun h' => syntax_from_host malloc fuel h' y)); auto; try lia.
    + apply footprint_pair.
    + intros. eapply shows_pair; eauto.
  - rewrite (cells_list_like _ loc) in Bf. apply (Two x (Sexp loc (RListLike y l last)) (syntax_from_host malloc fuel h x) (fun h' => syntax_from_host malloc fuel h' (Sexp loc (RListLike y l last)))); auto; try lia.
    + apply footprint_list_like.
    + constructor; auto.
    + intros. eapply shows_list_like; eauto.
  - leaf. eapply converted_mono; [|eapply node_converted with (P := fun w m => w = VBool b); auto; [lia|]].
    + intros p m (Bp & w & -> & C & V1). split; [exact Bp|]. apply shows_bool; auto.
    + apply converted_ret. intro. split; [exact I|reflexivity].
  - leaf. eapply converted_mono; [|eapply node_converted with (P := fun w m => w = VUse u); auto; [lia|]].
    + intros p m (Bp & w & -> & C & V1 & V2). split; [exact Bp|]. rewrite <- Z.add_assoc in V2. apply shows_use; auto.
    + apply converted_ret. intro. split; [split; assumption|reflexivity].
Qed.
