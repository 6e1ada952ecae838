(** * Bytes and their fields *)
From Coq Require Import NArith ZArith.
From Verif.Base Require Import Base.
From Verif.Asm Require Import Model Manual.
Local Open Scope N_scope.

Definition upto (n : nat) : list N := map N.of_nat (seq 0 n).

Lemma in_upto n x : x < N.of_nat n -> In x (upto n).
Proof. intro L. apply in_map_iff. exists (N.to_nat x). split; [lia|]. apply in_seq. lia. Qed.

(** Three fields of a byte. *)
Definition three (a b c : N) : outcome (list N) :=
  let* v := set_bits 0 a 6 8 in let* v := set_bits v b 3 6 in let* v := set_bits v c 0 3 in Ret [v].

Definition three_check (a b c : N) : bool :=
  match three a b c with
  | Ret [v] => (field v 6 2 =? a) && (field v 3 3 =? b) && (field v 0 3 =? c) && (v <? 256)
  | _ => false
  end.

Lemma three_checked : forallb (fun a => forallb (fun b => forallb (three_check a b) (upto 8)) (upto 8)) (upto 4) = true.
Proof. vm_compute. reflexivity. Qed.

Lemma three_fields a b c : a < 4 -> b < 8 -> c < 8 -> exists v, three a b c = Ret [v] /\
  field v 6 2 = a /\ field v 3 3 = b /\ field v 0 3 = c /\ v < 256.
Proof.
  intros A B C. pose proof three_checked as H. rewrite forallb_forall in H. specialize (H a (in_upto 4 a A)).
  rewrite forallb_forall in H. specialize (H b (in_upto 8 b B)). rewrite forallb_forall in H. specialize (H c (in_upto 8 c C)).
  unfold three_check in H. destruct (three a b c) as [[|v [|]]| |]; try discriminate H. exists v.
  apply andb_prop in H. destruct H as [H H4]. apply andb_prop in H. destruct H as [H H3]. apply andb_prop in H. destruct H as [H1 H2].
  apply N.eqb_eq in H1, H2, H3. apply N.ltb_lt in H4. auto.
Qed.

(** ** The REX prefix *)

Definition rex_value (w r x b : bool) : N := 64 + 8 * bit w + 4 * bit r + 2 * bit x + bit b.

Lemma rex_value_ok w r x b : is_rex (rex_value w r x b) = true /\ rex_w (rex_value w r x b) = bit w /\
  rex_r_ (rex_value w r x b) = bit r /\ rex_x_ (rex_value w r x b) = bit x /\ rex_b_ (rex_value w r x b) = bit b.
Proof. destruct w, r, x, b; vm_compute; repeat split. Qed.

Definition is_required (p : rex_prefix) : bool := match p with Required => true | _ => false end.
Definition is_denied (p : rex_prefix) : bool := match p with Denied => true | _ => false end.

(** The prefix that is written, if there is one. *)
Definition rex_of (p : rex_prefix) (w r x b : bool) : option N :=
  if (w || r || x || b || is_required p)%bool then Some (rex_value w r x b) else None.
Definition opt_list (o : option N) : list N := match o with Some v => [v] | None => [] end.

Lemma rex_byte_exact p w r x b : p <> Inconsistent -> (is_denied p && (w || r || x || b))%bool = false ->
  rex_byte p w r x b = Ret (opt_list (rex_of p w r x b)).
Proof. intros I D. destruct p; try congruence; destruct w, r, x, b; try discriminate D; reflexivity. Qed.

Lemma rex_byte_panic p w r x b : p = Inconsistent \/ (is_denied p && (w || r || x || b))%bool = true ->
  rex_byte p w r x b = Panic.
Proof. intros [->|D]; [destruct w, r, x, b; reflexivity|]. destruct p; try discriminate D. cbn in D. unfold rex_byte. now rewrite D. Qed.

(** Which prefix a register wants. *)
Definition agrees (p : rex_prefix) (rexed : bool) : Prop :=
  match p with Required => rexed = true | Denied => rexed = false | _ => True end.

Definition rexed (o : option N) : bool := match o with Some _ => true | None => false end.
Definition bits (o : option N) : N := match o with Some v => v | None => 0 end.

Lemma rex_of_bits p w r x b : rex_w (bits (rex_of p w r x b)) = bit w /\ rex_r_ (bits (rex_of p w r x b)) = bit r /\
  rex_x_ (bits (rex_of p w r x b)) = bit x /\ rex_b_ (bits (rex_of p w r x b)) = bit b.
Proof.
  unfold rex_of. destruct ((w || r || x || b || is_required p)%bool) eqn:E.
  - apply rex_value_ok.
  - destruct w, r, x, b; try discriminate E. vm_compute. repeat split.
Qed.

(** ** Numbers *)

Lemma read_le n : forall z bs, read n (le_bytes n z ++ bs) = Some (Z.to_N (z mod 256 ^ Z.of_nat n), bs).
Proof.
  induction n as [|n IH]; intros z bs; cbn [le_bytes read app].
  - rewrite Z.mod_1_r. reflexivity.
  - rewrite IH. cbn [obind]. f_equal. f_equal. rewrite Nat2Z.inj_succ, Z.pow_succ_r by lia.
    assert (P : (0 < 256 ^ Z.of_nat n)%Z) by (apply Z.pow_pos_nonneg; lia).
    rewrite Z.rem_mul_r by lia.
    pose proof (Z.mod_pos_bound z 256 ltac:(lia)). pose proof (Z.mod_pos_bound (z / 256) _ P).
    set (a := (z mod 256)%Z) in *. set (q := ((z / 256) mod 256 ^ Z.of_nat n)%Z) in *. lia.
Qed.

Lemma read_signed_le n z bs : in_range n z -> read_signed n (le_bytes n z ++ bs) = Some (z, bs).
Proof.
  unfold in_range, read_signed. intros [L U]. rewrite read_le. cbn [obind].
  assert (P : (0 < 256 ^ Z.of_nat n)%Z) by (apply Z.pow_pos_nonneg; lia). set (m := (256 ^ Z.of_nat n)%Z) in *.
  pose proof (Z.mod_pos_bound z m P) as B. rewrite Z2N.id by lia. f_equal. f_equal.
  destruct (Z.ltb_spec z 0).
  - assert (E : (z mod m = z + m)%Z) by (symmetry; apply (Zmod_unique z m (-1)); lia).
    rewrite E. destruct (Z.ltb_spec (2 * (z + m)) m); lia.
  - rewrite Z.mod_small by lia. destruct (Z.ltb_spec (2 * z) m); lia.
Qed.

Lemma read_length n : forall bs v r, read n bs = Some (v, r) -> exists p, bs = p ++ r /\ List.length p = n.
Proof.
  induction n as [|n IH]; intros bs v r H; cbn in H.
  - injection H as <- <-. exists []. auto.
  - destruct bs as [|b bs]; [discriminate H|]. destruct (read n bs) as [[u s]|] eqn:E; [|discriminate H].
    injection H as <- <-. destruct (IH _ _ _ E) as (p & -> & L). exists (b :: p). cbn. auto.
Qed.

(** ** Registers *)

Definition low (c : N) : N := N.land c 7.
Definition high (c : N) : bool := negb (N.land c 8 =? 0).

Lemma code_le r : register_code r <= 15.
Proof. destruct r; vm_compute; discriminate. Qed.
Lemma code8_le r : register_code8 r <= 15.
Proof. destruct r; vm_compute; discriminate. Qed.

Lemma code_split r : low (register_code r) + 8 * bit (high (register_code r)) = register_code r.
Proof. destruct r; reflexivity. Qed.
Lemma code_register r : register (register_code r) = Some r.
Proof. destruct r; reflexivity. Qed.
Lemma code_low r : low (register_code r) < 8.
Proof. destruct r; reflexivity. Qed.
Lemma code_high r : high (register_code r) = extended r.
Proof. destruct r; reflexivity. Qed.
Lemma code_four r : r <> Rsp -> (register_code r =? 4) = false.
Proof. destruct r; congruence || reflexivity. Qed.

(** An operand in ModRM.reg or in the opcode. *)
Record reg_good (k : kind) (o : operand) (g : reg) : Prop := {
  g_small : mod_rm_reg g < 8;
  g_prefix : reg_prefix g <> Inconsistent;
  g_view : forall x, agrees (reg_prefix g) x -> register_of k x (mod_rm_reg g + 8 * bit (rex_r g)) = Some o;
  g_needs : needs_rex o = (rex_r g || is_required (reg_prefix g))%bool;
  g_denies : denies_rex o = is_denied (reg_prefix g) }.

Definition is_reg (k : kind) : bool := match k with K64 | K32 | K16 | K8 | KX => true | _ => false end.

Lemma to_reg_good k o : is_reg k = true -> of_kind k o -> exists g, to_reg o = Ret g /\ reg_good k o g.
Proof.
  intros R F.
  destruct k; try discriminate R; destruct o as [r|r|r|r|r|a|z|z|z|z|f]; try destruct F; cbn [to_reg]; unfold reg_new, require;
    rewrite ?(proj2 (N.leb_le _ _) (code_le r)), ?(proj2 (N.leb_le _ _) (code8_le r)); eexists; (split; [reflexivity|]);
    (split; cbn [mod_rm_reg rex_r reg_prefix]; [now destruct r|now destruct r| |now destruct r|now destruct r]);
    intros [|] A; destruct r; try discriminate A; reflexivity.
Qed.

(** ** ModRM.rm *)

Record rm_good (k : kind) (o : operand) (r : rm) : Prop := {
  m_mod : mod_rm_mod r < 4;
  m_rm : mod_rm_rm r < 8;
  m_prefix : rm_prefix r <> Inconsistent;
  m_needs : needs_rex o = (rex_x r || rex_b r || is_required (rm_prefix r))%bool;
  m_denies : denies_rex o = is_denied (rm_prefix r);
  m_bytes : exists sib ds f, sib_byte r = Ret sib /\ disp_bytes r = Ret ds /\
    (forall x b bs, field b 6 2 = mod_rm_mod r -> field b 0 3 = mod_rm_rm r ->
       rex_x_ x = bit (rex_x r) -> rex_b_ x = bit (rex_b r) -> modrm_form x b (sib ++ bs) = Some (f, bs)) /\
    (forall e bs, agrees (rm_prefix r) e -> rm_view k e f (ds ++ bs) = Some (view_of o, bs)) }.

Lemma rm_register k o : is_reg k = true -> of_kind k o -> exists r, to_rm o = Ret r /\ rm_good k o r.
Proof.
  intros R F.
  destruct k; try discriminate R; destruct o as [r|r|r|r|r|a|z|z|z|z|f]; try destruct F; cbn [to_rm]; unfold rm_new, require;
    rewrite ?(proj2 (N.leb_le _ _) (code_le r)), ?(proj2 (N.leb_le _ _) (code8_le r));
    (eexists; split; [reflexivity|]);
    (split; [reflexivity|now destruct r|now destruct r|now destruct r|now destruct r|]);
    exists [], [];
    (eexists; split; [reflexivity|split; [reflexivity|split]];
      [intros x b bs M L X B; unfold modrm_form; rewrite M, L, B; reflexivity|]);
    cbn [rm_view mod_rm_rm rex_b];
    intros [|] bs A; destruct r; try discriminate A; reflexivity.
Qed.

Lemma sib_of s i b : scale_bits s < 4 -> i < 8 -> b < 8 -> exists v, three (scale_bits s) i b = Ret [v] /\
  field v 6 2 = scale_bits s /\ field v 3 3 = i /\ field v 0 3 = b.
Proof. intros A B C. destruct (three_fields _ _ _ A B C) as (v & H & H1 & H2 & H3 & _). exists v. auto. Qed.

Lemma scale_small s : scale_bits s < 4.
Proof. destruct s; reflexivity. Qed.
Lemma scale_factor s : 2 ^ scale_bits s = factor s.
Proof. destruct s; reflexivity. Qed.

(** A SIB byte for a base and an index. *)
Lemma sib_index_base s i b md x bs v : field v 6 2 = scale_bits s -> field v 3 3 = low (register_code i) ->
  field v 0 3 = low (register_code b) -> i <> Rsp ->
  rex_x_ x = bit (high (register_code i)) -> rex_b_ x = bit (high (register_code b)) ->
  md < 3 -> (low (register_code b) = 5 -> md <> 0) ->
  forall m, field m 6 2 = md -> field m 0 3 = 4 ->
  modrm_form x m ([v] ++ bs) = Some (FMem (RegBase b) (Some (i, factor s)) (disp_after md), bs).
Proof.
  intros F1 F2 F3 I X B M Z m M1 M2. unfold modrm_form. rewrite M1, M2.
  replace (md =? 3) with false by (symmetry; apply N.eqb_neq; lia). cbn [app N.eqb Pos.eqb].
  rewrite F2, X, code_split, (code_four i I), code_register. cbn [obind].
  rewrite F1, F3, B, code_split, code_register, scale_factor. cbn [obind].
  destruct (low (register_code b) =? 5) eqn:E; [|reflexivity]. apply N.eqb_eq in E.
  replace (md =? 0) with false by (symmetry; apply N.eqb_neq; auto). reflexivity.
Qed.

(** A SIB byte for a base alone. *)
Lemma sib_base_only b md x bs v : field v 3 3 = 4 -> field v 0 3 = low (register_code b) ->
  rex_x_ x = 0 -> rex_b_ x = bit (high (register_code b)) ->
  md < 3 -> (low (register_code b) = 5 -> md <> 0) ->
  forall m, field m 6 2 = md -> field m 0 3 = 4 ->
  modrm_form x m ([v] ++ bs) = Some (FMem (RegBase b) None (disp_after md), bs).
Proof.
  intros F2 F3 X B M Z m M1 M2. unfold modrm_form. rewrite M1, M2.
  replace (md =? 3) with false by (symmetry; apply N.eqb_neq; lia). cbn [app N.eqb Pos.eqb].
  rewrite F2, X. cbn [N.mul N.add N.eqb Pos.eqb obind].
  rewrite F3, B, code_split, code_register. cbn [obind].
  destruct (low (register_code b) =? 5) eqn:E; [|reflexivity]. apply N.eqb_eq in E.
  replace (md =? 0) with false by (symmetry; apply N.eqb_neq; auto). reflexivity.
Qed.

(** No SIB byte: a base alone. *)
Lemma no_sib b md x bs : low (register_code b) <> 4 -> rex_b_ x = bit (high (register_code b)) ->
  md < 3 -> (low (register_code b) = 5 -> md <> 0) ->
  forall m, field m 6 2 = md -> field m 0 3 = low (register_code b) ->
  modrm_form x m bs = Some (FMem (RegBase b) None (disp_after md), bs).
Proof.
  intros F B M Z m M1 M2. unfold modrm_form. rewrite M1, M2.
  replace (md =? 3) with false by (symmetry; apply N.eqb_neq; lia).
  rewrite (proj2 (N.eqb_neq _ _) F), B, code_split, code_register. cbn [obind].
  destruct (low (register_code b) =? 5) eqn:E; [|reflexivity]. apply N.eqb_eq in E.
  replace (md =? 0) with false by (symmetry; apply N.eqb_neq; auto). reflexivity.
Qed.

Lemma disp_view d b i bs : disp_ok d ->
  rm_view KMem false (FMem b i (disp_after (disp_mod d))) (disp_bytes_of d ++ bs) = Some (VMem (Mem b i (amount d)), bs) /\
  rm_view KMem true (FMem b i (disp_after (disp_mod d))) (disp_bytes_of d ++ bs) = Some (VMem (Mem b i (amount d)), bs).
Proof.
  intro D. destruct d as [z|z]; cbn [disp_mod disp_after N.eqb Pos.eqb rm_view disp_bytes_of amount];
    rewrite read_signed_le by exact D; split; reflexivity.
Qed.

Lemma disp_mod_ok d : disp_mod d < 3 /\ disp_mod d <> 0 /\ disp_mod d <= 3 /\ disp_mod d < 4 /\ disp_mod d <> 3.
Proof. destruct d; cbn; lia. Qed.

Lemma disp_size_mod d r : mod_rm_mod r = disp_mod d -> disp_size r = Some (disp_len d).
Proof. intro E. unfold disp_size. rewrite E. destruct d; reflexivity. Qed.

(** Addresses once encoded. *)
Definition encoded (a : address) : rm :=
  match a with
  | AAbs d => Rm 0 4 false false None (Some 4) (Some 5) (Some (Disp32 d)) NotRequired
  | AAbsIndex d i s => Rm 0 4 (high (register_code i)) false (Some s) (Some (low (register_code i))) (Some 5) (Some (Disp32 d)) NotRequired
  | ARip => Rm 0 5 false false None None None (Some (Disp32 0)) NotRequired
  | ARipDisp d => Rm 0 5 false false None None None (Some (Disp32 d)) NotRequired
  | ABase b =>
      let x := high (register_code b) in
      if low (register_code b) =? 4 then Rm 0 4 false x None (Some 4) (Some (low (register_code b))) None NotRequired
      else if low (register_code b) =? 5 then Rm 1 (low (register_code b)) false x None None None (Some (Disp8 0)) NotRequired
      else Rm 0 (low (register_code b)) false x None None None None NotRequired
  | ABaseDisp b d =>
      let x := high (register_code b) in
      if low (register_code b) =? 4 then Rm (disp_mod d) 4 false x None (Some 4) (Some (low (register_code b))) (Some d) NotRequired
      else Rm (disp_mod d) (low (register_code b)) false x None None None (Some d) NotRequired
  | ABaseIndex b i s =>
      if low (register_code b) =? 5 then
        Rm 1 4 (high (register_code i)) (high (register_code b)) (Some s) (Some (low (register_code i)))
          (Some (low (register_code b))) (Some (Disp8 0)) NotRequired
      else Rm 0 4 (high (register_code i)) (high (register_code b)) (Some s) (Some (low (register_code i)))
          (Some (low (register_code b))) None NotRequired
  | ABaseDispIndex b d i s =>
      Rm (disp_mod d) 4 (high (register_code i)) (high (register_code b)) (Some s) (Some (low (register_code i)))
          (Some (low (register_code b))) (Some d) NotRequired
  end.

Lemma encode_exact a : negative (OMem a) = false -> encode_address a = Ret (encoded a).
Proof.
  intro Ng. destruct a as [d|d i s| |d|b|b d|b i s|b d i s].
  - cbn in Ng. cbn [encode_address]. unfold require at 1.
    replace (0 <=? d)%Z with true by (symmetry; apply Z.leb_le; apply Z.ltb_ge in Ng; exact Ng). reflexivity.
  - destruct i; reflexivity.
  - reflexivity.
  - reflexivity.
  - destruct b; reflexivity.
  - destruct b, d; reflexivity.
  - destruct b, i; reflexivity.
  - destruct d, b, i; reflexivity.
Qed.

Lemma read4 d bs : in_range 4 d -> forall e b i, rm_view KMem e (FMem b i 4) (le_bytes 4 d ++ bs) = Some (VMem (Mem b i d), bs).
Proof. intros D e b i. cbn [rm_view]. now rewrite read_signed_le. Qed.

Lemma three_sib r : sib_present r = true ->
  sib_byte r = three (match sib_scale r with Some s => scale_bits s | None => 0 end)
    (match sib_index r with Some i => i | None => 0 end) (match sib_base r with Some b => b | None => 0 end).
Proof. unfold sib_byte. now intros ->. Qed.

Lemma rm_memory a : address_ok a -> negative (OMem a) = false -> exists r, to_rm (OMem a) = Ret r /\ rm_good KMem (OMem a) r.
Proof.
  intros A Ng. cbn [to_rm]. rewrite (encode_exact a Ng). exists (encoded a). split; [reflexivity|]. clear Ng.
  destruct a as [d|d i s| |d|b|b d|b i s|b d i s]; cbn [address_ok] in A.
  - split; try reflexivity; try discriminate. exists [37], (le_bytes 4 d). eexists. split; [reflexivity|]. split; [reflexivity|]. split.
    + intros x b bs M L X B. unfold modrm_form. rewrite M, L. cbn [encoded rex_x] in X. cbn. rewrite X. reflexivity.
    + intros e bs _. now apply read4.
  - destruct A as [A I]. destruct (sib_of s (low (register_code i)) 5 (scale_small s) (code_low i) ltac:(lia)) as (v & V & F1 & F2 & F3).
    split; cbn [encoded mod_rm_mod mod_rm_rm rex_x rex_b rm_prefix]; try reflexivity; try discriminate.
    + cbn. rewrite !orb_false_r. symmetry. apply code_high.
    + exists [v], (le_bytes 4 d). eexists. split; [exact V|]. split; [reflexivity|]. split.
      * intros x b bs M L X B. unfold modrm_form. rewrite M, L. cbn [N.eqb Pos.eqb app].
        rewrite F2, X, code_split, (code_four i I), code_register. cbn [obind].
        rewrite F3, F1, scale_factor. reflexivity.
      * intros e bs _. now apply read4.
  - split; try reflexivity; try discriminate. exists [], (le_bytes 4 0). eexists. split; [reflexivity|]. split; [reflexivity|]. split.
    + intros x b bs M L X B. unfold modrm_form. rewrite M, L. reflexivity.
    + intros e bs _. apply read4. unfold in_range. lia.
  - split; try reflexivity; try discriminate. exists [], (le_bytes 4 d). eexists. split; [reflexivity|]. split; [reflexivity|]. split.
    + intros x b bs M L X B. unfold modrm_form. rewrite M, L. reflexivity.
    + intros e bs _. now apply read4.
  - (* base *)
    destruct b; (split; [reflexivity|reflexivity|discriminate|reflexivity|reflexivity|]);
      (eexists _, _, _; split; [reflexivity|]; split; [reflexivity|]; split);
      try (intros x m bs M L X B; unfold modrm_form; rewrite M, L; cbn [encoded rex_x rex_b] in X, B; cbn; rewrite ?X, B; reflexivity);
      intros e bs _; cbn; reflexivity.
  - (* base and displacement *)
    destruct (disp_mod_ok d) as (D1 & D2 & D3 & D4 & D5). cbn [encoded].
    assert (Vw : forall e bs, rm_view KMem e (FMem (RegBase b) None (disp_after (disp_mod d))) (disp_bytes_of d ++ bs) =
      Some (view_of (OMem (ABaseDisp b d)), bs)) by (intros e bs; destruct (disp_view d (RegBase b) None bs A), e; assumption).
    destruct (low (register_code b) =? 4) eqn:E4.
    + apply N.eqb_eq in E4.
      destruct (three_fields 0 4 (low (register_code b)) ltac:(lia) ltac:(lia) (code_low b)) as (v & V & _ & F2 & F3 & _).
      split; cbn [mod_rm_mod mod_rm_rm rex_x rex_b rm_prefix]; try reflexivity; try discriminate; try assumption.
      * cbn. rewrite !orb_false_r. symmetry. apply code_high.
      * exists [v], (disp_bytes_of d). eexists. split; [|split; [|split]].
        -- rewrite three_sib; [exact V|]. unfold sib_present. cbn. now rewrite (proj2 (N.eqb_neq _ _) D5).
        -- unfold disp_bytes, require. rewrite (disp_size_mod d) by reflexivity. cbn. now rewrite N.eqb_refl.
        -- intros x m bs M L X B. apply (sib_base_only b (disp_mod d)); auto.
        -- intros e bs _. apply Vw.
    + apply N.eqb_neq in E4.
      split; cbn [mod_rm_mod mod_rm_rm rex_x rex_b rm_prefix]; try reflexivity; try discriminate; try assumption.
      * apply code_low.
      * cbn. rewrite !orb_false_r. symmetry. apply code_high.
      * exists [], (disp_bytes_of d). eexists. split; [|split; [|split]].
        -- unfold sib_byte, sib_present. cbn [mod_rm_mod mod_rm_rm]. rewrite (proj2 (N.eqb_neq _ _) E4), andb_false_r. reflexivity.
        -- unfold disp_bytes, require. rewrite (disp_size_mod d) by reflexivity. cbn. now rewrite N.eqb_refl.
        -- intros x m bs M L X B. apply (no_sib b (disp_mod d)); auto.
        -- intros e bs _. apply Vw.
  - (* base and index *)
    cbn [encoded].
    destruct (sib_of s (low (register_code i)) (low (register_code b)) (scale_small s) (code_low i) (code_low b)) as (v & V & F1 & F2 & F3).
    assert (X1 : needs_rex (OMem (ABaseIndex b i s)) = (high (register_code i) || high (register_code b) || false)%bool)
      by (cbn; rewrite orb_false_r, !code_high; apply orb_comm).
    destruct (low (register_code b) =? 5) eqn:E5.
    + split; cbn [mod_rm_mod mod_rm_rm rex_x rex_b rm_prefix]; try reflexivity; try discriminate; try assumption.
      exists [v], [0]. eexists. split; [exact V|]. split; [reflexivity|split].
      * intros x m bs M1 L X B. apply (sib_index_base s i b 1); auto; lia.
      * intros e bs _. reflexivity.
    + split; cbn [mod_rm_mod mod_rm_rm rex_x rex_b rm_prefix]; try reflexivity; try discriminate; try assumption.
      apply N.eqb_neq in E5.
      exists [v], []. eexists. split; [exact V|]. split; [|split].
      * unfold disp_bytes, disp_size, require. cbn [mod_rm_mod mod_rm_rm N.eqb Pos.eqb sib_present negb andb rex_b sib_base disp option_map].
        rewrite (proj2 (N.eqb_neq _ _) E5), andb_false_r. reflexivity.
      * intros x m bs M1 L X B. apply (sib_index_base s i b 0); auto; try lia; try contradiction.
      * intros e bs _. reflexivity.
  - (* base, displacement and index *)
    destruct A as [A I]. destruct (disp_mod_ok d) as (D1 & D2 & D3 & D4 & D5). cbn [encoded].
    destruct (sib_of s (low (register_code i)) (low (register_code b)) (scale_small s) (code_low i) (code_low b)) as (v & V & F1 & F2 & F3).
    split; cbn [mod_rm_mod mod_rm_rm rex_x rex_b rm_prefix]; try reflexivity; try discriminate; try assumption.
    + cbn; rewrite orb_false_r, !code_high; apply orb_comm.
    + exists [v], (disp_bytes_of d). eexists. split; [|split; [|split]].
      * rewrite three_sib; [exact V|]. unfold sib_present. cbn. now rewrite (proj2 (N.eqb_neq _ _) D5).
      * unfold disp_bytes, require. rewrite (disp_size_mod d) by reflexivity. cbn. now rewrite N.eqb_refl.
      * intros x m bs M1 L X B. apply (sib_index_base s i b (disp_mod d)); auto.
      * intros e bs _. destruct (disp_view d (RegBase b) (Some (i, factor s)) bs A), e; assumption.
Qed.

Lemma rm_negative a : negative (OMem a) = true -> to_rm (OMem a) = Panic.
Proof.
  destruct a; try discriminate. cbn. intro H. unfold require. destruct (Z.leb_spec 0 d); [|reflexivity].
  apply Z.ltb_lt in H. lia.
Qed.
