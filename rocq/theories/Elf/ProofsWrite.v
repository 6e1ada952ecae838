(** String tables, and files of sections. *)
From Coq Require Import NArith ZArith Lia.
From Verif.Base Require Import Base.
From Verif.Asm Require Model.
From Verif.Obj Require Import Model Proofs.
From Verif.Elf Require Import Model Spec ProofsRead.
Import Asm.Model(le_bytes).
Local Open Scope string_scope.
Local Open Scope Z_scope.
Local Open Scope list_scope.

(** ** String tables *)

Definition good (t : strtab) : Prop := forall s i, find_index s (st_map t) = Some i -> get_string (st_payload t) i = Some s.

Lemma good_new : good new_strtab.
Proof.
  intros s i. cbn. destruct (s =? "")%string eqn:E; [|discriminate]. intro H. injection H as <-.
  apply String.eqb_eq in E as ->. reflexivity.
Qed.

Lemma get_good s t t' i : good t -> len (st_payload t) < 2 ^ 32 -> strtab_get s t = Ret (t', i) ->
  good t' /\ get_string (st_payload t') i = Some s /\ (exists q, st_payload t' = st_payload t ++ q) /\
  len (st_payload t') <= len (st_payload t) + name_bytes s.
Proof.
  intros G L. unfold strtab_get. destruct (find_index s (st_map t)) as [j|] eqn:F.
  - intro E. injection E as <- <-. split; [|split; [|split]]; auto.
    + exists []. now rewrite app_nil_r.
    + unfold name_bytes. lia.
  - destruct (existsb (N.eqb 0) (bytes s)) eqn:Z0; [discriminate|]. intro E. injection E as <- <-.
    change (size (st_payload t)) with (len (st_payload t)). pose proof (len_nonneg (st_payload t)) as Nn.
    rewrite Z.mod_small by lia. cbn [st_payload st_map].
    pose proof (get_string_last (st_payload t) s Z0) as S0.
    split; [|split; [|split]]; auto.
    + intros s' i. cbn [st_payload st_map find_index]. destruct (s' =? s)%string eqn:Q.
      * intro H. injection H as <-. apply String.eqb_eq in Q as ->. auto.
      * intro H. apply get_string_app. now apply G.
    + eexists; reflexivity.
    + rewrite !len_app, bytes_length. unfold name_bytes. replace (len [0%N]) with 1 by reflexivity. lia.
Qed.

Lemma get_total s t : nul_free s -> exists t' i, strtab_get s t = Ret (t', i).
Proof.
  intro F. unfold strtab_get. destruct (find_index s (st_map t)) as [j|]; [eauto|].
  rewrite nul_free_bytes by auto. eauto.
Qed.

(** ** Names of sections *)

Lemma names_good ss t : good t -> Forall (fun s => nul_free (c_name s)) ss ->
  len (st_payload t) + total (map (fun s => name_bytes (c_name s)) ss) < 2 ^ 32 ->
  exists t' is, section_names ss t = Ret (t', is) /\ good t' /\
    Forall2 (fun s i => get_string (st_payload t') i = Some (c_name s)) ss is /\
    (exists q, st_payload t' = st_payload t ++ q) /\
    len (st_payload t') <= len (st_payload t) + total (map (fun s => name_bytes (c_name s)) ss).
Proof.
  revert t. induction ss as [|s ss IH]; intros t G F L.
  - exists t, []. cbn. refine (conj eq_refl (conj G (conj _ (conj _ _)))); [constructor | exists []; now rewrite app_nil_r | lia].
  - cbn [map total fold_right] in L. fold (total (map (fun s => name_bytes (c_name s)) ss)) in L.
    assert (T0 : 0 <= total (map (fun s => name_bytes (c_name s)) ss)).
    { clear. induction ss; cbn [map total fold_right]; [lia|]. fold (total (map (fun s => name_bytes (c_name s)) ss)). unfold name_bytes in *. lia. }
    inversion F as [|? ? F1 F2]; subst.
    destruct (get_total (c_name s) t F1) as (t1 & i & E1).
    assert (N0 : 0 <= name_bytes (c_name s)) by (unfold name_bytes; lia).
    destruct (get_good _ _ _ _ G ltac:(lia) E1) as (G1 & S1 & (q1 & Q1) & L1).
    destruct (IH t1 G1 F2 ltac:(lia)) as (t2 & is & E2 & G2 & S2 & (q2 & Q2) & L2).
    exists t2, (i :: is). cbn [section_names]. rewrite E1. cbn [bind fst snd]. rewrite E2. cbn [bind fst snd].
    refine (conj eq_refl (conj G2 (conj _ (conj _ _)))).
    + constructor; auto. rewrite Q2. now apply get_string_app.
    + exists (q1 ++ q2). now rewrite Q2, Q1, app_assoc.
    + cbn [map total fold_right]. fold (total (map (fun s => name_bytes (c_name s)) ss)). lia.
Qed.

(** ** Headers of sections *)

Lemma header_length s o n : len (section_header s o n) = 64.
Proof. unfold section_header. now rewrite !len_app, !len_le_bytes. Qed.

Lemma header_read pre post names s o n :
  shaped s -> in_range s -> 0 <= o < 2 ^ 64 -> 0 <= n < 2 ^ 32 -> get_string names n = Some (c_name s) ->
  (forall l, c_body s = Bytes l -> slice (pre ++ section_header s o n ++ post) o (len l) = Some l) ->
  read_header (pre ++ section_header s o n ++ post) names (len pre) = Some (header_of s).
Proof.
  intros Sh (R1 & R2 & R3 & R4 & R5 & R6) Ro Rn Nm Bs. unfold read_header.
  set (f := pre ++ section_header s o n ++ post) in *.
  assert (At : forall m k, 0 <= k -> get m f (len pre + k) = get m (section_header s o n ++ post) k).
  { intros m k K. unfold f. rewrite get_skip by lia. f_equal. lia. }
  replace (get 4 f (len pre)) with (get 4 f (len pre + 0)) by (f_equal; lia).
  rewrite !At by lia. unfold section_header. rewrite <- !app_assoc.
  rewrite get_here by (auto; lia). cbn [opt_bind]. rewrite Nm. cbn [opt_bind].
  do 1 (rewrite get_skip by (rewrite len_le_bytes; lia)). rewrite len_le_bytes.
  rewrite get_here by (auto; destruct (c_type s); cbn; lia). cbn [opt_bind].
  field. rewrite get_here by (auto; lia). cbn [opt_bind].
  field. rewrite get_here by (auto; lia). cbn [opt_bind].
  field. rewrite get_here by (auto; lia). cbn [opt_bind].
  field. rewrite get_here by (auto; lia). cbn [opt_bind].
  field. rewrite get_here by (auto; lia). cbn [opt_bind].
  field. rewrite get_here by (auto; lia). cbn [opt_bind].
  field. rewrite get_here by (auto; lia). cbn [opt_bind].
  unfold shaped in Sh. unfold header_of, body_bytes, size_in_memory.
  destruct (c_type s) eqn:T; [|destruct Sh as [x Sh]..]; rewrite Sh in *; cbn -[slice f];
    try (change (size x) with (len x)); rewrite ?(Bs _ eq_refl); reflexivity.
Qed.

(** ** Files *)

Lemma section_names_length ss t r : section_names ss t = Ret r -> List.length (snd r) = List.length ss.
Proof.
  revert t r. induction ss as [|s ss IH]; intros t r; cbn [section_names]; [intro E; now injection E as <-|].
  destruct (strtab_get (c_name s) t) as [r1| |]; cbn [bind]; try discriminate.
  destruct (section_names ss (fst r1)) as [r2| |] eqn:E2; cbn [bind]; try discriminate.
  intro E. injection E as <-. cbn [snd List.length]. f_equal. now apply (IH _ _ E2).
Qed.

Lemma offsets_length k ss : List.length (section_offsets k ss) = List.length ss.
Proof. revert k. induction ss as [|s ss IH]; intro k; cbn [section_offsets List.length]; auto. Qed.

Lemma bytes_cons s ss : section_bytes (s :: ss) = body_bytes (c_body s) ++ section_bytes ss.
Proof. reflexivity. Qed.

(** The bytes of each section are at its offset. *)
Lemma offsets_spec ss : forall k i s, nth_error ss i = Some s ->
  exists a b, section_bytes ss = a ++ body_bytes (c_body s) ++ b /\ nth_error (section_offsets k ss) i = Some (k + len a).
Proof.
  induction ss as [|s0 ss IH]; intros k i s E; [now destruct i|].
  destruct i as [|i]; cbn [nth_error] in E.
  - injection E as ->. exists [], (section_bytes ss). cbn [nth_error section_offsets]. split; [apply bytes_cons | f_equal; cbn; lia].
  - cbn [section_offsets nth_error].
    destruct (IH (match c_body s0 with Bytes l => k + size l | Size _ => k end) i s E) as (a & b & F & O).
    exists (body_bytes (c_body s0) ++ a), b. rewrite bytes_cons, F, O. split; [now rewrite app_assoc|].
    f_equal. rewrite len_app. destruct (c_body s0); cbn [body_bytes]; [change (size l) with (len l)|]; cbn; lia.
Qed.

Lemma headers_nth ss : forall os ns i s o n, nth_error ss i = Some s -> nth_error os i = Some o -> nth_error ns i = Some n ->
  List.length os = List.length ss -> List.length ns = List.length ss ->
  exists a b, section_headers ss os ns = a ++ section_header s o n ++ b /\ len a = Z.of_nat i * 64.
Proof.
  induction ss as [|s0 ss IH]; intros os ns i s o n E1 E2 E3 L1 L2; [now destruct i|].
  destruct os as [|o0 os]; [discriminate|]. destruct ns as [|n0 ns]; [discriminate|]. cbn [section_headers].
  destruct i as [|i]; cbn [nth_error] in *.
  - injection E1 as ->. injection E2 as ->. injection E3 as ->. exists []. eexists. split; [reflexivity | cbn; lia].
  - destruct (IH os ns i s o n E1 E2 E3 ltac:(cbn in *; lia) ltac:(cbn in *; lia)) as (a & b & F & L).
    exists (section_header s0 o0 n0 ++ a), b. rewrite F, <- app_assoc. split; auto. rewrite len_app, header_length, L. lia.
Qed.

Lemma total_size ss : fold_right (fun s a => body_size true (c_body s) + a) 0 ss = len (section_bytes ss).
Proof.
  induction ss as [|s ss IH]; [reflexivity|]. cbn [fold_right]. rewrite IH, bytes_cons, len_app.
  destruct (c_body s); reflexivity.
Qed.

Lemma file_header_length a b c : len (file_header a b c) = 64.
Proof. unfold file_header. rewrite !len_app, !len_le_bytes. reflexivity. Qed.

Lemma get_nonneg names n x : get_string names n = Some x -> 0 <= n < len names.
Proof.
  unfold get_string. destruct ((0 <=? n) && (n <? len names)) eqn:B; [|discriminate]. intros _.
  apply andb_prop in B as [B1 B2]. apply Z.leb_le in B1. apply Z.ltb_lt in B2. lia.
Qed.

Lemma write_read_sections ss :
  Forall section_ok ss -> 1 + total (map (fun s => name_bytes (c_name s)) ss) + 10 < 2 ^ 32 ->
  Z.of_nat (List.length ss) < 2 ^ 16 - 1 -> len (section_bytes ss) < 2 ^ 64 - 2 ^ 33 ->
  exists f t, write ss = Ret f /\ read_sections f = Some (map header_of (ss ++ [strtab_section ".shstrtab" t])) /\ len (st_payload t) < 2 ^ 32.
Proof.
  intros Ok Nm Cn Sz. unfold write, add_shstrtab.
  destruct (names_good ss new_strtab good_new) as (t1 & is & E1 & G1 & S1 & _ & L1).
  { eapply Forall_impl; [|exact Ok]. now intros s (? & _). }
  { cbn [st_payload new_strtab]. change (len [0%N]) with 1. lia. }
  change (len (st_payload new_strtab)) with 1 in L1.
  assert (Nf : nul_free ".shstrtab") by (unfold nul_free; cbn; intuition discriminate).
  destruct (get_total ".shstrtab" t1 Nf) as (t2 & j & E2).
  destruct (get_good _ _ _ _ G1 ltac:(lia) E2) as (G2 & S2 & (q & Q) & L2).
  change (name_bytes ".shstrtab") with 10 in L2.
  assert (T2 : len (st_payload t2) < 2 ^ 32) by lia.
  pose proof (section_names_length _ _ _ E1) as Ln. cbn [snd] in Ln.
  rewrite E1. cbn [bind fst snd]. rewrite E2. cbn [bind fst snd add_section].
  set (sn := strtab_section ".shstrtab" t2). set (ss' := ss ++ [sn]). set (names := is ++ [j]).
  rewrite total_size.
  set (tot := header_size + len (section_bytes ss')).
  set (al := (8 - tot mod 8) mod 8). set (shoff := tot + al).
  set (ix := Z.of_nat (List.length ss) mod 2 ^ 16).
  assert (Ix : ix = Z.of_nat (List.length ss)) by (unfold ix; rewrite Z.mod_small; lia).
  set (B := section_bytes ss'). set (P := repeat 0%N (Z.to_nat al)). set (T := section_headers _ _ _).
  set (H := file_header _ _ _). set (f := H ++ B ++ P ++ T).
  exists f, t2. refine (conj eq_refl (conj _ T2)).
  assert (Al : 0 <= al < 8) by (unfold al; apply Z.mod_pos_bound; lia).
  assert (LB : len B = len (section_bytes ss) + len (st_payload t2)).
  { unfold B, ss', section_bytes. rewrite flat_map_app, len_app. cbn [flat_map sn strtab_section c_body]. now rewrite app_nil_r. }
  assert (LP : len P = al) by (unfold P, len; rewrite repeat_length; lia).
  assert (LH : len H = 64) by (unfold H; apply file_header_length).
  pose proof (len_nonneg (section_bytes ss)) as N1. pose proof (len_nonneg (st_payload t2)) as N2.
  assert (So : shoff = 64 + len B + al) by (unfold shoff, tot, header_size; fold B; lia).
  assert (Sb : 0 <= shoff < 2 ^ 64) by lia.
  assert (Sm : shoff mod 8 = 0).
  { unfold shoff, al. clear. rewrite Z.add_mod_idemp_r by lia.
    replace (tot + (8 - tot mod 8)) with ((tot - tot mod 8) + 1 * 8) by lia.
    rewrite Z.mod_add by lia. rewrite Zminus_mod_idemp_r. now rewrite Z.sub_diag. }
  assert (Ln' : List.length ss' = S (List.length ss)) by (unfold ss'; rewrite app_length; cbn; lia).
  (* every header *)
  assert (Ok' : Forall section_ok ss').
  { apply Forall_app. split; auto. constructor; [|constructor]. split; [exact Nf|]. split; [now eexists|].
    unfold in_range. cbn [sn strtab_section c_flags c_body c_link c_info c_align c_entsize size_in_memory].
    change (size (st_payload t2)) with (len (st_payload t2)). lia. }
  assert (Sn : Forall2 (fun s i => get_string (st_payload t2) i = Some (c_name s)) ss' names).
  { apply Forall2_app; [|now repeat constructor].
    clear -S1 Q. induction S1; constructor; auto. rewrite Q. now apply get_string_app. }
  assert (Each : forall i s, nth_error ss' i = Some s -> exists o n, 
    nth_error (section_offsets header_size ss') i = Some o /\ nth_error names i = Some n /\
    (exists a b, f = a ++ section_header s o n ++ b /\ len a = shoff + Z.of_nat i * 64) /\
    0 <= o < 2 ^ 64 /\ get_string (st_payload t2) n = Some (c_name s) /\
    (forall l, c_body s = Bytes l -> slice f o (len l) = Some l)).
  { intros i s E. destruct (offsets_spec ss' header_size i s E) as (a & b & F & O).
    assert (exists n, nth_error names i = Some n /\ get_string (st_payload t2) n = Some (c_name s)) as (n & En & Gn).
    { clear -Sn E. revert i E. induction Sn as [|x y l l' R Sn IH]; intros i E; [now destruct i|].
      destruct i; cbn in *; [injection E as <-; eauto | now apply IH]. }
    exists (header_size + len a), n. split; [exact O|]. split; [exact En|]. split.
    - destruct (headers_nth ss' (section_offsets header_size ss') names i s (header_size + len a) n E O En) as (a' & b' & F' & L').
      + apply offsets_length.
      + unfold names, ss'. rewrite !app_length, Ln. reflexivity.
      + exists (H ++ B ++ P ++ a'), b'. split.
        * unfold f, T. rewrite F'. now rewrite <- !app_assoc.
        * rewrite !len_app. lia.
    - pose proof (len_nonneg a) as Na. assert (La : len a <= len B).
      { unfold B. rewrite F, len_app. pose proof (len_nonneg (body_bytes (c_body s) ++ b)). lia. }
      split; [unfold header_size; lia|]. split; [exact Gn|]. intros l Bl.
      unfold f. rewrite slice_skip by (unfold header_size; lia). unfold B. rewrite F, Bl, LH.
      replace (header_size + len a - 64) with (len a) by (unfold header_size; lia).
      rewrite <- !app_assoc. rewrite slice_skip by lia. cbn [body_bytes]. rewrite Z.sub_diag. now apply slice_here. }
  set (ident := [127; 69; 76; 70; 2; 1; 1; 0; 0; 0; 0; 0; 0; 0; 0; 0]%N).
  assert (Fe : f = ident ++ le_bytes 2 1 ++ le_bytes 2 62 ++ le_bytes 4 1 ++ le_bytes 8 0 ++ le_bytes 8 0 ++ le_bytes 8 shoff ++
    le_bytes 4 0 ++ le_bytes 2 header_size ++ le_bytes 2 0 ++ le_bytes 2 0 ++ le_bytes 2 64 ++
    le_bytes 2 (Z.of_nat (List.length ss')) ++ le_bytes 2 ix ++ (B ++ P ++ T)).
  { unfold f, H, file_header. rewrite <- !app_assoc. reflexivity. }
  assert (I7 : slice f 0 7 = Some [127; 69; 76; 70; 2; 1; 1]%N).
  { rewrite Fe. change ident with ([127; 69; 76; 70; 2; 1; 1]%N ++ [0; 0; 0; 0; 0; 0; 0; 0; 0]%N).
    rewrite <- app_assoc. now apply slice_here. }
  assert (Li : len ident = 16) by reflexivity. clearbody ident.
  assert (G16 : get 2 f 16 = Some 1) by (rewrite Fe, get_skip, Li by lia; field; apply get_here; auto; lia).
  assert (G18 : get 2 f 18 = Some 62) by (rewrite Fe, get_skip, Li by lia; field; apply get_here; auto; lia).
  assert (G20 : get 4 f 20 = Some 1) by (rewrite Fe, get_skip, Li by lia; field; apply get_here; auto; lia).
  assert (G40 : get 8 f 40 = Some shoff) by (rewrite Fe, get_skip, Li by lia; field; apply get_here; auto; lia).
  assert (G52 : get 2 f 52 = Some 64) by (rewrite Fe, get_skip, Li by lia; field; apply get_here; auto; unfold header_size; lia).
  assert (G56 : get 2 f 56 = Some 0) by (rewrite Fe, get_skip, Li by lia; field; apply get_here; auto; lia).
  assert (G58 : get 2 f 58 = Some 64) by (rewrite Fe, get_skip, Li by lia; field; apply get_here; auto; lia).
  assert (G60 : get 2 f 60 = Some (Z.of_nat (List.length ss')))
    by (rewrite Fe, get_skip, Li by lia; field; apply get_here; auto; lia).
  assert (G62 : get 2 f 62 = Some ix) by (rewrite Fe, get_skip, Li by lia; field; apply get_here; auto; lia).
  clear Fe. clearbody f.
  unfold read_sections. rewrite I7. cbn [opt_bind]. destruct (list_eq_dec _ _ _) as [_|Ne]; [|now contradiction Ne].
  cbn [opt_bind check]. rewrite G16, G18, G20, G40, G52, G56, G58, G60, G62. cbn [opt_bind].
  rewrite Sm, Ix. replace (Z.of_nat (List.length ss) <? Z.of_nat (List.length ss')) with true by (symmetry; apply Z.ltb_lt; lia).
  cbn [Z.eqb andb check opt_bind Pos.eqb].
  destruct (Each (List.length ss) sn) as (o & n & _ & _ & (a & b & F & L) & Ro & _ & Sl).
  { unfold ss'. rewrite nth_error_app2 by lia. now rewrite Nat.sub_diag. }
  rewrite <- L.
  assert (O24 : get 8 f (len a + 24) = Some o).
  { rewrite F, get_skip by lia. replace (len a + 24 - len a) with 24 by lia. unfold section_header. rewrite <- !app_assoc.
    field. apply get_here; auto; lia. }
  assert (O32 : get 8 f (len a + 32) = Some (len (st_payload t2))).
  { rewrite F, get_skip by lia. replace (len a + 32 - len a) with 32 by lia. unfold section_header. rewrite <- !app_assoc.
    field. apply get_here; auto. change (size (st_payload t2)) with (len (st_payload t2)). lia. }
  rewrite O24. cbn [opt_bind]. rewrite O32. cbn [opt_bind].
  rewrite (Sl (st_payload t2) eq_refl). cbn [opt_bind].
  rewrite <- (map_length header_of ss'). apply all_places.
  fold sn ss'. intros i h E. rewrite nth_error_map in E. destruct (nth_error ss' i) as [s|] eqn:Es; [|discriminate]. injection E as <-.
  destruct (Each i s Es) as (o' & n' & _ & _ & (a' & b' & F' & L') & Ro' & Gn & Sl').
  rewrite <- L'. rewrite F'. rewrite Forall_forall in Ok'. destruct (Ok' s (nth_error_In _ _ Es)) as (_ & Sh & Ir).
  pose proof (get_nonneg _ _ _ Gn). apply header_read; auto; try lia. intros l Bl. rewrite <- F'. now apply Sl'.
Qed.
