(** Objects written as files are read back. *)
From Coq Require Import NArith ZArith Lia Permutation.
From Verif.Base Require Import Base.
From Verif.Asm Require Model.
From Verif.Obj Require Import Model.
From Verif.Elf Require Import Model Spec ProofsRead ProofsWrite ProofsSymbols.
Import Asm.Model(le_bytes).
Local Open Scope string_scope.
Local Open Scope Z_scope.
Local Open Scope list_scope.

Definition indexes : by_section := BySection 1 2 3 4.
Definition section_symbols : by_section := BySection 2 3 4 5.

Definition locals (o : object) := filter is_local (o_symbols o).
Definition globals (o : object) := filter (fun x => negb (is_local x)) (o_symbols o).

(** What the symbol table holds. *)
Definition contents_of (file : string) (o : object) : list (bool * symbol) :=
  [(false, undef_symbol ""); (false, file_symbol file); (false, section_symbol 1); (false, section_symbol 2);
   (false, section_symbol 3); (false, section_symbol 4)] ++
  map (fun x => (false, symbol_for indexes x)) (locals o) ++ map (fun x => (true, symbol_for indexes x)) (globals o).

Definition as_symbol (x : string * binding) : meaning := MSymbol (fst x) (snd x).
Definition meanings (file : string) (o : object) : list (bool * meaning) :=
  [(true, MUndefined); (true, MFile file); (true, MSection Text); (true, MSection Data); (true, MSection Rodata); (true, MSection Bss)] ++
  map (fun x => (true, as_symbol x)) (locals o) ++ map (fun x => (false, as_symbol x)) (globals o).

Lemma filter_split {A} (p : A -> bool) l : Permutation l (filter p l ++ filter (fun x => negb (p x)) l).
Proof.
  induction l as [|a l IH]; [constructor|]. cbn [filter]. destruct (p a); cbn [negb].
  - cbn [app]. now constructor.
  - now apply Permutation_cons_app.
Qed.

Lemma name_total_split o : name_total (locals o) + name_total (globals o) = name_total (o_symbols o).
Proof.
  unfold locals, globals. induction (o_symbols o) as [|x l IH]; [reflexivity|]. cbn [filter].
  destruct (is_local x); cbn [negb]; rewrite !name_total_cons; lia.
Qed.

Lemma count_split o : (List.length (locals o) + List.length (globals o))%nat = List.length (o_symbols o).
Proof. rewrite <- app_length. symmetry. apply Permutation_length, filter_split. Qed.

(** ** Building the file *)

Lemma bind_ret {A B} (a : A) (k : A -> outcome B) : bind (Ret a) k = k a.
Proof. reflexivity. Qed.

Lemma in_locals x o : In x (locals o) -> In x (o_symbols o).
Proof. unfold locals. rewrite filter_In. tauto. Qed.
Lemma in_globals x o : In x (globals o) -> In x (o_symbols o).
Proof. unfold globals. rewrite filter_In. tauto. Qed.

Definition names_of (o : object) : list (string * Z) := rev (indices 6 (locals o ++ globals o)).

Definition file_sections (o : object) (t : symtab) : list elf_section :=
  let payload c := flat_map (r_bytes (names_of o) section_symbols) (filter (is_in c) (o_relocs o)) in
  [undef_section; text_section (b_text (o_buffers o)); data_section (b_data (o_buffers o)); rodata_section (b_rodata (o_buffers o));
   bss_section (o_bss o); strtab_section ".strtab" (sy_strtab t); symtab_section ".symtab" 5 t;
   rela_section ".rela.text" 6 1 (payload Text); rela_section ".rela.data" 6 2 (payload Data);
   rela_section ".rela.rodata" 6 3 (payload Rodata)].

Lemma names_nodup o : NoDup (map fst (o_symbols o)) -> NoDup (map fst (names_of o)).
Proof.
  intro D. unfold names_of. rewrite map_rev, indices_names. eapply Permutation_NoDup; [apply Permutation_rev|].
  eapply Permutation_NoDup; [|exact D]. apply Permutation_map, filter_split.
Qed.

Lemma names_find o i x : NoDup (map fst (o_symbols o)) -> nth_error (locals o ++ globals o) i = Some x ->
  find_index (fst x) (names_of o) = Some (Z.of_nat (6 + i)).
Proof.
  intros D E. apply find_index_in; [now apply names_nodup|]. unfold names_of. rewrite <- in_rev.
  eapply nth_error_In. now apply indices_nth.
Qed.

Lemma object_sections file o : writable file o -> fits file o ->
  exists t l, into_relocatable_object file o = Ret (file_sections o t) /\ tabled t l /\
    map (fun e : entry => (snd (fst e), snd e)) l = contents_of file o /\
    sy_first_nonlocal t = Some (Z.of_nat (6 + List.length (locals o))) /\ strings t < 2 ^ 32.
Proof.
  intros (D & Nf & Ns & Rs) (Ft & Fc & _ & _ & _ & _). fold (name_total (o_symbols o)) in Ft.
  pose proof (name_total_split o) as Sp. pose proof (count_split o) as Cs.
  pose proof (name_total_nonneg (locals o)) as N1. pose proof (name_total_nonneg (globals o)) as N2.
  assert (N3 : 0 <= name_bytes file) by (unfold name_bytes; lia).
  assert (Ne : nul_free "") by (unfold nul_free; cbn; tauto).
  unfold into_relocatable_object. cbn [add_section app List.length Z.of_nat].
  change (Z.pos (Pos.of_succ_nat 0) mod 2 ^ 16) with 1. change (Z.pos (Pos.of_succ_nat 1) mod 2 ^ 16) with 2.
  change (Z.pos (Pos.of_succ_nat 2) mod 2 ^ 16) with 3. change (Z.pos (Pos.of_succ_nat 3) mod 2 ^ 16) with 4.
  change (Z.pos (Pos.of_succ_nat 4) mod 2 ^ 16) with 5. change (Z.pos (Pos.of_succ_nat 5) mod 2 ^ 16) with 6.
  fold indexes.
  destruct (add_tabled (file_symbol file) _ _ tabled_new Nf ltac:(cbn; lia) ltac:(cbn; lia)) as (t0 & i0 & E0 & T0 & B0 & S0).
  change (strings (new_symtab new_strtab)) with 1 in S0. cbn [y_name file_symbol] in S0. cbn [sy_first_nonlocal new_symtab] in T0, B0.
  rewrite E0, bind_ret. cbn [fst snd].
  destruct (add_tabled (section_symbol 1) _ _ T0 Ne ltac:(lia) ltac:(cbn; lia)) as (t1 & i1 & E1 & T1 & B1 & S1).
  change (name_bytes (y_name (section_symbol 1))) with 1 in S1.
  rewrite E1, bind_ret. cbn [fst snd]. cbn [app List.length] in *.
  destruct (add_tabled (section_symbol 2) _ _ T1 Ne ltac:(lia) ltac:(cbn; lia)) as (t2 & i2 & E2 & T2 & B2 & S2).
  change (name_bytes (y_name (section_symbol 2))) with 1 in S2.
  rewrite E2, bind_ret. cbn [fst snd]. cbn [app List.length] in *.
  destruct (add_tabled (section_symbol 3) _ _ T2 Ne ltac:(lia) ltac:(cbn; lia)) as (t3 & i3 & E3 & T3 & B3 & S3).
  change (name_bytes (y_name (section_symbol 3))) with 1 in S3.
  rewrite E3, bind_ret. cbn [fst snd]. cbn [app List.length] in *.
  destruct (add_tabled (section_symbol 4) _ _ T3 Ne ltac:(lia) ltac:(cbn; lia)) as (t4 & i4 & E4 & T4 & B4 & S4).
  change (name_bytes (y_name (section_symbol 4))) with 1 in S4.
  rewrite E4, bind_ret. cbn [fst snd]. cbn [app List.length] in *.
  rewrite B3, B2, B1, B0 in B4. rewrite B2, B1, B0 in B3. rewrite B1, B0 in B2. rewrite B0 in B1. rewrite ?B3, ?B2, ?B1, ?B0 in T4.
  assert (Fl : Forall (fun x => nul_free (fst x)) (locals o)).
  { apply Forall_forall. intros x I. rewrite Forall_forall in Ns. apply Ns, in_map. now apply in_locals. }
  assert (Fg : Forall (fun x => nul_free (fst x)) (globals o)).
  { apply Forall_forall. intros x I. rewrite Forall_forall in Ns. apply Ns, in_map. now apply in_globals. }
  rewrite add_locals_all. fold (locals o).
  destruct (add_all_tabled indexes (locals o) t4 [] _ T4 Fl ltac:(lia) ltac:(cbn [List.length]; lia)) as (t5 & l5 & E5 & T5 & M5 & B5 & S5).
  rewrite E5, bind_ret. cbn [fst snd List.length]. rewrite app_nil_r.
  assert (Len5 : List.length l5 = List.length (locals o)).
  { apply (f_equal (@List.length _)) in M5. now rewrite !map_length in M5. }
  assert (S6 : strings t5 + name_total (globals o) < 2 ^ 32) by lia.
  assert (C6 : Z.of_nat (6 + List.length l5 + List.length (globals o)) < 2 ^ 32) by lia.
  unfold begin_global. rewrite B5, B4. rewrite bind_ret.
  rewrite (tabled_next _ _ T5) by (rewrite app_length; cbn [List.length]; lia).
  set (t6 := Symtab _ _ _).
  assert (T6 : tabled t6 ([(0, false, undef_symbol ""); (i0, false, file_symbol file); (i1, false, section_symbol 1);
    (i2, false, section_symbol 2); (i3, false, section_symbol 3); (i4, false, section_symbol 4)] ++ l5)).
  { destruct T5 as (P5 & G5 & N5). split; [exact P5|]. split; [exact G5 | exact N5]. }
  rewrite add_globals_all. fold (globals o).
  destruct (add_all_tabled indexes (globals o) t6 (rev (indices 6 (locals o))) _ T6 Fg) as (t7 & l7 & E7 & T7 & M7 & B7 & S7).
  { exact S6. }
  { rewrite app_length. exact C6. }
  rewrite E7, bind_ret. cbn [fst snd].
  replace (rev (indices (List.length _) (globals o)) ++ rev (indices 6 (locals o))) with (names_of o).
  2:{ unfold names_of. rewrite indices_app, rev_app_distr. cbn [app List.length Nat.add]. rewrite Len5. reflexivity. }
  change (BySection _ _ _ _) with section_symbols.
  rewrite add_relocs_spec.
  2:{ intros r I. destruct (Rs r I) as [Nb Tg]. split; auto. destruct (r_target r) as [n|]; auto.
    assert (In n (map fst (locals o ++ globals o))) as In'.
    { eapply Permutation_in; [|exact Tg]. apply Permutation_map, filter_split. }
    apply in_map_iff in In' as (x & <- & Ix). apply In_nth_error in Ix as (i & Ei).
    rewrite (names_find o i x D Ei). discriminate. }
  rewrite bind_ret. cbn [in_text in_data in_rodata app].
  exists t7. eexists. split; [reflexivity|]. split; [exact T7|]. split.
  - rewrite map_app, M7. cbn [map fst snd app]. rewrite M5. unfold contents_of. cbn [app]. rewrite B4. reflexivity.
  - split.
    + rewrite B7. cbn [sy_first_nonlocal t6]. rewrite app_length, Len5. reflexivity.
    + change (strings t6) with (strings t5) in S7. clear -S6 S7. lia.
Qed.

(** ** Reading it *)

Lemma first_app {A} (p : A -> bool) a b : (forall x, In x a -> p x = false) -> first p (a ++ b) = first p b.
Proof.
  induction a as [|x a IH]; intro H; [reflexivity|]. cbn [app first]. rewrite H by now left. apply IH. intros; apply H; now right.
Qed.

Lemma forallb_map_const {A B} (f : A -> B) (p : B -> bool) l : (forall x, p (f x) = true) -> forallb p (map f l) = true.
Proof. intro H. induction l; cbn; auto. now rewrite H. Qed.

Lemma keep_symbols l : keep (map symbol_of (map as_symbol l)) = l.
Proof. induction l as [|[n b] l IH]; cbn; [reflexivity | now rewrite IH]. Qed.

Lemma symbols_read hs file o t l names :
  tabled t l -> map (fun e : entry => (snd (fst e), snd e)) l = contents_of file o -> strings t < 2 ^ 32 -> fits file o ->
  names = st_payload (sy_strtab t) ->
  (forall s, kind_at hs (for_section indexes s) = Some s) ->
  all (read_symbol hs (sy_payload t) names) (places (Z.of_nat (List.length l)) 24) = Some (meanings file o).
Proof.
  intros (P & G & Ns) M St F -> K.
  assert (Ln : List.length l = List.length (meanings file o)).
  { apply (f_equal (@List.length _)) in M. rewrite map_length in M. rewrite M. unfold contents_of, meanings.
    rewrite !app_length, !map_length. reflexivity. }
  rewrite Ln. apply all_places. intros i x E.
  assert (At : forall g s, nth_error (contents_of file o) i = Some (g, s) -> exists k,
    nth_error l i = Some (k, g, s) /\ get_string (st_payload (sy_strtab t)) k = Some (y_name s) /\ 0 <= k < 2 ^ 32).
  { intros g s Ec. rewrite <- M, nth_error_map in Ec. destruct (nth_error l i) as [[[k g'] s']|] eqn:El; [|discriminate].
    injection Ec as -> ->. rewrite Forall_forall in Ns. specialize (Ns _ (nth_error_In _ _ El)). cbn [fst snd] in Ns.
    exists k. split; auto. split; auto. pose proof (get_nonneg _ _ _ Ns). unfold strings in St. lia. }
  assert (Go : forall g s R, nth_error (contents_of file o) i = Some (g, s) -> fields_fit s -> interpret hs i g s = R ->
    read_symbol hs (sy_payload t) (st_payload (sy_strtab t)) (Z.of_nat i * 24) = R).
  { intros g s R Ec Ff <-. destruct (At g s Ec) as (k & El & Gs & Rk). now apply (symbol_read hs t l i k g s). }
  destruct F as (_ & _ & _ & Fs & _ & _).
  unfold meanings in E.
  destruct (Nat.lt_ge_cases i 6) as [Lt|Ge].
  - assert (Fx : forall k s, 0 <= k < 2 ^ 16 -> s = section_symbol k \/ s = undef_symbol "" \/ s = file_symbol file -> fields_fit s).
    { unfold fields_fit. intros k s Rk [-> | [-> | ->]]; cbn; lia. }
    destruct i as [|i]; [cbn in E; injection E as <-; apply (Go false (undef_symbol "")); [reflexivity | apply (Fx 0); [lia | tauto] | reflexivity]|].
    destruct i as [|i]; [cbn in E; injection E as <-; apply (Go false (file_symbol file)); [reflexivity | apply (Fx 0); [lia | tauto] | reflexivity]|].
    destruct i as [|i]; [cbn in E; injection E as <-; apply (Go false (section_symbol 1)); [reflexivity | apply (Fx 1); [lia | tauto] |
      exact (f_equal (option_map (fun s => (true, MSection s))) (K (In_ Text)))]|].
    destruct i as [|i]; [cbn in E; injection E as <-; apply (Go false (section_symbol 2)); [reflexivity | apply (Fx 2); [lia | tauto] |
      exact (f_equal (option_map (fun s => (true, MSection s))) (K (In_ Data)))]|].
    destruct i as [|i]; [cbn in E; injection E as <-; apply (Go false (section_symbol 3)); [reflexivity | apply (Fx 3); [lia | tauto] |
      exact (f_equal (option_map (fun s => (true, MSection s))) (K (In_ Rodata)))]|].
    destruct i as [|i]; [cbn in E; injection E as <-; apply (Go false (section_symbol 4)); [reflexivity | apply (Fx 4); [lia | tauto] |
      exact (f_equal (option_map (fun s => (true, MSection s))) (K Bss))]|].
    lia.
  - rewrite nth_error_app2 in E by exact Ge. cbn [List.length] in E.
    assert (Nz : (Z.of_nat i * 24 =? 0) = false) by (apply Z.eqb_neq; lia).
    destruct (Nat.lt_ge_cases (i - 6) (List.length (locals o))) as [Lt|Ge2].
    + rewrite nth_error_app1 in E by now rewrite map_length. rewrite nth_error_map in E.
      destruct (nth_error (locals o) (i - 6)) as [[n b]|] eqn:En; [|discriminate]. injection E as <-.
      pose proof (nth_error_In _ _ En) as I. unfold locals in I. apply filter_In in I as [I Lo].
      destruct b as [loc|]; [|discriminate]. pose proof (Fs n loc (or_introl I)) as Fl. unfold fits_location in Fl.
      eapply Go.
        -- unfold contents_of. rewrite nth_error_app2 by exact Ge. cbn [List.length]. rewrite nth_error_app1 by now rewrite map_length.
           rewrite nth_error_map, En. reflexivity.
        -- unfold fields_fit, symbol_for. cbn [snd y_shndx y_value new_symbol]. split; [|lia]. destruct (l_section loc) as [[]|]; cbn; lia.
        -- unfold interpret. cbn -[kind_at Z.mul]. rewrite Nz, Bool.andb_false_r. rewrite K. cbn. unfold as_symbol. cbn. now destruct loc.
    + rewrite nth_error_app2 in E by now rewrite map_length. rewrite map_length in E. rewrite nth_error_map in E.
      destruct (nth_error (globals o) (i - 6 - List.length (locals o))) as [[n b]|] eqn:En; [|discriminate]. injection E as <-.
      pose proof (nth_error_In _ _ En) as I. unfold globals in I. apply filter_In in I as [I Lo].
      destruct b as [|b]; [discriminate|].
      eapply Go.
        -- unfold contents_of. rewrite nth_error_app2 by exact Ge. cbn [List.length]. rewrite nth_error_app2 by now rewrite map_length.
           rewrite map_length, nth_error_map, En. reflexivity.
        -- unfold fields_fit, symbol_for. cbn [snd]. destruct b as [loc|]; cbn [y_shndx y_value new_symbol undef_symbol]; [|lia].
           pose proof (Fs n loc (or_intror I)) as Fl. unfold fits_location in Fl. split; [|lia]. destruct (l_section loc) as [[]|]; cbn; lia.
        -- destruct b as [loc|]; [|reflexivity]. unfold interpret. cbn -[kind_at Z.mul].
        replace (for_section indexes (l_section loc) =? 0) with false by (destruct (l_section loc) as [[]|]; reflexivity).
        rewrite K. cbn. unfold as_symbol. cbn. now destruct loc.
Qed.

Lemma meanings_nth file o j x : nth_error (locals o ++ globals o) j = Some x ->
  nth_error (map snd (meanings file o)) (6 + j) = Some (as_symbol x).
Proof.
  intro E. unfold meanings. cbn [Nat.add app map nth_error]. rewrite map_app, !map_map. cbn [snd].
  rewrite <- map_app, nth_error_map, E. reflexivity.
Qed.

Lemma relocs_read file o c : writable file o -> fits file o ->
  let rs := filter (is_in c) (o_relocs o) in
  all (read_reloc (map snd (meanings file o)) (In_ c) (flat_map (r_bytes (names_of o) section_symbols) rs))
    (places (len (flat_map (r_bytes (names_of o) section_symbols) rs) / 24) 24) = Some rs.
Proof.
  intros (D & _ & _ & Rs) (_ & Fc & _ & _ & Fr & _) rs.
  rewrite (len_flat _ 24) by (intros; apply r_bytes_length). rewrite Z.div_mul by lia. apply all_places.
  intros i r E. pose proof (nth_error_In _ _ E) as I. unfold rs in I. apply filter_In in I as [I C].
  destruct (Fr r I) as [Fl Fa]. destruct (Rs r I) as [_ Tg]. pose proof (count_split o) as Cs.
  unfold is_in in C. destruct (section_dec (l_section (r_location r)) (In_ c)) as [Sc|]; [|discriminate].
  destruct (r_target r) as [n|s] eqn:T.
  - assert (In n (map fst (locals o ++ globals o))) as In'.
    { eapply Permutation_in; [|exact Tg]. apply Permutation_map, filter_split. }
    apply in_map_iff in In' as (x & <- & Ix). apply In_nth_error in Ix as (j & Ej).
    assert (Lj : (j < List.length (locals o ++ globals o))%nat) by (apply nth_error_Some; congruence). rewrite app_length in Lj.
    assert (Ti : target_index (names_of o) section_symbols r = Z.of_nat (6 + j)).
    { unfold target_index. rewrite T. now rewrite (names_find o j x D Ej). }
    apply reloc_read; auto; rewrite Ti; [lia|]. rewrite Nat2Z.id, T, (meanings_nth file o j x Ej). reflexivity.
  - assert (Ti : target_index (names_of o) section_symbols r = for_section section_symbols s) by (unfold target_index; now rewrite T).
    apply reloc_read; auto; rewrite Ti; [destruct s as [[]|]; cbn; lia|]. rewrite T. destruct s as [[]|]; reflexivity.
Qed.

Theorem elf_file_read file o : writable file o -> fits file o ->
  exists f, elf_file file o = Ret f /\ read_object f = Some (in_order o).
Proof.
  intros W F. destruct (object_sections file o W F) as (t & l & E & T & M & B & St).
  unfold elf_file. rewrite E, bind_ret.
  pose proof (tabled_length _ _ T) as Tl.
  assert (Ll : List.length l = (6 + List.length (o_symbols o))%nat).
  { apply (f_equal (@List.length _)) in M. rewrite map_length in M. rewrite M. unfold contents_of.
    rewrite !app_length, !map_length, count_split. reflexivity. }
  pose proof (count_split o) as Cs.
  pose proof F as (_ & Fc & Fb & _ & _ & Fz).
  assert (Rl : forall c, len (flat_map (r_bytes (names_of o) section_symbols) (filter (is_in c) (o_relocs o))) =
    Z.of_nat (List.length (filter (is_in c) (o_relocs o))) * 24).
  { intro c. apply len_flat. intros; apply r_bytes_length. }
  assert (Rt : (List.length (filter (is_in Text) (o_relocs o)) + List.length (filter (is_in Data) (o_relocs o)) +
    List.length (filter (is_in Rodata) (o_relocs o)) <= List.length (o_relocs o))%nat).
  { clear. induction (o_relocs o) as [|r rs IH]; [cbn; lia|]. cbn [filter].
    assert (One : ((if is_in Text r then 1 else 0) + (if is_in Data r then 1 else 0) + (if is_in Rodata r then 1 else 0) <= 1)%nat)
      by (unfold is_in; destruct (l_section (r_location r)) as [[]|]; cbn; lia).
    destruct (is_in Text r), (is_in Data r), (is_in Rodata r); cbn [List.length]; lia. }
  pose proof (len_nonneg (b_text (o_buffers o))) as P1. pose proof (len_nonneg (b_data (o_buffers o))) as P2.
  pose proof (len_nonneg (b_rodata (o_buffers o))) as P3. unfold strings in St. pose proof (len_nonneg (st_payload (sy_strtab t))) as P4.
  destruct (write_read_sections (file_sections o t)) as (f & st & Ew & Er & Ls).
  - unfold file_sections. repeat (apply Forall_cons; [|]); [..|apply Forall_nil].
    all: split; [unfold nul_free; cbn; intuition discriminate|].
    all: split; [first [reflexivity | now eexists]|].
    all: unfold in_range; cbn [c_flags c_body c_link c_info c_align c_entsize size_in_memory undef_section text_section data_section
      rodata_section bss_section strtab_section symtab_section rela_section symbol_size];
      try match goal with |- context[size ?x] => change (size x) with (len x) end; rewrite ?Tl, ?Rl, ?B; unfold symbol_size; try lia.
  - vm_compute. reflexivity.
  - vm_compute. reflexivity.
  - unfold file_sections, section_bytes. cbn [flat_map c_body undef_section text_section data_section rodata_section bss_section
      strtab_section symtab_section rela_section app]. rewrite !len_app, !Rl, Tl. change (len []) with 0. lia.
  - exists f. split; [exact Ew|]. unfold read_object. rewrite Er. cbn [opt_bind]. clear Ew Er.
    set (hs := map header_of (file_sections o t ++ [strtab_section ".shstrtab" st])).
    assert (K : forall s, kind_at hs (for_section indexes s) = Some s) by (intros [[]|]; reflexivity).
    assert (Sy : read_symbols hs = Some (map snd (meanings file o))).
    { unfold read_symbols.
      change (first (fun h => h_type h =? 2) hs) with (Some (header_of (symtab_section ".symtab" 5 t))). cbn [opt_bind].
      cbn [header_of h_entsize h_size c_entsize c_body symtab_section size_in_memory h_link c_link h_bytes body_bytes h_info c_info symbol_size].
      change (size (sy_payload t)) with (len (sy_payload t)). rewrite Tl, Z.mod_mul by lia. cbn [Z.eqb Pos.eqb andb check opt_bind].
      change (nth_header hs 5) with (Some (header_of (strtab_section ".strtab" (sy_strtab t)))). cbn [opt_bind].
      cbn [header_of h_type c_type strtab_section type_number Z.eqb Pos.eqb check opt_bind h_bytes c_body body_bytes].
      rewrite Z.div_mul by lia. rewrite (symbols_read hs file o t l _ T M St F eq_refl K). cbn [opt_bind].
      rewrite B, Nat2Z.id. rewrite (proj2 (Z.leb_le _ _)) by lia. cbn [andb].
      assert (Lm : List.length (meanings file o) = (6 + List.length (locals o) + List.length (globals o))%nat).
      { unfold meanings. rewrite !app_length, !map_length. cbn [List.length]. lia. }
      rewrite Lm. rewrite (proj2 (Nat.leb_le _ _)) by lia. cbn [andb].
      replace (firstn (6 + List.length (locals o)) (meanings file o)) with
        ([(true, MUndefined); (true, MFile file); (true, MSection Text); (true, MSection Data); (true, MSection Rodata); (true, MSection Bss)] ++
         map (fun x => (true, as_symbol x)) (locals o)).
      2:{ unfold meanings. rewrite app_assoc. rewrite firstn_app. rewrite app_length, map_length. cbn [List.length].
          rewrite Nat.sub_diag. rewrite firstn_all2 by (rewrite app_length, map_length; cbn; lia). cbn [firstn]. now rewrite app_nil_r. }
      replace (skipn (6 + List.length (locals o)) (meanings file o)) with (map (fun x => (false, as_symbol x)) (globals o)).
      2:{ unfold meanings. rewrite app_assoc. rewrite skipn_app. rewrite app_length, map_length. cbn [List.length].
          rewrite Nat.sub_diag. rewrite skipn_all2 by (rewrite app_length, map_length; cbn; lia). reflexivity. }
      rewrite forallb_app. rewrite !forallb_map_const by auto. reflexivity. }
    change (of_kind hs (In_ Text)) with (Some (header_of (text_section (b_text (o_buffers o))))).
    change (of_kind hs (In_ Data)) with (Some (header_of (data_section (b_data (o_buffers o))))).
    change (of_kind hs (In_ Rodata)) with (Some (header_of (rodata_section (b_rodata (o_buffers o))))).
    change (of_kind hs Bss) with (Some (header_of (bss_section (o_bss o)))).
    rewrite Sy. cbn [opt_bind].
    assert (Rr : forall c n i, In (n, c, i) [(".rela.text", Text, 1); (".rela.data", Data, 2); (".rela.rodata", Rodata, 3)] ->
      read_relocs_of hs (map snd (meanings file o)) (header_of (rela_section n 6 i
        (flat_map (r_bytes (names_of o) section_symbols) (filter (is_in c) (o_relocs o))))) = Some (filter (is_in c) (o_relocs o))).
    { intros c n i I. unfold read_relocs_of.
      cbn [header_of h_type c_type rela_section type_number Z.eqb Pos.eqb h_link c_link].
      change (nth_header hs 6) with (Some (header_of (symtab_section ".symtab" 5 t))). cbn [opt_bind].
      cbn [header_of rela_section h_type c_type symtab_section type_number h_entsize c_entsize h_size c_body size_in_memory h_bytes body_bytes h_info c_info].
      pose proof (relocs_read file o c W F) as Rd. cbn zeta in Rd.
      unfold size. fold (len (flat_map (r_bytes (names_of o) section_symbols) (filter (is_in c) (o_relocs o)))).
      assert (Md : len (flat_map (r_bytes (names_of o) section_symbols) (filter (is_in c) (o_relocs o))) mod 24 = 0)
        by (rewrite Rl; apply Z.mod_mul; lia).
      rewrite Md. cbn [Z.eqb Pos.eqb andb check opt_bind].
      assert (Ki : kind_at hs i = Some (In_ c)).
      { destruct I as [I | [I | [I | []]]]; injection I as <- <- <-; reflexivity. }
      rewrite Ki. cbn [opt_bind]. exact Rd. }
    assert (Ra : all (read_relocs_of hs (map snd (meanings file o))) hs =
      Some [[]; []; []; []; []; []; []; filter (is_in Text) (o_relocs o); filter (is_in Data) (o_relocs o); filter (is_in Rodata) (o_relocs o); []]).
    { unfold hs at 2. unfold file_sections. cbn [app map all].
      rewrite (Rr Text ".rela.text" 1) by (cbn; tauto). rewrite (Rr Data ".rela.data" 2) by (cbn; tauto).
      rewrite (Rr Rodata ".rela.rodata" 3) by (cbn; tauto). reflexivity. }
    rewrite Ra. cbn [opt_bind]. f_equal. unfold in_order. f_equal.
    + destruct (o_buffers o); reflexivity.
    + unfold meanings. cbn [app map symbol_of snd keep]. rewrite !map_app, !map_map. cbn [snd].
      rewrite <- map_app. rewrite <- (map_map as_symbol symbol_of). apply keep_symbols.
    + cbn [List.concat app]. now rewrite app_nil_r.
Qed.
