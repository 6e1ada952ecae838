(** What is refused, and what linking the file means. *)
From Coq Require Import NArith ZArith Lia Permutation.
From Verif.Base Require Import Base.
From Verif.Obj Require Import Model.
From Verif.Obj Require Spec Proofs ProofsLink ProofsProduce.
From Verif.Jit Require ProofsTotal.
From Verif.Elf Require Import Model Spec ProofsRead ProofsWrite ProofsSymbols ProofsObject.
Local Open Scope string_scope.
Local Open Scope Z_scope.
Local Open Scope list_scope.

(** ** Refusals *)

Lemma bytes_nul_free s : existsb (N.eqb 0) (bytes s) = false -> nul_free s.
Proof.
  unfold nul_free. induction s as [|c s IH]; intros E; cbn in *; [tauto|].
  apply Bool.orb_false_iff in E as [E1 E2]. intros [->|I]; [discriminate | now apply (IH E2)].
Qed.

Definition clean (t : strtab) : Prop := forall s i, find_index s (st_map t) = Some i -> nul_free s.

Lemma get_clean s t r : clean t -> strtab_get s t = Ret r -> nul_free s /\ clean (fst r).
Proof.
  intros C. unfold strtab_get. destruct (find_index s (st_map t)) as [i|] eqn:F.
  - intro E. injection E as <-. split; [now apply (C s i) | exact C].
  - destruct (existsb (N.eqb 0) (bytes s)) eqn:Z0; [discriminate|]. intro E. injection E as <-.
    apply bytes_nul_free in Z0. split; [exact Z0|]. intros s' i. cbn [st_map fst find_index].
    destruct (String.eqb_spec s' s) as [->|]; [auto | apply C].
Qed.

Lemma symtab_clean y t r : clean (sy_strtab t) -> symtab_add y t = Ret r -> nul_free (y_name y) /\ clean (sy_strtab (fst r)).
Proof.
  intro C. unfold symtab_add. destruct (strtab_get (y_name y) (sy_strtab t)) as [x| |] eqn:E; cbn [bind]; try discriminate.
  intro H. injection H as <-. cbn [fst sy_strtab]. now apply (get_clean _ _ _ C).
Qed.

Lemma add_all_clean ix syms : forall t m r, clean (sy_strtab t) -> add_all ix syms t m = Ret r ->
  Forall (fun x => nul_free (fst x)) syms /\ clean (sy_strtab (fst r)) /\
  forall n, find_index n (snd r) <> None -> In n (map fst syms) \/ find_index n m <> None.
Proof.
  induction syms as [|x syms IH]; intros t m r C; cbn [add_all].
  - intro E. injection E as <-. cbn. refine (conj (Forall_nil _) (conj C _)). tauto.
  - destruct (symtab_add (symbol_for ix x) t) as [y| |] eqn:E1; cbn [bind]; try discriminate. intro E2.
    destruct (symtab_clean _ _ _ C E1) as [N1 C1]. rewrite symbol_for_name in N1.
    destruct (IH _ _ _ C1 E2) as (F2 & C2 & K). split; [now constructor|]. split; [exact C2|].
    intros n H. destruct (K n H) as [I|I]; [left; now right|]. cbn [find_index] in I.
    destruct (String.eqb_spec n (fst x)) as [->|]; [left; now left | now right].
Qed.

Lemma add_relocs_ok m ix rs : forall p r, add_relocs m ix rs p = Ret r -> forall x, In x rs ->
  l_section (r_location x) <> Bss /\ match r_target x with Symbol n => find_index n m <> None | Section _ => True end.
Proof.
  induction rs as [|y rs IH]; intros p r E x I; [easy|]. cbn [add_relocs] in E.
  destruct (add_reloc m ix y p) as [p'| |] eqn:A; cbn [bind] in E; try discriminate.
  destruct I as [<-|I]; [|now apply (IH _ _ E)]. unfold add_reloc in A.
  destruct (r_target y) as [n|s]; [destruct (find_index n m); [|discriminate]|]; cbn [bind] in A;
    (split; [intro Q; rewrite Q in A; discriminate | easy]).
Qed.

Lemma bind_inv {A B} (x : outcome A) (k : A -> outcome B) r : bind x k = Ret r -> exists a, x = Ret a /\ k a = Ret r.
Proof. destruct x; cbn; try discriminate. eauto. Qed.

Lemma accepted file o f : elf_file file o = Ret f -> nul_free file /\ Forall nul_free (map fst (o_symbols o)) /\
  (forall r, In r (o_relocs o) -> l_section (r_location r) <> Bss /\
    match r_target r with Symbol n => In n (map fst (o_symbols o)) | Section _ => True end).
Proof.
  unfold elf_file. intro E. apply bind_inv in E as (ss & E & _). unfold into_relocatable_object in E.
  cbn [add_section] in E.
  apply bind_inv in E as (r0 & E0 & E). apply bind_inv in E as (r1 & E1 & E). apply bind_inv in E as (r2 & E2 & E).
  apply bind_inv in E as (r3 & E3 & E). apply bind_inv in E as (r4 & E4 & E). apply bind_inv in E as (r5 & E5 & E).
  apply bind_inv in E as (t6 & E6 & E). apply bind_inv in E as (r7 & E7 & E). apply bind_inv in E as (p & E8 & _).
  assert (C : clean (sy_strtab (new_symtab new_strtab))).
  { intros s i. cbn. destruct (String.eqb_spec s "") as [->|]; [|discriminate]. intros _. unfold nul_free. cbn. tauto. }
  destruct (symtab_clean _ _ _ C E0) as [Nf C0]. destruct (symtab_clean _ _ _ C0 E1) as [_ C1].
  destruct (symtab_clean _ _ _ C1 E2) as [_ C2]. destruct (symtab_clean _ _ _ C2 E3) as [_ C3].
  destruct (symtab_clean _ _ _ C3 E4) as [_ C4]. rewrite add_locals_all in E5.
  destruct (add_all_clean _ _ _ _ _ C4 E5) as (F5 & C5 & K5). unfold begin_global in E6.
  destruct (sy_first_nonlocal (fst r5)); [discriminate|]. injection E6 as <-.
  rewrite add_globals_all in E7.
  destruct (add_all_clean _ _ (Symtab _ _ _) _ _ C5 E7) as (F7 & _ & K7).
  fold (locals o) in *. fold (globals o) in *.
  split; [exact Nf|]. split.
  - apply Forall_forall. intros n I. apply in_map_iff in I as (x & <- & I).
    apply (Permutation_in x (filter_split is_local (o_symbols o))) in I. apply in_app_or in I. rewrite Forall_forall in F5, F7.
    destruct I as [I|I]; auto.
  - intros r I. destruct (add_relocs_ok _ _ _ _ _ E8 r I) as [Nb Tg]. split; [exact Nb|]. destruct (r_target r) as [n|]; auto.
    destruct (K7 n Tg) as [J|J].
    + apply in_map_iff in J as (x & <- & J). apply in_map. now apply in_globals.
    + destruct (K5 n J) as [J'|J']; [|now cbn in J']. apply in_map_iff in J' as (x & <- & J'). apply in_map. now apply in_locals.
Qed.

Lemma refused file o : NoDup (map fst (o_symbols o)) -> fits file o -> (elf_file file o = Panic <-> ~ writable file o).
Proof.
  intros D F. split.
  - intros P W. destruct (elf_file_read file o W F) as (f & E & _). congruence.
  - intro W. destruct (elf_file file o) as [f| |] eqn:E; auto.
    + destruct W. split; [exact D | now apply (accepted file o f)].
    + exfalso. revert E. clear. unfold elf_file, into_relocatable_object. cbn [add_section].
      assert (G : forall s t, strtab_get s t <> OutOfFuel).
      { intros s t. unfold strtab_get. destruct (find_index s (st_map t)); [discriminate|]. destruct (existsb _ _); discriminate. }
      assert (Y : forall y t, symtab_add y t <> OutOfFuel).
      { intros y t. unfold symtab_add. specialize (G (y_name y) (sy_strtab t)). destruct (strtab_get _ _); cbn; congruence. }
      assert (A : forall ix syms t m, add_all ix syms t m <> OutOfFuel).
      { intros ix. induction syms as [|x syms IH]; intros t m; cbn [add_all]; [discriminate|].
        specialize (Y (symbol_for ix x) t). destruct (symtab_add _ _); cbn [bind]; [apply IH | discriminate | congruence]. }
      assert (R : forall m ix rs p, add_relocs m ix rs p <> OutOfFuel).
      { intros m ix. induction rs as [|r rs IH]; intro p; cbn [add_relocs]; [discriminate|].
        assert (add_reloc m ix r p <> OutOfFuel).
        { unfold add_reloc. destruct (r_target r) as [n|]; [destruct (find_index n m)|]; cbn [bind];
            destruct (l_section (r_location r)) as [[]|]; discriminate. }
        destruct (add_reloc m ix r p); cbn [bind]; [apply IH | discriminate | congruence]. }
      assert (B : forall {X Z} (x : outcome X) (k : X -> outcome Z), x <> OutOfFuel -> (forall a, k a <> OutOfFuel) -> bind x k <> OutOfFuel).
      { intros X Z x k H K. destruct x; cbn; [apply K | discriminate | congruence]. }
      assert (W : forall ss, write ss <> OutOfFuel).
      { intro ss. unfold write, add_shstrtab. apply B; [|intros [[? ?] ?]; discriminate]. apply B.
        - generalize new_strtab. induction ss as [|s ss IH]; intro t; cbn [section_names]; [discriminate|]. apply B; auto.
          intro a. apply B; auto. intro; discriminate.
        - intro a. apply B; auto. intro; cbn; discriminate. }
      apply B; [|exact W].
      apply B; [apply Y|]. intro r0. apply B; [apply Y|]. intro r1. apply B; [apply Y|]. intro r2. apply B; [apply Y|]. intro r3.
      apply B; [apply Y|]. intro r4. apply B; [rewrite add_locals_all; apply A|]. intro r5.
      apply B; [unfold begin_global; destruct (sy_first_nonlocal (fst r5)); discriminate|]. intro t6.
      apply B; [rewrite add_globals_all; apply A|]. intro r7. apply B; [apply R|]. intro p. discriminate.
Qed.

(** ** Linking *)

Lemma in_order_symbols o x : In x (o_symbols (in_order o)) <-> In x (o_symbols o).
Proof. cbn. split; apply Permutation_in; [symmetry|]; apply filter_split. Qed.

Lemma in_order_relocs o : (forall r, In r (o_relocs o) -> l_section (r_location r) <> Bss) ->
  forall r, In r (o_relocs (in_order o)) <-> In r (o_relocs o).
Proof.
  intros H r. cbn [in_order o_relocs]. rewrite !in_app_iff, !filter_In. unfold is_in. split; [tauto|]. intro I. specialize (H r I).
  destruct (l_section (r_location r)) as [[]|]; cbn; tauto.
Qed.

Lemma in_order_linked lk o mem : (forall r, In r (o_relocs o) -> l_section (r_location r) <> Bss) ->
  (Obj.Spec.linked lk (in_order o) mem <-> Obj.Spec.linked lk o mem).
Proof.
  intro H. unfold Obj.Spec.linked, Obj.Spec.consistent. pose proof (in_order_symbols o) as Sy. pose proof (in_order_relocs o H) as Rl.
  change (o_buffers (in_order o)) with (o_buffers o).
  split; intros (A & B & C); (split; [|split]).
  - intros n l I. apply A. now rewrite !Sy.
  - intros r I. apply B. now apply Rl.
  - intros c i b E P K. apply (C c i b E P). intros r I. apply K. now apply Rl.
  - intros n l I. apply A. now rewrite <- !Sy.
  - intros r I. apply B. now apply Rl.
  - intros c i b E P K. apply (C c i b E P). intros r I. apply K. now apply Rl.
Qed.

Lemma file_links file o f : elf_file file o = Ret f -> NoDup (map fst (o_symbols o)) -> fits file o ->
  exists o', read_object f = Some o' /\ forall lk mem, Obj.Spec.linked lk o' mem <-> Obj.Spec.linked lk o mem.
Proof.
  intros E D F. pose proof (accepted _ _ _ E) as Ac.
  destruct (elf_file_read file o (conj D Ac) F) as (f' & E' & R). rewrite E in E'. injection E' as <-.
  exists (in_order o). split; [exact R|]. intros lk mem. apply in_order_linked. destruct Ac as (_ & _ & Rs). intros r I. now apply Rs.
Qed.

Lemma written_links w es o file f : Obj.Proofs.reached w es -> produce w = Ret (Some o) -> Obj.Spec.well_placed w es -> fits file o ->
  elf_file file o = Ret f -> exists o', read_object f = Some o' /\ forall lk mem, Obj.Spec.linked lk o' mem ->
    forall u, In u (Obj.Spec.uses es) -> exists v, Obj.Spec.asked es lk u v /\
      Obj.Spec.holds mem (Obj.Spec.at_ lk (u_location u)) (Obj.Spec.width (u_type u)) v.
Proof.
  intros R P WP F E. pose proof F as (_ & _ & [Bn _] & _).
  destruct (Jit.ProofsTotal.produced_sound w es o R P WP Bn) as [(_ & D & _) _].
  destruct (file_links file o f E D F) as (o' & Ro & L). exists o'. split; [exact Ro|]. intros lk mem Lk.
  apply L in Lk. exact (Obj.ProofsLink.uses_resolved w es o lk mem R P WP Lk).
Qed.
