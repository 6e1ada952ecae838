(** * Linked objects *)
From Coq Require Import NArith ZArith.
From Verif.Base Require Import Base Vec.
From Verif.Asm Require Model Table.
From Verif.Obj Require Import Model Spec Proofs ProofsProduce.
Import Asm.Model(le_bytes).
Local Open Scope Z_scope.

Lemma symbol_of_in : forall names l n, symbol_of names l = Some n -> In (n, l) names.
Proof.
  induction names as [|[m x] names IH]; cbn; intros l n H; [discriminate H|]. destruct (Nat.eqb_spec x l) as [->|E]; [|auto].
  injection H as ->. auto.
Qed.

Lemma symbol_of_none : forall names l, symbol_of names l = None -> forall n, ~ In (n, l) names.
Proof.
  induction names as [|[m x] names IH]; cbn; intros l H n I; [exact I|]. destruct (Nat.eqb_spec x l) as [->|E]; [discriminate H|].
  destruct I as [I|I]; [congruence|]. exact (IH _ H _ I).
Qed.

Lemma symbols_of_in ds : forall names syms, symbols_of ds names = Ret syms ->
  forall n b, In (n, b) syms <-> exists l d, In (n, l) names /\ nth_error ds l = Some d /\ b = binding_of d.
Proof.
  induction names as [|[m x] names IH]; cbn; intros syms H n b.
  - injection H as <-. split; [intros []|intros (l & d & [] & _)].
  - apply bind_ret in H. destruct H as (d & G & H). apply vget_some in G. apply bind_ret in H. destruct H as (rest & E & H). injection H as <-.
    cbn. rewrite (IH _ E n b). split.
    + intros [I|(l & d' & I & N & B)]; [injection I as <- <-; eauto 7|]. exists l, d'. auto.
    + intros (l & d' & [I|I] & N & ->); [left; congruence|]. right. eauto.
Qed.

Lemma symbols_of_ok ds : forall names, (forall n l, In (n, l) names -> (l < List.length ds)%nat) -> exists syms, symbols_of ds names = Ret syms.
Proof.
  induction names as [|[m x] names IH]; cbn; intro B; [eauto|]. destruct (nth_error ds x) as [d|] eqn:E.
  - unfold vget. rewrite E. cbn [bind]. destruct IH as (syms & ->); [eauto|]. cbn. eauto.
  - apply nth_error_None in E. specialize (B m x (or_introl eq_refl)). lia.
Qed.

Lemma produce_parts w o : produce w = Ret (Some o) ->
  symbols_of (w_defs w) (w_names w) = Ret (o_symbols o) /\ o_bss o = w_bss w /\
  produce_uses (w_defs w) (w_names w) (w_uses w) (w_buffers w, []) = Ret (Some (o_buffers o, o_relocs o)).
Proof.
  unfold produce. intro H. apply bind_ret in H. destruct H as (syms & -> & H). apply bind_ret in H. destruct H as (st & -> & H).
  destruct st as [[bufs rel]|]; cbn in H; [|discriminate H]. injection H as <-. auto.
Qed.

Lemma inside_within w u : inside w u -> within (w_buffers w) u.
Proof. intros [P L] c S. rewrite S in L. cbn in L. auto. Qed.

(** The parts of [produce_uses_done] for a reached writer. *)
Lemma produced w es o : reached w es -> produce w = Ret (Some o) -> well_placed w es ->
  (forall c, List.length (buffer c (o_buffers o)) = List.length (buffer c (w_buffers w))) /\
  (forall c i, (forall u, In u (uses es) -> static (w_defs w) u <> None -> ~ covers (u_location u) (u_type u) c (Z.of_nat i)) ->
    nth_error (buffer c (o_buffers o)) i = nth_error (buffer c (w_buffers w)) i) /\
  (forall u c v, In u (uses es) -> static (w_defs w) u = Some (c, v) -> in_reach (u_type u) v /\ forall i, 0 <= i < width (u_type u) ->
    nth_error (buffer c (o_buffers o)) (Z.to_nat (l_pos (u_location u) + i)) = Some (Z.to_N ((v / 256 ^ i) mod 256))) /\
  (forall r, In r (o_relocs o) <-> exists u d, In u (uses es) /\ nth_error (w_defs w) (u_target u) = Some d /\
    static (w_defs w) u = None /\ reloc_of (w_names w) d u = Some r) /\
  (forall u, In u (uses es) -> static (w_defs w) u = None -> exists d r, nth_error (w_defs w) (u_target u) = Some d /\ reloc_of (w_names w) d u = Some r).
Proof.
  intros R P [A I]. destruct (produce_parts _ _ P) as (_ & _ & U). rewrite (reached_uses w es R) in U.
  destruct (produce_uses_done _ _ _ _ _ _ _ U A) as (H1 & H2 & H3 & H4 & H5).
  { rewrite Forall_forall in *. intros u Iu. apply inside_within, I, Iu. }
  repeat split; auto.
  - exact (proj1 (H3 u c v H H0)).
  - exact (proj2 (H3 u c v H H0)).
  - intro Ir. apply H4 in Ir. destruct Ir as [[]|Ir]. exact Ir.
  - intro Ir. apply H4. auto.
Qed.

Lemma reloc_of_place names d u r : reloc_of names d u = Some r -> r_location r = u_location u /\ r_type r = u_type u.
Proof.
  unfold reloc_of. destruct (symbol_of names (u_target u)); [|destruct d; [|discriminate]]; intro H; injection H as <-; auto.
Qed.

Lemma uses_resolved w es o lk mem : reached w es -> produce w = Ret (Some o) -> well_placed w es -> linked lk o mem ->
  forall u, In u (uses es) -> exists v, asked es lk u v /\ holds mem (at_ lk (u_location u)) (width (u_type u)) v.
Proof.
  intros R P WP (Co & Re & By) u I. destruct (produced w es o R P WP) as (Le & Ke & St & Rl & Dn).
  destruct (produce_parts _ _ P) as (Sy & _ & _). pose proof (reached_defined w es R) as Df. pose proof (reached_named w es R) as Nm.
  destruct (static (w_defs w) u) as [[c v]|] eqn:E.
  - destruct (St u c v I E) as [Rch V]. destruct (static_section _ _ _ _ E) as [Sc Pc].
    unfold static in E. destruct (nth_error (w_defs w) (u_target u)) as [[d|]|] eqn:D; try discriminate E.
    destruct (both_in _ _) as [c'|] eqn:B; [|discriminate E]. apply both_in_some in B. destruct B as [B _]. rewrite Pc in E. injection E as -> <-.
    exists (l_pos (d_location d) + u_addend u - l_pos (u_location u)). destruct d as [g loc]. cbn [d_location] in *. apply Df in D. split.
    + unfold asked. destruct (u_type u) eqn:T; try discriminate Pc; exists (at_ lk loc); (split; [left; eauto|]; unfold at_; rewrite B, Sc; lia).
    + intros i Bi. unfold at_. rewrite Sc, <- Z.add_assoc. apply By; [now apply V| |].
      { destruct WP as [_ Ins]. rewrite Forall_forall in Ins. destruct (Ins u I). lia. }
      intros r Ir Cv. apply Rl in Ir. destruct Ir as (u' & d' & I' & D' & Sn & Er). apply reloc_of_place in Er. destruct Er as [E1 E2]. rewrite E1, E2 in Cv.
      assert (apart u u') as A.
      { destruct WP as [A _]. destruct (ForallOrdPairs_In A u u' I I') as [<-|[H|H]]; [|exact H|now apply apart_sym].
        exfalso. unfold static in Sn. apply Df in D. rewrite D in Sn. cbn [d_location] in Sn. rewrite B, Sc, Pc in Sn. destruct c; discriminate Sn. }
      refine (apart_covers _ _ _ _ A _ Cv). split; [exact Sc|]. lia.
  - destruct (Dn u I E) as (d & r & D & Er). assert (Ir : In r (o_relocs o)) by (apply Rl; eauto 7).
    destruct (Re r Ir) as (v & V & H). destruct (reloc_of_place _ _ _ _ Er) as [E1 E2]. rewrite E1, E2 in H. exists v. split; [|exact H].
    unfold reloc_value in V. rewrite E1, E2 in V. unfold reloc_of in Er. destruct (symbol_of (w_names w) (u_target u)) as [n|] eqn:Sn.
    + injection Er as <-. cbn [r_target r_addend] in V. apply symbol_of_in in Sn.
      assert (LA : forall a, address lk n = Some a -> label_address es lk (u_target u) a).
      { intros a Ea. destruct d as [[g loc]|].
        - left. apply Df in D as D'. exists g, loc. split; [exact D'|]. assert (In (n, binding_of (Some (Def g loc))) (o_symbols o)) as Is.
          { apply (symbols_of_in _ _ _ Sy). eauto. }
          cbn in Is. assert (address lk n = Some (at_ lk loc)) as Eb by (apply Co; destruct g; auto). congruence.
        - right. split; [|exists n; split; [now apply Nm|exact Ea]]. intros g loc Dd. apply Df in Dd. congruence. }
      unfold asked. destruct (u_type u).
      * destruct (address lk n) as [a|] eqn:Ea; cbn in V; [|discriminate V]. injection V as <-. exists a. split; [now apply LA|lia].
      * destruct (address lk n) as [a|] eqn:Ea; cbn in V; [|discriminate V]. injection V as <-. exists a. split; [now apply LA|lia].
      * destruct (entry lk n) as [a|] eqn:Ea; cbn in V; [|discriminate V]. injection V as <-. exists n, a. split; [now apply Nm|]. split; [exact Ea|lia].
      * destruct (address lk n) as [a|] eqn:Ea; cbn in V; [|discriminate V]. injection V as <-. exists a. split; [now apply LA|lia].
    + destruct d as [[g loc]|]; [|discriminate Er]. injection Er as <-. cbn in V. apply Df in D.
      assert (LA : label_address es lk (u_target u) (at_ lk loc)) by (left; eauto).
      unfold asked. destruct (u_type u); try discriminate V; injection V as <-; exists (at_ lk loc); (split; [exact LA|unfold at_; lia]).
Qed.

Lemma bytes_kept w es o lk mem : reached w es -> produce w = Ret (Some o) -> well_placed w es -> linked lk o mem ->
  forall c, exists l, contents es c l /\ Z.of_nat (List.length l) = position w c /\
    forall i b, nth_error l (Z.to_nat i) = Some b -> 0 <= i -> (forall u, In u (uses es) -> ~ covers (u_location u) (u_type u) c i) ->
      mem (place lk c + i) = b.
Proof.
  intros R P WP (Co & Re & By) c. destruct (produced w es o R P WP) as (Le & Ke & St & Rl & Dn).
  exists (buffer c (w_buffers w)). split; [now apply reached_contents|]. split; [reflexivity|]. intros i b N B U. apply By; [|exact B|].
  - rewrite Ke; [exact N|]. intros u I _. rewrite Z2Nat.id by exact B. now apply U.
  - intros r Ir Cv. apply Rl in Ir. destruct Ir as (u' & d' & I' & D' & Sn & Er). apply reloc_of_place in Er. destruct Er as [E1 E2].
    rewrite E1, E2 in Cv. exact (U u' I' Cv).
Qed.

Lemma fine_resolvable w es u : reached w es -> fine (w_defs w) (w_names w) u <-> resolvable es u.
Proof.
  intro R. pose proof (reached_defined w es R) as Df. pose proof (reached_named w es R) as Nm. pose proof (reached_names_ok w es R) as (_ & _ & B).
  unfold fine, resolvable, static, reloc_of. destruct (nth_error (w_defs w) (u_target u)) as [[[g loc]|]|] eqn:D.
  - apply Df in D as D'. cbn [d_location].
    assert (only : forall g' loc', defined es (u_target u) g' loc' -> loc' = loc) by (intros g' loc' H; apply Df in H; congruence).
    destruct (both_in (l_section loc) (l_section (u_location u))) as [c|] eqn:E.
    + apply both_in_some in E. destruct E as [E1 E2]. destruct (is_pc (u_type u)) eqn:Pc.
      * split; [|intros [_ H]; now apply (H g loc c)]. intro H. split; [eauto|]. intros g' loc' c' Dd _ _. now rewrite (only _ _ Dd).
      * split.
        -- intros _. split; [eauto|]. intros g' loc' c' Dd _ _. unfold in_reach. destruct (u_type u); try discriminate Pc; exact I.
        -- intros _. destruct (symbol_of (w_names w) (u_target u)); eauto.
    + split.
      * intros _. split; [eauto|]. intros g' loc' c' Dd S1 S2. rewrite (only _ _ Dd) in S1.
        assert (both_in (l_section loc) (l_section (u_location u)) = Some c') by (apply both_in_some; auto). congruence.
      * intros _. destruct (symbol_of (w_names w) (u_target u)); eauto.
  - assert (nod : forall g loc, ~ defined es (u_target u) g loc) by (intros g loc H; apply Df in H; congruence). split.
    + intros (d & r & E & Er). injection E as <-. destruct (symbol_of (w_names w) (u_target u)) as [n|] eqn:Sn; [|discriminate Er].
      apply symbol_of_in in Sn. split; [right; exists n; now apply Nm|]. intros g loc c H. destruct (nod _ _ H).
    + intros [[(g & loc & H)|(n & H)] _]; [destruct (nod _ _ H)|]. exists None. apply Nm in H.
      destruct (symbol_of (w_names w) (u_target u)) as [m|] eqn:Sn; [eauto|]. destruct (symbol_of_none _ _ Sn _ H).
  - assert (nod : forall g loc, ~ defined es (u_target u) g loc) by (intros g loc H; apply Df in H; congruence).
    split; [intros (d & r & E & _); discriminate E|]. intros [[(g & loc & H)|(n & H)] _]; [destruct (nod _ _ H)|].
    apply Nm, B in H. apply nth_error_None in D. lia.
Qed.

Lemma produce_exact w es : reached w es -> (exists o, produce w = Ret (Some o)) <-> Forall (resolvable es) (uses es).
Proof.
  intro R. destruct (reached_names_ok w es R) as (_ & _ & B). destruct (symbols_of_ok _ _ B) as (syms & Sy).
  assert (F : Forall (fine (w_defs w) (w_names w)) (w_uses w) <-> Forall (resolvable es) (uses es)).
  { rewrite (reached_uses w es R), !Forall_forall. split; intros H u I; apply (fine_resolvable w es u R), H, I. }
  rewrite <- F, <- produce_uses_some. unfold produce. rewrite Sy. cbn [bind]. split.
  - intros (o & H). apply bind_ret in H. destruct H as (st & E & H). destruct st as [st|]; [|discriminate H]. eauto.
  - intros (st & ->). cbn. eauto.
Qed.

Lemma object_symbols w es o : reached w es -> produce w = Ret (Some o) -> forall n b, In (n, b) (o_symbols o) <->
  exists l, named es n l /\
    match b with
    | Global (Some loc) => defined es l true loc
    | Local loc => defined es l false loc
    | Global None => forall g loc, ~ defined es l g loc
    end.
Proof.
  intros R P n b. destruct (produce_parts _ _ P) as (Sy & _ & _). rewrite (symbols_of_in _ _ _ Sy).
  pose proof (reached_defined w es R) as Df. pose proof (reached_named w es R) as Nm. destruct (reached_names_ok w es R) as (_ & _ & B). split.
  - intros (l & d & I & D & ->). exists l. split; [now apply Nm|]. destruct d as [[[] loc]|]; cbn; try now apply Df. intros g loc H. apply Df in H. congruence.
  - intros (l & N & H). exists l. apply Nm in N. destruct (nth_error (w_defs w) l) as [d|] eqn:D.
    + exists d. split; [exact N|]. split; [reflexivity|]. destruct b as [loc|[loc|]].
      * apply Df in H. assert (d = Some (Def false loc)) as -> by congruence. reflexivity.
      * apply Df in H. assert (d = Some (Def true loc)) as -> by congruence. reflexivity.
      * destruct d as [[g loc]|]; [|reflexivity]. destruct (H g loc). now apply Df.
    + apply B in N. apply nth_error_None in D. lia.
Qed.

(** ** Instructions with a label *)

Local Opaque le_bytes.

Definition lookup_inst (n : string) (ks : list Model.kind) : option Model.inst :=
  option_map fst (find (fun e => String.eqb (Model.i_name (fst e)) n &&
      if list_eq_dec kind_dec (Model.i_kinds (fst e)) ks then true else false) Table.table).

Lemma encode_found n ks ops e : lookup_inst n ks = Some e -> encode (n, ks, ops) = Model.write e ops.
Proof. unfold lookup_inst, encode. destruct (find _ _) as [[e' ts]|]; cbn; [|discriminate]. intro H. now injection H as ->. Qed.

Ltac prefix_of x t :=
  lazymatch x with
  | t => constr:(@nil N)
  | ?a :: ?r => let p := prefix_of r t in constr:(a :: p)
  end.
Ltac find_encoding n ks :=
  let e := fresh "e" in let E := fresh "E" in let H := fresh "H" in let z := fresh "z" in
  destruct (lookup_inst n ks) as [e|] eqn:E; [|vm_compute in E; discriminate E];
  pose proof (fun ops => encode_found n ks ops e E) as H; vm_compute in E; injection E as <-;
  eexists; intro z; cbn [instruction nth conditional_jumps operand_bytes]; rewrite H; cbn; rewrite ?app_nil_r;
  match goal with |- Ret ?x = Ret (_ ++ ?t) => let p := prefix_of x t in instantiate (1 := p); reflexivity end.

Lemma jcc_encodes cc l : (cc < 30)%nat -> exists pre, forall z, encode (instruction (Jcc cc l) z) = Ret (pre ++ le_bytes 4 z).
Proof.
  intro B. do 30 (destruct cc as [|cc]; [match goal with |- context [Jcc ?c _] =>
    let n := eval cbv in (nth c conditional_jumps ""%string) in find_encoding n [Model.KI32] end|]). lia.
Qed.

Lemma jcc_short_encodes cc l : (cc < 30)%nat -> exists pre, forall z, encode (instruction (JccShort cc l) z) = Ret (pre ++ le_bytes 1 z).
Proof.
  intro B. do 30 (destruct cc as [|cc]; [match goal with |- context [JccShort ?c _] =>
    let n := eval cbv in (nth c conditional_jumps ""%string) in find_encoding n [Model.KI8] end|]). lia.
Qed.

(** The instructions that exist. *)
Definition exists_inst (i : label_inst) : Prop := match i with Jcc cc _ | JccShort cc _ => (cc < 30)%nat | _ => True end.

Lemma encode_unknown ks ops : encode (""%string, ks, ops) = Panic.
Proof.
  unfold encode. destruct (find _ Table.table) as [[e ts]|] eqn:E; [|reflexivity]. apply find_some in E. destruct E as [I E].
  apply andb_prop in E. destruct E as [E _]. cbn [fst] in E. exfalso.
  assert (A : forallb (fun e => negb (String.eqb (Model.i_name (fst e)) ""%string)) Table.table = true) by (vm_compute; reflexivity).
  rewrite forallb_forall in A. specialize (A _ I). cbn [fst] in A. rewrite E in A. discriminate A.
Qed.

Lemma inst_exists i z bs : encode (instruction i z) = Ret bs -> exists_inst i.
Proof.
  intro H. destruct i as [l|l|l|l|l|cc l|cc l|l r|l r|l n|r l|r l|r l|r l|r l]; cbn [exists_inst]; try exact I;
    (destruct (Nat.lt_ge_cases cc 30) as [L|L]; [exact L|]; cbn [instruction] in H; rewrite nth_overflow in H by exact L;
     rewrite encode_unknown in H; discriminate H).
Qed.

Lemma inst_encodes i : exists_inst i -> ~ is_store_immediate i ->
  exists pre, forall z, encode (instruction i z) = Ret (pre ++ le_bytes (Z.to_nat (operand_bytes i)) z).
Proof.
  intros V N. destruct i as [l|l|l|l|l|cc l|cc l|l r|l r|l n|r l|r l|r l|r l|r l]; cbn [operand_bytes]; change (Z.to_nat 4) with 4%nat; change (Z.to_nat 1) with 1%nat.
  - find_encoding "callq"%string [Model.KI32].
  - find_encoding "callq"%string [Model.KMem].
  - find_encoding "jmpq"%string [Model.KI32].
  - find_encoding "jmpq"%string [Model.KMem].
  - find_encoding "jmpq"%string [Model.KI8].
  - now apply jcc_encodes.
  - now apply jcc_short_encodes.
  - destruct r; find_encoding "movq"%string [Model.KMem; Model.K64].
  - destruct r; find_encoding "movq"%string [Model.KMem; Model.KX].
  - destruct N. exact I.
  - destruct r; find_encoding "movq"%string [Model.K64; Model.KMem].
  - destruct r; find_encoding "movq"%string [Model.KX; Model.KMem].
  - destruct r; find_encoding "movq"%string [Model.K64; Model.KMem].
  - destruct r; find_encoding "movq"%string [Model.KX; Model.KMem].
  - destruct r; find_encoding "leaq"%string [Model.K64; Model.KMem].
Qed.

Lemma store_immediate_encodes l n : exists pre, forall z, encode (instruction (StoreI l n) z) = Ret (pre ++ le_bytes 4 z ++ le_bytes 4 n).
Proof.
  find_encoding "movq"%string [Model.KMem; Model.KI32].
Qed.

Lemma inst_width i : - inst_offset i = operand_bytes i /\ width (inst_type i) = operand_bytes i.
Proof. destruct i; cbn; auto. Qed.

Lemma inst_length i bs : encode (instruction i 0) = Ret bs -> operand_bytes i <= Z.of_nat (List.length bs).
Proof.
  intro H. assert (is_store_immediate i \/ ~ is_store_immediate i) as [S|S] by (destruct i; cbn; tauto).
  - destruct i; try contradiction S. destruct (store_immediate_encodes l z) as (pre & E). rewrite E in H. injection H as <-.
    rewrite !app_length, !le_bytes_length. cbn. lia.
  - destruct (inst_encodes i (inst_exists _ _ _ H) S) as (pre & E). rewrite E in H. injection H as <-.
    rewrite app_length, le_bytes_length. destruct i; cbn; lia.
Qed.

(** Which calls are refused. *)
Lemma position_nonneg w es c : reached w es -> 0 <= position w (In_ c).
Proof. intros _. cbn. lia. Qed.

Lemma step_exact w es c : reached w es -> (exists r, step w c = Ret r) <-> allowed w es c.
Proof.
  intro R. pose proof (reached_known w es R) as K. pose proof (reached_defined w es R) as Df.
  destruct c as [|n|s l g|c bs|s n|s al|loc l ad ty|c d l ad ty|c i]; cbn [allowed step].
  - split; [auto|]. intros _. destruct (issue_label w). eauto.
  - split; [auto|]. intros _. destruct (get_label n w). eauto.
  - split.
    + intros (r & H). apply bind_ret in H. destruct H as (r1 & D & _). unfold define in D. apply bind_ret in D. destruct D as (d & G & D).
      apply vget_some in G. destruct d as [d|]; [discriminate D|]. split; [apply K, nth_error_Some; congruence|].
      intros g' loc H. apply Df in H. congruence.
    + intros [Kn Nd]. apply K in Kn. unfold define. unfold vget. destruct (nth_error (w_defs w) l) as [[[g' loc]|]|] eqn:E.
      * exfalso. apply (Nd g' loc). now apply Df.
      * cbn [bind]. destruct (vset_spec (w_defs w) l (Some (Def g (location_ w s))) Kn) as (l' & -> & _). cbn. eauto.
      * apply nth_error_None in E. lia.
  - split; [auto|eauto].
  - split; [auto|eauto].
  - unfold align. destruct (Z.leb_spec al 0) as [L|L]; cbn [bind].
    + split; [intros (r & H); discriminate H|lia].
    + split; [lia|eauto].
  - split; [auto|eauto].
  - unfold use_relative, offset, location_. cbn [l_pos]. destruct (Z.leb_spec 0 (position w c + d)) as [L|L]; cbn [bind].
    + split; [auto|eauto].
    + split; [intros (r & H); discriminate H|lia].
  - unfold write_label_inst. split.
    + intros (r & H). apply bind_ret in H. destruct H as (r1 & D & _). apply bind_ret in D. destruct D as (bs & E & _). eauto.
    + intros (bs & E). rewrite E. cbn [bind]. unfold use_relative, offset, location_. cbn [l_pos]. rewrite position_append.
      destruct (section_dec c c) as [_|X]; [|congruence]. pose proof (inst_length i bs E). pose proof (inst_width i). pose proof (position_nonneg w es c R).
      destruct (Z.leb_spec 0 (position w c + Z.of_nat (List.length bs) + inst_offset i)) as [L|L]; [cbn; eauto|lia].
Qed.

(** ** The instruction in memory *)

Lemma byte_signed n z v i : signed n v z -> 0 <= i < n -> (v / 256 ^ i) mod 256 = (z / 256 ^ i) mod 256.
Proof.
  intros [_ (k & ->)] L.
  replace (2 ^ (8 * n)) with (256 ^ n) by (change 256 with (2 ^ 8); rewrite <- Z.pow_mul_r by lia; reflexivity).
  replace n with (i + (1 + (n - i - 1))) by lia. rewrite !Z.pow_add_r by lia. change (256 ^ 1) with 256.
  replace (k * (256 ^ i * (256 * 256 ^ (n - i - 1)))) with ((k * 256 ^ (n - i - 1) * 256) * 256 ^ i) by lia.
  rewrite Z.div_add by (apply Z.pow_nonzero; lia). now rewrite Z.mod_add by lia.
Qed.

Lemma signed_exists n v : 0 < n -> exists z, signed n v z.
Proof.
  intro N. set (h := 2 ^ (8 * n - 1)). assert (H : 2 ^ (8 * n) = 2 * h) by (unfold h; rewrite <- Z.pow_succ_r by lia; f_equal; lia).
  assert (0 < h) as Hp by (unfold h; apply Z.pow_pos_nonneg; lia).
  exists ((v + h) mod (2 * h) - h). unfold signed. rewrite H. fold h. pose proof (Z.mod_pos_bound (v + h) (2 * h) ltac:(lia)).
  split; [lia|]. exists ((v + h) / (2 * h)). pose proof (Z.div_mod (v + h) (2 * h) ltac:(lia)). lia.
Qed.

(** An instruction is in the contents where it was written. *)
Lemma inst_written w es : reached w es -> forall e c i, In e es -> e_call e = CInst c i ->
  exists bs, encode (instruction i 0) = Ret bs /\ 0 <= e_before e c /\
    forall j, (j < List.length bs)%nat -> nth_error (buffer c (w_buffers w)) (Z.to_nat (e_before e c) + j) = nth_error bs j.
Proof.
  induction 1 as [|w es cl w' a R IH S]; intros e c i I E; [destruct I|]. destruct (step_writes _ _ _ _ S c) as (bs' & B & W).
  apply in_app_iff in I. destruct I as [I|[<-|[]]].
  - destruct (IH e c i I E) as (bs & En & P & N). exists bs. split; [exact En|]. split; [exact P|]. intros j L. rewrite B, nth_error_app1; [now apply N|].
    apply nth_error_Some. rewrite N by exact L. now apply nth_error_Some.
  - cbn in E. subst cl. inversion W; subst; [|cbn in H; congruence]. exists bs'. split; [assumption|]. cbn [e_before]. split; [cbn; lia|]. intros j L.
    rewrite B. cbn [position]. rewrite Nat2Z.id, nth_error_app2 by lia. f_equal. lia.
Qed.

Lemma inst_use e c i bs : e_call e = CInst c i -> encode (instruction i 0) = Ret bs ->
  uses_by e = [Use (Loc c (e_before e c + Z.of_nat (List.length bs) - operand_bytes i)) (inst_label i) (inst_offset i) (inst_type i)].
Proof. intros E En. unfold uses_by. rewrite E, En. do 3 f_equal. pose proof (inst_width i). lia. Qed.

Lemma instruction_linked w es o lk mem : reached w es -> produce w = Ret (Some o) -> well_placed w es -> linked lk o mem ->
  forall e c i, In e es -> e_call e = CInst c i -> ~ is_store_immediate i ->
  (forall bs u j, encode (instruction i 0) = Ret bs -> In u (uses es) -> 0 <= j < Z.of_nat (List.length bs) - operand_bytes i ->
    ~ covers (u_location u) (u_type u) c (e_before e c + j)) ->
  exists z bs t, encode (instruction i z) = Ret bs /\ loaded mem (place lk c + e_before e c) bs /\ designated es lk i t /\
    signed (operand_bytes i) (t - (place lk c + e_before e c + Z.of_nat (List.length bs))) z.
Proof.
  intros R P WP Lk e c i I E Ns Un. destruct (inst_written w es R e c i I E) as (bs0 & En & Pos & Sl).
  destruct (inst_encodes i (inst_exists _ _ _ En) Ns) as (pre & Ep). pose proof (inst_width i) as [W1 W2].
  assert (Hb : 0 < operand_bytes i) by (destruct i; cbn; lia).
  assert (Len : forall z, List.length (pre ++ le_bytes (Z.to_nat (operand_bytes i)) z) = List.length bs0).
  { intro z. rewrite Ep in En. injection En as <-. now rewrite !app_length, !le_bytes_length. }
  pose proof (Len 0) as Len0. rewrite app_length, le_bytes_length in Len0.
  set (u := Use (Loc c (e_before e c + Z.of_nat (List.length bs0) - operand_bytes i)) (inst_label i) (inst_offset i) (inst_type i)).
  assert (Iu : In u (uses es)).
  { unfold uses. apply in_flat_map. exists e. split; [exact I|]. rewrite (inst_use e c i bs0 E En). now left. }
  destruct (uses_resolved w es o lk mem R P WP Lk u Iu) as (v & A & H).
  assert (T : exists t, designated es lk i t /\ v = t - (place lk c + e_before e c + Z.of_nat (List.length bs0))).
  { unfold asked, u in A. cbn [u_type u_target u_addend u_location] in A. unfold at_ in A. cbn [l_section l_pos] in A.
    destruct i; cbn in Ns; try contradiction; cbn [inst_type inst_label inst_offset designated operand_bytes] in *;
      first [destruct A as (t & A & ->); exists t; split; [exact A|lia] | destruct A as (n & t & A & B & ->); exists t; split; [eauto|lia]]. }
  destruct T as (t & D & V). destruct (signed_exists (operand_bytes i) v Hb) as (z & Sz).
  exists z, (pre ++ le_bytes (Z.to_nat (operand_bytes i)) z), t. split; [apply Ep|]. split; [|split; [exact D|]].
  - intros j b N B. destruct (Z.lt_ge_cases j (Z.of_nat (List.length pre))) as [Lj|Lj].
    + rewrite nth_error_app1 in N by lia. destruct (bytes_kept w es o lk mem R P WP Lk c) as (l & _ & _ & _).
      destruct Lk as (Co & Re & By). destruct (produced w es o R P WP) as (Le & Ke & St & Rl & Dn). rewrite <- Z.add_assoc.
      assert (Nc : forall u, In u (uses es) -> ~ covers (u_location u) (u_type u) c (e_before e c + j)).
      { intros u' I'. apply (Un bs0); auto. lia. }
      apply By; [|lia|].
      * rewrite Ke; [|intros u' I' _; rewrite Z2Nat.id by lia; now apply Nc]. replace (Z.to_nat (e_before e c + j)) with (Z.to_nat (e_before e c) + Z.to_nat j)%nat by lia.
        rewrite Sl by lia. rewrite Ep in En. injection En as <-. rewrite nth_error_app1 by lia. exact N.
      * intros r Ir Cv. apply Rl in Ir. destruct Ir as (u' & d' & I' & D' & Sn & Er). apply reloc_of_place in Er. destruct Er as [E1 E2].
        rewrite E1, E2 in Cv. exact (Nc u' I' Cv).
    + rewrite nth_error_app2 in N by lia. assert (Lz : (Z.to_nat j - List.length pre < Z.to_nat (operand_bytes i))%nat).
      { rewrite <- (le_bytes_length (Z.to_nat (operand_bytes i)) z). apply nth_error_Some. congruence. }
      rewrite le_bytes_nth in N by exact Lz. injection N as <-. unfold u in H. cbn [u_type u_location] in H. unfold at_ in H. cbn [l_section l_pos] in H.
      specialize (H (j - Z.of_nat (List.length pre))). rewrite W2 in H.
      replace (place lk c + (e_before e c + Z.of_nat (List.length bs0) - operand_bytes i) + (j - Z.of_nat (List.length pre)))
        with (place lk c + e_before e c + j) in H by lia.
      rewrite H by lia. f_equal. rewrite (byte_signed (operand_bytes i) z v) by (exact Sz || lia). do 3 f_equal. lia.
  - rewrite Len, <- V. exact Sz.
Qed.
