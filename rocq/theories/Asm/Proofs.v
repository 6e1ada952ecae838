(** * Writing an instruction and reading it back *)
From Coq Require Import NArith ZArith.
From Verif.Base Require Import Base.
From Verif.Asm Require Import Model Manual ProofsBits Table.
Local Open Scope N_scope.

(** ** The shape all instructions have *)

Inductive body := BNone | BPlus (b : N) (i : nat) | BSlash (g r : nat) | BDigit (n : N) (r : nat).
Record shape := Shape { pre : list N; sh_w : bool; opc : list N; sh_body : body; imms : list (nat * nat) }.

Definition body_tokens (b : body) : list token :=
  match b with
  | BNone => []
  | BPlus b i => [TByte b; TPlus i]
  | BSlash g r => [TSlash g r]
  | BDigit n r => [TDigit n r]
  end.
Definition imm_tokens (l : list (nat * nat)) : list token := map (fun x => TImm (fst x) (snd x)) l.
Definition tokens_of (s : shape) : list token :=
  map TByte (pre s) ++ (if sh_w s then [TRexW] else []) ++ map TByte (opc s) ++ body_tokens (sh_body s) ++ imm_tokens (imms s).

Definition rex_piece (b : body) (w : bool) : list piece :=
  match b with
  | BNone => if w then [PRex true] else []
  | BPlus _ _ => [PRioRex w]
  | BSlash _ _ | BDigit _ _ => [PModRex w]
  end.
Definition body_pieces (b : body) : list piece :=
  match b with
  | BNone => []
  | BPlus b _ => [PBytePlus b]
  | BSlash _ _ | BDigit _ _ => [PModRM; PSib; PDisp]
  end.
Definition imm_pieces (l : list (nat * nat)) : list piece := map (fun x => PImm (snd x)) l.
Definition pieces_of (s : shape) : list piece :=
  map PByte (pre s) ++ rex_piece (sh_body s) (sh_w s) ++ map PByte (opc s) ++ body_pieces (sh_body s) ++ imm_pieces (imms s).
Definition modrm_of (b : body) : option (reg_source * nat) :=
  match b with BSlash g r => Some (Op g, r) | BDigit n r => Some (Digit n, r) | _ => None end.
Definition rio_of (b : body) : option nat := match b with BPlus _ i => Some i | _ => None end.

Fixpoint parse_opc (acc : list N) (ts : list token) : list N * body * list token :=
  match ts with
  | TByte b :: TPlus i :: ts => (rev acc, BPlus b i, ts)
  | TByte b :: ts => parse_opc (b :: acc) ts
  | TSlash g r :: ts => (rev acc, BSlash g r, ts)
  | TDigit n r :: ts => (rev acc, BDigit n r, ts)
  | ts => (rev acc, BNone, ts)
  end.
Fixpoint parse_pre (acc : list N) (ts : list token) : list N * list token :=
  match ts with
  | TByte b :: ts' => if is_prefix b then parse_pre (b :: acc) ts' else (rev acc, ts)
  | _ => (rev acc, ts)
  end.
Definition parse (ts : list token) : shape :=
  let '(p, ts) := parse_pre [] ts in
  let '(w, ts) := match ts with TRexW :: ts => (true, ts) | _ => (false, ts) end in
  let '(o, b, ts) := parse_opc [] ts in
  Shape p w o b (flat_map (fun t => match t with TImm n i => [(n, i)] | _ => [] end) ts).

Definition positions (b : body) : list nat :=
  match b with BNone => [] | BPlus _ i => [i] | BSlash g r => [g; r] | BDigit _ r => [r] end.
Definition is_rm (k : kind) : bool := is_reg k || match k with KMem => true | _ => false end.
Definition is_imm (n : nat) (k : kind) : bool :=
  match k with KI8 => (n =? 1)%nat | KI16 => (n =? 2)%nat | KI32 => (n =? 4)%nat | KI64 => (n =? 8)%nat | _ => false end.
Definition kind_is (p : kind -> bool) (kinds : list kind) (i : nat) : bool :=
  match nth_error kinds i with Some k => p k | None => false end.
Definition no_prefix (b : N) : bool := negb (is_prefix b) && negb (is_rex b).

Definition body_ok (kinds : list kind) (b : body) : bool :=
  match b with
  | BNone => true
  | BPlus b i => kind_is is_reg kinds i && forallb (fun d => no_prefix (b + d)) (upto 8)
  | BSlash g r => kind_is is_reg kinds g && kind_is is_rm kinds r
  | BDigit n r => (n <=? 7) && kind_is is_rm kinds r
  end.
Definition head_ok (s : shape) : bool :=
  match opc s, sh_body s with
  | x :: _, _ => no_prefix x
  | [], BPlus _ _ => true
  | [], _ => false
  end.
Definition mem_nat (i : nat) (l : list nat) : bool := existsb (Nat.eqb i) l.
Definition all_used (kinds : list kind) (s : shape) : bool :=
  forallb (fun i => match nth_error kinds i with
    | Some (KFixed _) => true
    | Some (KI8 | KI16 | KI32 | KI64) => mem_nat i (map snd (imms s))
    | Some _ => mem_nat i (positions (sh_body s))
    | None => false
    end) (seq 0 (List.length kinds)).

Definition token_dec (a b : token) : {a = b} + {a <> b}.
Proof. decide equality; auto using N.eq_dec, Nat.eq_dec. Defined.
Definition piece_dec (a b : piece) : {a = b} + {a <> b}.
Proof. decide equality; auto using N.eq_dec, Nat.eq_dec, Bool.bool_dec. Defined.
Definition source_dec (a b : option (reg_source * nat)) : {a = b} + {a <> b}.
Proof. decide equality. decide equality; auto using Nat.eq_dec. decide equality; auto using N.eq_dec, Nat.eq_dec. Defined.
Definition rio_dec (a b : option nat) : {a = b} + {a <> b}.
Proof. decide equality; auto using Nat.eq_dec. Defined.

Definition yes {A B} (d : {A} + {B}) : bool := if d then true else false.
Lemma yes_true {A B} (d : {A} + {B}) : yes d = true -> A.
Proof. destruct d; [auto|discriminate]. Qed.

Definition shaped (e : inst) (ts : list token) (s : shape) : bool :=
  yes (list_eq_dec token_dec (tokens_of s) ts) && yes (list_eq_dec piece_dec (pieces_of s) (i_pieces e)) &&
  yes (source_dec (modrm_of (sh_body s)) (i_modrm e)) && yes (rio_dec (rio_of (sh_body s)) (i_rio e)) &&
  forallb is_prefix (pre s) && head_ok s && body_ok (i_kinds e) (sh_body s) &&
  forallb (fun x => kind_is (is_imm (fst x)) (i_kinds e) (snd x)) (imms s) && all_used (i_kinds e) s.

Lemma table_shaped : forallb (fun x => shaped (fst x) (snd x) (parse (snd x))) table = true.
Proof. vm_compute. reflexivity. Qed.

(** ** One instruction *)

Lemma pieces_app ops v p q : pieces_bytes ops v (p ++ q) =
  let* a := pieces_bytes ops v p in let* b := pieces_bytes ops v q in Ret (a ++ b).
Proof.
  induction p as [|x p IH]; cbn [app pieces_bytes].
  - cbn [bind]. destruct (pieces_bytes ops v q); reflexivity.
  - rewrite IH. destruct (piece_bytes ops v x) as [a| |]; try reflexivity. cbn [bind].
    destruct (pieces_bytes ops v p) as [b| |]; try reflexivity. cbn [bind].
    destruct (pieces_bytes ops v q) as [c| |]; try reflexivity. cbn [bind]. now rewrite app_assoc.
Qed.

Lemma pieces_opcode ops v l : pieces_bytes ops v (map PByte l) = Ret l.
Proof. induction l as [|b l IH]; [reflexivity|]. cbn [map pieces_bytes piece_bytes bind]. rewrite IH. reflexivity. Qed.

Lemma f2_length kinds ops : Forall2 of_kind kinds ops -> List.length kinds = List.length ops.
Proof. induction 1; cbn; congruence. Qed.

Lemma f2_at p kinds ops : Forall2 of_kind kinds ops -> forall i, kind_is p kinds i = true ->
  exists k o, nth_error kinds i = Some k /\ nth_error ops i = Some o /\ p k = true /\ of_kind k o.
Proof.
  unfold kind_is. induction 1 as [|k o ks os K F IH]; intros [|i] H; cbn in H |- *; try discriminate H.
  - exists k, o. auto.
  - apply IH, H.
Qed.

Section One.
Variable kinds : list kind.
Variable ops : list operand.
Hypothesis ops_ok : Forall2 of_kind kinds ops.

Lemma at_kind p i : kind_is p kinds i = true -> exists k o, nth_error kinds i = Some k /\ nth_error ops i = Some o /\
  p k = true /\ of_kind k o.
Proof. apply f2_at, ops_ok. Qed.

Definition view_at (i : nat) : view := match nth_error ops i with Some o => view_of o | None => VOp (OFixed F1) end.
Definition found_at (l : list nat) : found := map (fun i => (i, view_at i)) l.

Lemma found_find i l : In i l -> find_view i (found_at l) = Some (view_at i).
Proof.
  induction l as [|j l IH]; [intros []|]. intros H. cbn [found_at map find_view].
  destruct (Nat.eqb_spec i j) as [->|Ne]; [reflexivity|]. destruct H as [H|H]; [congruence|]. now apply IH.
Qed.

Definition add_found (p : found) (r : option (found * list N)) : option (found * list N) :=
  let? (l, bs) := r in Some (p ++ l, bs).

Lemma imms_good l : forallb (fun x => kind_is (is_imm (fst x)) kinds (snd x)) l = true ->
  exists ib, (forall v, pieces_bytes ops v (imm_pieces l) = Ret ib) /\
    forall rex rest, decode_tokens kinds rex (imm_tokens l) (ib ++ rest) = Some (found_at (map snd l), rest).
Proof.
  induction l as [|[n i] l IH]; intro H.
  - exists []. split; reflexivity.
  - cbn [forallb fst snd] in H. apply andb_prop in H. destruct H as [H1 H2]. destruct (IH H2) as (ib & W & D).
    destruct (at_kind _ _ H1) as (k & o & K & O & I & F).
    assert (E : exists z, imm_bytes o = Ret (le_bytes n z) /\ in_range n z /\ immediate k n z = Some o /\ view_of o = VOp o).
    { destruct k; try discriminate I; cbn [is_imm] in I; apply Nat.eqb_eq in I; subst n; destruct o; try contradiction;
        eexists; (split; [reflexivity|]); (split; [exact F|]); split; reflexivity. }
    destruct E as (z & E1 & E2 & E3 & E4). exists (le_bytes n z ++ ib). split.
    + intro v. cbn [imm_pieces map pieces_bytes piece_bytes snd]. unfold nth_op. rewrite O. cbn [bind]. rewrite E1. cbn [bind].
      fold (imm_pieces l). now rewrite W.
    + intros rex rest. cbn [imm_tokens map decode_tokens fst snd]. unfold kind_at. rewrite K. cbn [obind].
      rewrite <- app_assoc, read_signed_le by exact E2. cbn [obind]. rewrite E3. cbn [obind].
      fold (imm_tokens l). rewrite D. cbn [obind found_at map snd]. unfold view_at. rewrite O, E4. reflexivity.
Qed.

(** What a body makes of the operands: the REX prefix it asks for, and its bytes. *)
Record body_good (b : body) (w : bool) (v : bindings) (p : rex_prefix) (r x bb : bool) : Prop := {
  y_rex : pieces_bytes ops v (rex_piece b w) = rex_byte p w r x bb;
  y_bytes : exists bs, pieces_bytes ops v (body_pieces b) = Ret bs /\
    (forall rex ts rest, p <> Inconsistent -> agrees p (rexed rex) -> rex_r_ (bits rex) = bit r -> rex_x_ (bits rex) = bit x -> rex_b_ (bits rex) = bit bb ->
      decode_tokens kinds rex (body_tokens b ++ ts) (bs ++ rest) = add_found (found_at (positions b)) (decode_tokens kinds rex ts rest)) /\
    (body_ok kinds b = true -> forall c i, b = BPlus c i -> exists y, bs = [y] /\ no_prefix y = true);
  y_prefix : (p = Inconsistent \/ is_denied p && (w || r || x || bb) = true)%bool <->
    (existsb denies_rex ops && (w || existsb needs_rex ops) = true)%bool;
}.

Definition bindings_of (b : body) : outcome bindings :=
  let* m :=
    match modrm_of b with
    | None => Ret None
    | Some (src, j) =>
        let* g := match src with Digit n => part_of_opcode n | Op i => let* o := nth_op i ops in to_reg o end in
        let* o := nth_op j ops in
        let* r := to_rm o in
        Ret (Some (g, r))
    end in
  let* g :=
    match rio_of b with
    | None => Ret None
    | Some i => let* o := nth_op i ops in let* g := to_reg o in Ret (Some g)
    end in
  Ret (m, g).

Definition only_at (l : list nat) (f : operand -> bool) : Prop :=
  forall i o, nth_error ops i = Some o -> f o = true -> In i l.

Lemma existsb_only f l : only_at l f -> (forall i, In i l -> nth_error ops i <> None) ->
  existsb f ops = existsb (fun i => match nth_error ops i with Some o => f o | None => false end) l.
Proof.
  intros H V. apply Bool.eq_true_iff_eq. rewrite !existsb_exists. split.
  - intros (o & O & F). apply In_nth_error in O. destruct O as [i O]. exists i. split; [eapply H; eassumption|]. now rewrite O.
  - intros (i & I & F). destruct (nth_error ops i) as [o|] eqn:E; [|discriminate F]. exists o. split; [eapply nth_error_In, E|exact F].
Qed.

Lemma bind_require (b : bool) A (k : outcome A) : b = true -> require b k = k.
Proof. now intros ->. Qed.

Lemma rm_any p o : is_rm p = true -> of_kind p o ->
  (negative o = true -> to_rm o = Panic) /\ (negative o = false -> exists r, to_rm o = Ret r /\ rm_good p o r).
Proof.
  intros I F. unfold is_rm in I. destruct (is_reg p) eqn:R.
  - split.
    + destruct p; try discriminate R; destruct o; try destruct F; discriminate.
    + intros _. now apply rm_register.
  - destruct p; try discriminate R; try discriminate I. destruct o; try contradiction. split.
    + apply rm_negative.
    + intro N. now apply rm_memory.
Qed.

Lemma reg_not_negative k o : is_reg k = true -> of_kind k o -> negative o = false.
Proof. destruct k, o; try discriminate; try (intros _ []); reflexivity. Qed.
Lemma reg_view k o : is_reg k = true -> of_kind k o -> view_of o = VOp o.
Proof. destruct k, o; try discriminate; try (intros _ []); reflexivity. Qed.

Lemma agrees_merge_l p q x : agrees (merge p q) x -> merge p q <> Inconsistent -> agrees p x /\ agrees q x.
Proof. destruct p, q; cbn; auto; congruence. Qed.

Lemma merge_denied p q w r x b : p <> Inconsistent -> q <> Inconsistent ->
  (merge p q = Inconsistent \/ is_denied (merge p q) && (w || r || x || b) = true)%bool <->
  ((is_denied p || is_denied q) && (w || ((r || is_required p) || (x || b || is_required q))) = true)%bool.
Proof.
  intros P Q. destruct p, q; try congruence; destruct w, r, x, b; cbn;
    (split; [intros [H|H]; congruence|intro H; try discriminate H; first [left; reflexivity|right; reflexivity]]).
Qed.

Lemma modrm_good b w (g : reg) (r : rm) ng dg j k o :
  body_pieces b = [PModRM; PSib; PDisp] -> rex_piece b w = [PModRex w] ->
  nth_error kinds j = Some k -> nth_error ops j = Some o -> rm_good k o r ->
  mod_rm_reg g < 8 -> reg_prefix g <> Inconsistent ->
  ng = (rex_r g || is_required (reg_prefix g))%bool -> dg = is_denied (reg_prefix g) ->
  existsb needs_rex ops = (ng || needs_rex o)%bool -> existsb denies_rex ops = (dg || denies_rex o)%bool ->
  (forall c i, b <> BPlus c i) ->
  (forall rex ts x rest bs f ds, agrees (merge (reg_prefix g) (rm_prefix r)) (rexed rex) -> merge (reg_prefix g) (rm_prefix r) <> Inconsistent ->
     rex_r_ (bits rex) = bit (rex_r g) ->
     field x 3 3 = mod_rm_reg g -> modrm_form (bits rex) x bs = Some (f, ds ++ rest) ->
     rm_view k (rexed rex) f (ds ++ rest) = Some (view_of o, rest) ->
     decode_tokens kinds rex (body_tokens b ++ ts) (x :: bs) = add_found (found_at (positions b)) (decode_tokens kinds rex ts rest)) ->
  body_good b w (Some (g, r), None) (merge (reg_prefix g) (rm_prefix r)) (rex_r g) (rex_x r) (rex_b r).
Proof.
  intros Bp Rp K O [M1 M2 M3 M4 M5 (sib & ds & f & S1 & S2 & S3 & S4)] G1 G2 -> -> Nd De NP Dec.
  destruct (three_fields (mod_rm_mod r) (mod_rm_reg g) (mod_rm_rm r) M1 G1 M2) as (v & V & F1 & F2 & F3 & _).
  split.
  - rewrite Rp. cbn [pieces_bytes piece_bytes fst]. unfold modrm_rex.
    destruct (rex_byte _ w _ _ _); cbn [bind]; rewrite ?app_nil_r; reflexivity.
  - exists (v :: sib ++ ds). split; [|split].
    + rewrite Bp. cbn [pieces_bytes piece_bytes fst]. replace (modrm_byte g r) with (Ret (A := list N) [v]) by (symmetry; exact V).
      cbn [bind]. rewrite S1. cbn [bind]. rewrite S2. cbn [bind]. now rewrite app_nil_r.
    + intros rex ts rest NI A R X B. destruct (agrees_merge_l _ _ _ A NI) as [A1 A2]. cbn [app].
      apply (Dec rex ts v rest ((sib ++ ds) ++ rest) f ds); auto. rewrite <- app_assoc. apply S3; auto.
    + intros _ c i E. now destruct (NP c i).
  - rewrite Nd, De, M4, M5. apply merge_denied; assumption.
Qed.

Ltac at_positions H V := rewrite (existsb_only _ _ H V); cbn [positions existsb].

Lemma body_all b w : body_ok kinds b = true ->
  only_at (positions b) needs_rex -> only_at (positions b) denies_rex -> only_at (positions b) negative ->
  (existsb negative ops = true -> bindings_of b = Panic) /\
  (existsb negative ops = false -> exists v p r x bb, bindings_of b = Ret v /\ body_good b w v p r x bb).
Proof.
  intros Ok On Od Og. destruct b as [|c i|g j|n j]; cbn [body_ok] in Ok.
  - assert (V : forall i, In i (positions BNone) -> nth_error ops i <> None) by (intros i []).
    split; [at_positions Og V; discriminate|]. intros _. exists (None, None), NotRequired, false, false, false. split; [reflexivity|].
    split.
    + destruct w; reflexivity.
    + exists []. split; [reflexivity|]. split; [|intros; discriminate].
      intros rex ts rest _ _ _ _ _. cbn [body_tokens positions found_at map app add_found].
      destruct (decode_tokens kinds rex ts rest) as [[l bs]|]; reflexivity.
    + at_positions On V. at_positions Od V. cbn. split; [intros [H|H]; discriminate H|discriminate].
  - apply andb_prop in Ok. destruct Ok as [K Np]. destruct (at_kind _ _ K) as (k & o & K1 & O & R & F).
    destruct (to_reg_good k o R F) as (r & Tr & [G1 G2 G3 G4 G5]).
    assert (V : forall i0, In i0 (positions (BPlus c i)) -> nth_error ops i0 <> None) by (intros i0 [<-|[]]; congruence).
    split; [at_positions Og V; rewrite O, (reg_not_negative k o R F); discriminate|]. intros _.
    exists (None, Some r), (reg_prefix r), false, false, (rex_r r). split.
    + unfold bindings_of. cbn [modrm_of rio_of bind]. unfold nth_op. rewrite O. cbn [bind]. rewrite Tr. reflexivity.
    + split.
      * cbn [rex_piece pieces_bytes piece_bytes snd]. destruct (rex_byte _ w _ _ _); cbn [bind]; rewrite ?app_nil_r; reflexivity.
      * exists [c + mod_rm_reg r]. split; [reflexivity|]. split.
        -- intros rex ts rest _ A _ _ B. cbn [body_tokens app decode_tokens].
           rewrite (proj2 (N.leb_le c (c + mod_rm_reg r))) by lia. rewrite (proj2 (N.ltb_lt (c + mod_rm_reg r) (c + 8))) by lia. cbn [andb].
           unfold kind_at. rewrite K1. cbn [obind]. fold (bits rex) (rexed rex). rewrite B.
           replace (c + mod_rm_reg r - c) with (mod_rm_reg r) by lia. rewrite (G3 _ A). cbn [obind].
           unfold add_found. cbn [positions found_at map]. unfold view_at. rewrite O, (reg_view k o R F). reflexivity.
        -- intros _ c' i' E. injection E as <- <-. eexists. split; [reflexivity|].
           rewrite forallb_forall in Np. exact (Np _ (in_upto 8 _ G1)).
      * at_positions On V. at_positions Od V. rewrite O, !orb_false_r, G4, G5.
        destruct (reg_prefix r), w, (rex_r r); cbn; try congruence; split; try (intros [H|H]; congruence); auto.
  - apply andb_prop in Ok. destruct Ok as [Kg Kj]. destruct (at_kind _ _ Kg) as (kg & og & K1 & O1 & R1 & F1').
    destruct (at_kind _ _ Kj) as (kj & oj & K2 & O2 & R2 & F2').
    assert (V : forall i0, In i0 (positions (BSlash g j)) -> nth_error ops i0 <> None) by (intros i0 [<-|[<-|[]]]; congruence).
    destruct (to_reg_good kg og R1 F1') as (r & Tr & [G1 G2 G3 G4 G5]). destruct (rm_any kj oj R2 F2') as [Neg Pos].
    at_positions Og V. rewrite O1, O2, (reg_not_negative kg og R1 F1'), orb_false_r. cbn [orb]. split.
    + intro Ng. unfold bindings_of. cbn [modrm_of]. unfold nth_op. rewrite O1. cbn [bind]. rewrite Tr. cbn [bind]. rewrite O2. cbn [bind].
      rewrite (Neg Ng). reflexivity.
    + intro Ng. destruct (Pos Ng) as (m & Tm & Gm). exists (Some (r, m), None). do 4 eexists. split.
      * unfold bindings_of. cbn [modrm_of]. unfold nth_op. rewrite O1. cbn [bind]. rewrite Tr. cbn [bind]. rewrite O2. cbn [bind].
        rewrite Tm. reflexivity.
      * eapply (modrm_good (BSlash g j) w r m _ _ j kj oj); try reflexivity; try eassumption.
        -- rewrite <- G4. at_positions On V. now rewrite O1, O2, orb_false_r.
        -- rewrite <- G5. at_positions Od V. now rewrite O1, O2, orb_false_r.
        -- discriminate.
        -- intros rex ts x rest bs f ds A NI Rr Fx Mf Rv. destruct (agrees_merge_l _ _ _ A NI) as [A1 A2].
           cbn [body_tokens app decode_tokens]. unfold kind_at. rewrite K1, K2. cbn [obind]. fold (bits rex) (rexed rex).
           rewrite Fx, Rr, (G3 _ A1). cbn [obind]. rewrite Mf. cbn [obind]. rewrite Rv. cbn [obind].
           unfold add_found. cbn [positions found_at map]. unfold view_at. rewrite O1, O2, (reg_view kg og R1 F1'). reflexivity.
  - apply andb_prop in Ok. destruct Ok as [Kn Kj]. apply N.leb_le in Kn.
    destruct (at_kind _ _ Kj) as (kj & oj & K2 & O2 & R2 & F2').
    assert (V : forall i0, In i0 (positions (BDigit n j)) -> nth_error ops i0 <> None) by (intros i0 [<-|[]]; congruence).
    destruct (rm_any kj oj R2 F2') as [Neg Pos].
    assert (Dg : part_of_opcode n = Ret (Reg n false NotRequired)).
    { assert (In n (upto 8)) by (apply in_upto; lia). cbn in H. repeat (destruct H as [<-|H]; [reflexivity|]). destruct H. }
    at_positions Og V. rewrite O2, orb_false_r. cbn [orb]. split.
    + intro Ng. unfold bindings_of. cbn [modrm_of]. rewrite Dg. cbn [bind]. unfold nth_op. rewrite O2. cbn [bind].
      rewrite (Neg Ng). reflexivity.
    + intro Ng. destruct (Pos Ng) as (m & Tm & Gm). exists (Some (Reg n false NotRequired, m), None). do 4 eexists. split.
      * unfold bindings_of. cbn [modrm_of]. rewrite Dg. cbn [bind]. unfold nth_op. rewrite O2. cbn [bind].
        rewrite Tm. reflexivity.
      * eapply (modrm_good (BDigit n j) w (Reg n false NotRequired) m _ _ j kj oj); try reflexivity; try eassumption; cbn [mod_rm_reg reg_prefix rex_r]; try lia.
        -- discriminate.
        -- at_positions On V. now rewrite O2, orb_false_r.
        -- at_positions Od V. now rewrite O2, orb_false_r.
        -- discriminate.
        -- intros rex ts x rest bs f ds A NI Rr Fx Mf Rv.
           cbn [body_tokens app decode_tokens]. rewrite Fx, N.eqb_refl. unfold kind_at. rewrite K2. cbn [obind]. fold (bits rex) (rexed rex).
           rewrite Mf. cbn [obind]. rewrite Rv. cbn [obind].
           unfold add_found. cbn [positions found_at map]. unfold view_at. rewrite O2. reflexivity.
Qed.

Lemma decode_opcode rex l ts rest : (forall i ts', ts <> TPlus i :: ts') ->
  decode_tokens kinds rex (map TByte l ++ ts) (l ++ rest) = decode_tokens kinds rex ts rest.
Proof.
  intro H. induction l as [|b l IH]; [reflexivity|]. cbn [map app].
  assert (E : decode_tokens kinds rex (TByte b :: map TByte l ++ ts) (b :: l ++ rest) =
    if b =? b then decode_tokens kinds rex (map TByte l ++ ts) (l ++ rest) else None).
  { destruct l; [|reflexivity]. cbn [map app]. destruct ts as [|[]]; try reflexivity. now destruct (H r ts). }
  rewrite E, N.eqb_refl. exact IH.
Qed.

Lemma views_good l : forall ks os n, Forall2 of_kind ks os ->
  (forall i, match nth_error ks i with
     | Some (KFixed _) | None => True
     | _ => exists o, nth_error os i = Some o /\ find_view (n + i) l = Some (view_of o)
     end) ->
  views ks n l = Some (map view_of os).
Proof.
  intros ks os n F. revert n. induction F as [|k o ks os K F IH]; intros n H; [reflexivity|].
  cbn [views map]. specialize (IH (S n)).
  assert (V : match k with KFixed f => Some (VOp (OFixed f)) | _ => find_view n l end = Some (view_of o)).
  { pose proof (H 0%nat) as H0. cbn [nth_error] in H0. rewrite Nat.add_0_r in H0.
    destruct k; try (destruct H0 as (o' & O & E); injection O as <-; exact E). destruct o; try contradiction. cbn in K. now subst. }
  rewrite V. cbn [obind]. rewrite IH; [reflexivity|]. intro i. pose proof (H (S i)) as H1. cbn [nth_error] in H1.
  now rewrite Nat.add_succ_r in H1.
Qed.

Lemma decode_pre ts0 : forall l bs, forallb is_prefix l = true ->
  decode_prefixes kinds (map TByte l ++ ts0) (l ++ bs) = decode_prefixes kinds ts0 bs.
Proof.
  induction l as [|b l IH]; intros bs H; [reflexivity|]. cbn [forallb] in H. apply andb_prop in H. destruct H as [H1 H2].
  cbn [map app decode_prefixes]. rewrite H1, N.eqb_refl. auto.
Qed.

Lemma used_only s f : all_used kinds s = true ->
  (forall o, f o = true -> match o with OFixed _ | OI8 _ | OI16 _ | OI32 _ | OI64 _ => False | _ => True end) ->
  only_at (positions (sh_body s)) f.
Proof.
  intros U Hf i o O F. unfold all_used in U. rewrite forallb_forall in U.
  assert (L : (i < List.length kinds)%nat) by (rewrite (f2_length _ _ ops_ok); apply nth_error_Some; congruence).
  specialize (U i ltac:(apply in_seq; lia)).
  assert (K : exists k, nth_error kinds i = Some k /\ of_kind k o).
  { destruct (nth_error kinds i) as [k|] eqn:K; [|apply nth_error_None in K; lia].
    destruct (f2_at (fun _ => true) _ _ ops_ok i) as (k' & o' & K' & O' & _ & Of); [unfold kind_is; now rewrite K|].
    exists k'. split; congruence. }
  destruct K as (k & K & Of). rewrite K in U. specialize (Hf o F).
  assert (M : mem_nat i (positions (sh_body s)) = true).
  { destruct k; destruct o; try contradiction; exact U. }
  apply existsb_exists in M. destruct M as (j & J & E). apply Nat.eqb_eq in E. now subst.
Qed.

Lemma used_found s i : all_used kinds s = true ->
  match nth_error kinds i with
  | Some (KFixed _) | None => True
  | _ => exists o, nth_error ops i = Some o /\ find_view i (found_at (positions (sh_body s) ++ map snd (imms s))) = Some (view_of o)
  end.
Proof.
  intro U. destruct (nth_error kinds i) as [k|] eqn:K; [|trivial].
  destruct (f2_at (fun _ => true) _ _ ops_ok i) as (k' & o & K' & O & _ & Of); [unfold kind_is; now rewrite K|].
  assert (L : (i < List.length kinds)%nat) by (apply nth_error_Some; congruence).
  unfold all_used in U. rewrite forallb_forall in U. specialize (U i ltac:(apply in_seq; lia)). rewrite K in U.
  assert (G : mem_nat i (positions (sh_body s)) = true \/ mem_nat i (map snd (imms s)) = true ->
    exists o0, nth_error ops i = Some o0 /\ find_view i (found_at (positions (sh_body s) ++ map snd (imms s))) = Some (view_of o0)).
  { intro M. exists o. split; [exact O|]. rewrite found_find; [unfold view_at; now rewrite O|]. apply in_or_app.
    destruct M as [M|M]; apply existsb_exists in M; destruct M as (j & J & E); apply Nat.eqb_eq in E; subst; auto. }
  destruct k; auto.
Qed.

Lemma write_shaped e ts s : i_kinds e = kinds -> shaped e ts s = true ->
  (encodable ts ops -> exists bs, write e ops = Ret bs /\ forall rest, decode kinds ts (bs ++ rest) = Some (map view_of ops, rest)) /\
  (~ encodable ts ops -> write e ops = Panic).
Proof.
  intros Ek H. unfold shaped in H.
  apply andb_prop in H; destruct H as [H U]. apply andb_prop in H; destruct H as [H Im]. apply andb_prop in H; destruct H as [H Bo].
  apply andb_prop in H; destruct H as [H Hd]. apply andb_prop in H; destruct H as [H Pr]. apply andb_prop in H; destruct H as [H Ri].
  apply andb_prop in H; destruct H as [H Mo]. apply andb_prop in H; destruct H as [To Pi].
  apply yes_true in To, Pi, Mo, Ri. rewrite Ek in *.
  assert (On : only_at (positions (sh_body s)) needs_rex) by (apply used_only; [exact U|]; intros []; cbn; auto; discriminate).
  assert (Od : only_at (positions (sh_body s)) denies_rex) by (apply used_only; [exact U|]; intros []; cbn; auto; discriminate).
  assert (Og : only_at (positions (sh_body s)) negative) by (apply used_only; [exact U|]; intros []; cbn; auto; discriminate).
  destruct (body_all (sh_body s) (sh_w s) Bo On Od Og) as [Neg Pos]. destruct (imms_good _ Im) as (ib & W & D).
  assert (Wr : write e ops = let* v := bindings_of (sh_body s) in pieces_bytes ops v (pieces_of s)).
  { unfold write, bindings_of. rewrite <- Mo, <- Ri, <- Pi.
    destruct (match modrm_of (sh_body s) with Some (src, j) => _ | None => Ret None end) as [m| |]; try reflexivity. cbn [bind].
    destruct (match rio_of (sh_body s) with Some i => _ | None => Ret None end) as [g| |]; reflexivity. }
  assert (Wd : wide ts = sh_w s).
  { rewrite <- To. unfold wide, tokens_of. rewrite !existsb_app.
    assert (Z : forall l, existsb (fun t => match t with TRexW => true | _ => false end) (map TByte l) = false)
      by (induction l as [|? ? IHl]; [reflexivity|exact IHl]).
    assert (Z2 : forall l, existsb (fun t => match t with TRexW => true | _ => false end) (imm_tokens l) = false)
      by (induction l as [|? ? IHl]; [reflexivity|exact IHl]).
    rewrite !Z, Z2. destruct (sh_w s), (sh_body s); reflexivity. }
  unfold encodable. rewrite Wd. destruct (existsb negative ops) eqn:Ng.
  - split; [intros [_ E]; discriminate E|]. intros _. rewrite Wr, (Neg eq_refl). reflexivity.
  - destruct (Pos eq_refl) as (v & p & r & x & bb & Bi & [Yr (bs & Yb & Yd & Yp) Yx]).
    assert (Wr2 : write e ops = let* rx := rex_byte p (sh_w s) r x bb in Ret (pre s ++ rx ++ opc s ++ bs ++ ib)).
    { rewrite Wr, Bi. cbn [bind]. unfold pieces_of. rewrite !pieces_app, !pieces_opcode, Yr, Yb, W.
      destruct (rex_byte p (sh_w s) r x bb); reflexivity. }
    split.
    + intros [E _]. assert (NI : ~ (p = Inconsistent \/ (is_denied p && (sh_w s || r || x || bb))%bool = true)) by (rewrite Yx, E; discriminate).
      assert (NI1 : p <> Inconsistent) by tauto. assert (NI2 : (is_denied p && (sh_w s || r || x || bb))%bool = false) by (destruct (is_denied p && _)%bool; tauto).
      rewrite (rex_byte_exact p (sh_w s) r x bb NI1 NI2) in Wr2. cbn [bind] in Wr2.
      set (rx := rex_of p (sh_w s) r x bb) in *. exists (pre s ++ opt_list rx ++ opc s ++ bs ++ ib). split; [exact Wr2|]. intro rest.
      assert (Dt : decode_tokens kinds rx (map TByte (opc s) ++ body_tokens (sh_body s) ++ imm_tokens (imms s)) (opc s ++ bs ++ ib ++ rest) =
        Some (found_at (positions (sh_body s) ++ map snd (imms s)), rest)).
      { rewrite decode_opcode.
        - destruct (rex_of_bits p (sh_w s) r x bb) as (B1 & B2 & B3 & B4). fold rx in B1, B2, B3, B4.
          rewrite Yd; auto.
          + rewrite D. cbn [add_found obind]. unfold found_at. now rewrite map_app.
          + unfold agrees, rx, rex_of. destruct p; auto.
            * now rewrite orb_true_r.
            * cbn [is_denied andb is_required] in NI2 |- *. rewrite orb_false_r, NI2. reflexivity.
        - intros i ts'. destruct (sh_body s); cbn; try discriminate. destruct (imms s); discriminate. }
      assert (Hh : exists y ys, opc s ++ bs ++ ib ++ rest = y :: ys /\ is_rex y = false).
      { unfold head_ok in Hd. destruct (opc s) as [|y ys] eqn:Eo.
        - destruct (sh_body s) eqn:Eb; try discriminate Hd. destruct (Yp Bo _ _ eq_refl) as (y & -> & Np). exists y, (ib ++ rest). split; [reflexivity|].
          apply andb_prop in Np. destruct Np as [_ Np]. now apply negb_true_iff.
        - exists y. eexists. split; [reflexivity|]. apply andb_prop in Hd. destruct Hd as [_ Np]. now apply negb_true_iff. }
      assert (Dr : forall w', w' = sh_w s -> decode_rex kinds w' (map TByte (opc s) ++ body_tokens (sh_body s) ++ imm_tokens (imms s))
        (opt_list rx ++ opc s ++ bs ++ ib ++ rest) = Some (found_at (positions (sh_body s) ++ map snd (imms s)), rest)).
      { intros w' ->. unfold rx, rex_of in Dt |- *. destruct (sh_w s || r || x || bb || is_required p)%bool eqn:Er; cbn [opt_list app].
        - destruct (rex_value_ok (sh_w s) r x bb) as (V1 & V2 & _). unfold decode_rex. rewrite V1, V2.
          destruct (sh_w s); exact Dt.
        - destruct Hh as (y & ys & E1 & E2). rewrite E1 in *. unfold decode_rex. rewrite E2.
          destruct (sh_w s); [discriminate Er|exact Dt]. }
      unfold decode. rewrite <- To. unfold tokens_of. rewrite <- !app_assoc, decode_pre by exact Pr.
      assert (Dp : decode_prefixes kinds ((if sh_w s then [TRexW] else []) ++ map TByte (opc s) ++ body_tokens (sh_body s) ++ imm_tokens (imms s))
        (opt_list rx ++ opc s ++ bs ++ ib ++ rest) = Some (found_at (positions (sh_body s) ++ map snd (imms s)), rest)).
      { destruct (sh_w s) eqn:Ew; cbn [app].
        - cbn [decode_prefixes]. apply Dr. reflexivity.
        - assert (Hp : exists y ys, map TByte (opc s) ++ body_tokens (sh_body s) ++ imm_tokens (imms s) = TByte y :: ys /\ is_prefix y = false).
          { unfold head_ok in Hd. destruct (opc s) as [|y ys] eqn:Eo.
            - destruct (sh_body s) as [|c i| |] eqn:Eb; try discriminate Hd. exists c. eexists. split; [reflexivity|].
              cbn [body_ok] in Bo. apply andb_prop in Bo. destruct Bo as [_ Bo]. rewrite forallb_forall in Bo.
              specialize (Bo 0 (in_upto 8 0 eq_refl)). rewrite N.add_0_r in Bo. apply andb_prop in Bo. now apply negb_true_iff.
            - exists y. eexists. split; [reflexivity|]. apply andb_prop in Hd. now apply negb_true_iff. }
          destruct Hp as (y & ys & E1 & E2). pose proof (Dr false eq_refl) as Dr0. rewrite E1 in *. cbn [decode_prefixes]. rewrite E2. exact Dr0. }
      rewrite Dp. cbn [obind]. rewrite (views_good _ kinds ops 0 ops_ok); [reflexivity|]. intro i. now apply used_found.
    + intro NE. assert (I : p = Inconsistent \/ (is_denied p && (sh_w s || r || x || bb))%bool = true).
      { apply Yx. destruct (existsb denies_rex ops && (sh_w s || existsb needs_rex ops))%bool; [reflexivity|]. exfalso. apply NE. auto. }
      rewrite (rex_byte_panic _ _ _ _ _ I) in Wr2. exact Wr2.
Qed.
End One.

(** ** All instructions *)

Lemma encodable_dec ts ops : encodable ts ops \/ ~ encodable ts ops.
Proof.
  unfold encodable. destruct (existsb denies_rex ops && (wide ts || existsb needs_rex ops))%bool, (existsb negative ops);
    try (now left); right; intros [? ?]; discriminate.
Qed.

Lemma write_entry e ts ops : In (e, ts) table -> Forall2 of_kind (i_kinds e) ops ->
  (encodable ts ops -> exists bs, write e ops = Ret bs /\ forall rest, decode (i_kinds e) ts (bs ++ rest) = Some (map view_of ops, rest)) /\
  (~ encodable ts ops -> write e ops = Panic).
Proof.
  intros I F. pose proof table_shaped as T. rewrite forallb_forall in T. specialize (T _ I). cbn [fst snd] in T.
  exact (write_shaped _ _ F _ _ _ eq_refl T).
Qed.

Lemma write_decode e ts ops bs rest : In (e, ts) table -> Forall2 of_kind (i_kinds e) ops ->
  write e ops = Ret bs -> decode (i_kinds e) ts (bs ++ rest) = Some (map view_of ops, rest).
Proof.
  intros I F W. destruct (write_entry e ts ops I F) as [H1 H2]. destruct (encodable_dec ts ops) as [E|E].
  - destruct (H1 E) as (bs' & W' & D). rewrite W in W'. injection W' as <-. apply D.
  - rewrite (H2 E) in W. discriminate W.
Qed.

Lemma write_defined e ts ops : In (e, ts) table -> Forall2 of_kind (i_kinds e) ops ->
  (exists bs, write e ops = Ret bs) <-> encodable ts ops.
Proof.
  intros I F. destruct (write_entry e ts ops I F) as [H1 H2]. split.
  - intros [bs W]. destruct (encodable_dec ts ops) as [E|E]; [exact E|]. rewrite (H2 E) in W. discriminate W.
  - intro E. destruct (H1 E) as (bs & W & _). eauto.
Qed.
