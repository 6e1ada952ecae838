(** * Instructions with the same bytes *)
From Coq Require Import NArith ZArith.
From Verif.Base Require Import Base.
From Verif.Asm Require Import Model Manual Spec ProofsBits Table Proofs.
Local Open Scope N_scope.

(** ** What the opcode bytes can be *)

Inductive pat := PEq (b : N) | PAdd (b : N) | PMod (memory : bool) (d : option N).
Definition matches (p : pat) (x : N) : bool :=
  match p with
  | PEq b => x =? b
  | PAdd b => (b <=? x) && (x <? b + 8)
  | PMod m d => Bool.eqb m (negb (field x 6 2 =? 3)) && match d with Some n => field x 3 3 =? n | None => true end
  end.
Fixpoint matches_all (ps : list pat) (l : list N) : bool :=
  match ps, l with
  | [], _ => true
  | p :: ps, x :: l => matches p x && matches_all ps l
  | _ :: _, [] => false
  end.

Definition memory_at (kinds : list kind) (r : nat) : bool :=
  match nth_error kinds r with Some KMem => true | _ => false end.
Definition body_pats (kinds : list kind) (b : body) : list pat :=
  match b with
  | BNone => []
  | BPlus b _ => [PAdd b]
  | BSlash _ r => [PMod (memory_at kinds r) None]
  | BDigit n r => [PMod (memory_at kinds r) (Some n)]
  end.
Definition pats (kinds : list kind) (s : shape) : list pat := map PEq (opc s) ++ body_pats kinds (sh_body s).

Definition clash (p q : pat) : bool :=
  match p, q with
  | PEq a, PEq b => negb (a =? b)
  | PEq a, q => negb (matches q a)
  | p, PEq b => negb (matches p b)
  | PAdd a, PAdd b => (a + 8 <=? b) || (b + 8 <=? a)
  | PMod m d, PMod m' d' => negb (Bool.eqb m m') || match d, d' with Some a, Some b => negb (a =? b) | _, _ => false end
  | _, _ => false
  end.
Fixpoint apart (l1 l2 : list pat) : bool :=
  match l1, l2 with
  | p :: l1, q :: l2 => clash p q || apart l1 l2
  | _, _ => false
  end.

Lemma clash_sound p q x : clash p q = true -> matches p x = true -> matches q x = true -> False.
Proof.
  intros C P Q.
  assert (A : forall a r, negb (matches r a) = true -> matches (PEq a) x = true -> matches r x = true -> False).
  { intros a r N E R. cbn in E. apply N.eqb_eq in E. subst a. rewrite R in N. discriminate N. }
  destruct p as [a|a|m d], q as [b|b|m' d'].
  - cbn in *. apply N.eqb_eq in P, Q. subst. rewrite N.eqb_refl in C. discriminate C.
  - exact (A a _ C P Q).
  - exact (A a _ C P Q).
  - exact (A b _ C Q P).
  - cbn in *. apply andb_prop in P, Q. destruct P as [P1 P2], Q as [Q1 Q2].
    apply N.leb_le in P1, Q1. apply N.ltb_lt in P2, Q2. apply orb_prop in C. destruct C as [C|C]; apply N.leb_le in C; lia.
  - discriminate C.
  - exact (A b _ C Q P).
  - discriminate C.
  - cbn [matches clash] in *. apply andb_prop in P, Q. destruct P as [P1 P2], Q as [Q1 Q2]. apply Bool.eqb_prop in P1, Q1. subst.
    rewrite Bool.eqb_reflx in C. cbn in C. destruct d as [u|], d' as [v|]; try discriminate C.
    apply N.eqb_eq in P2, Q2. rewrite <- P2, <- Q2, N.eqb_refl in C. discriminate C.
Qed.

Lemma apart_sound l1 : forall l2 u, apart l1 l2 = true -> matches_all l1 u = true -> matches_all l2 u = true -> False.
Proof.
  induction l1 as [|p l1 IH]; intros [|q l2] [|x u] C P Q; cbn in *; try discriminate.
  apply andb_prop in P, Q. destruct P as [P1 P2], Q as [Q1 Q2]. apply orb_prop in C. destruct C as [C|C].
  - exact (clash_sound _ _ _ C P1 Q1).
  - exact (IH _ _ C P2 Q2).
Qed.

(** ** Bytes that are read as an instruction *)

Section Read.
Variable kinds : list kind.

Lemma view_memory k e f bs r : rm_view k e f bs = Some r ->
  match f with FReg _ => is_reg k = true | FMem _ _ _ => k = KMem end.
Proof.
  destruct f as [n|b i sz]; cbn [rm_view].
  - intro H. destruct k; try reflexivity; discriminate H.
  - destruct k; try discriminate. reflexivity.
Qed.

Lemma form_mod x b bs f r : modrm_form x b bs = Some (f, r) ->
  match f with FReg _ => field b 6 2 = 3 | FMem _ _ _ => field b 6 2 <> 3 end.
Proof.
  unfold modrm_form. destruct (N.eqb_spec (field b 6 2) 3) as [E|E]; [intro H; injection H as <- _; exact E|].
  destruct (field b 0 3 =? 4).
  - destruct bs as [|sib bs]; [discriminate|]. destruct (if _ =? 4 then _ else _) as [i|]; [|discriminate]. cbn [obind].
    destruct ((field sib 0 3 =? 5) && (field b 6 2 =? 0)); [intro H; injection H as <- _; exact E|].
    destruct (register _); [|discriminate]. cbn [obind]. intro H. injection H as <- _. exact E.
  - destruct ((field b 0 3 =? 5) && (field b 6 2 =? 0)); [intro H; injection H as <- _; exact E|].
    destruct (register _); [|discriminate]. cbn [obind]. intro H. injection H as <- _. exact E.
Qed.

Lemma rm_matches x b bs f r k e v j : modrm_form x b bs = Some (f, r) -> rm_view k e f r = Some v -> nth_error kinds j = Some k ->
  Bool.eqb (memory_at kinds j) (negb (field b 6 2 =? 3)) = true.
Proof.
  intros M V K. apply form_mod in M. apply view_memory in V. unfold memory_at. rewrite K. destruct f.
  - rewrite M. destruct k; try discriminate V; reflexivity.
  - subst k. apply N.eqb_neq in M. now rewrite M.
Qed.

Lemma tokens_match rex l b ts : forall u r, decode_tokens kinds rex (map TByte l ++ body_tokens b ++ imm_tokens ts) u = Some r ->
  matches_all (map PEq l ++ body_pats kinds b) u = true.
Proof.
  induction l as [|c l IH]; intros u r H.
  - cbn [map app] in *. destruct b as [|c i|g j|n j]; [reflexivity|..]; cbn [body_tokens app decode_tokens] in H; destruct u as [|x u]; try discriminate H;
      cbn [body_pats matches_all matches]; rewrite ?andb_true_r.
    + destruct ((c <=? x) && (x <? c + 8))%bool; [reflexivity|discriminate H].
    + unfold kind_at in H. destruct (nth_error kinds g) as [kg|]; [|discriminate H]. destruct (nth_error kinds j) as [k|] eqn:K; [|discriminate H]. cbn [obind] in H.
      destruct (register_of _ _ _); [|discriminate H]. cbn [obind] in H. destruct (modrm_form _ x u) as [[f bs]|] eqn:M; [|discriminate H]. cbn [obind] in H.
      destruct (rm_view _ _ _ _) as [[v bs']|] eqn:V; [|discriminate H]. exact (rm_matches _ _ _ _ _ _ _ _ _ M V K).
    + destruct (field x 3 3 =? n); [|discriminate H]. unfold kind_at in H. destruct (nth_error kinds j) as [k|] eqn:K; [|discriminate H]. cbn [obind] in H.
      destruct (modrm_form _ x u) as [[f bs]|] eqn:M; [|discriminate H]. cbn [obind] in H.
      destruct (rm_view _ _ _ _) as [[v bs']|] eqn:V; [|discriminate H]. rewrite andb_true_r. exact (rm_matches _ _ _ _ _ _ _ _ _ M V K).
  - cbn [map app] in *.
    assert (E : exists u', u = c :: u' /\ decode_tokens kinds rex (map TByte l ++ body_tokens b ++ imm_tokens ts) u' = Some r).
    { assert (G : forall ts', (forall i ts2, ts' <> TPlus i :: ts2) -> decode_tokens kinds rex (TByte c :: ts') u = Some r ->
        exists u', u = c :: u' /\ decode_tokens kinds rex ts' u' = Some r).
      { intros ts' Np D. destruct u as [|x u]; [exfalso; destruct ts' as [|[]]; try discriminate D; eapply Np; reflexivity|].
        assert (D2 : (if x =? c then decode_tokens kinds rex ts' u else None) = Some r)
          by (destruct ts' as [|[]]; try exact D; exfalso; eapply Np; reflexivity).
        destruct (N.eqb_spec x c) as [->|]; [|discriminate D2]. eauto. }
      apply G; [|exact H]. intros i ts2. destruct l; [|discriminate]. cbn [map app]. destruct b; try discriminate. destruct ts; discriminate. }
    destruct E as (u' & -> & D). cbn [matches_all matches]. rewrite N.eqb_refl. exact (IH _ _ D).
Qed.

Lemma rex_no_prefix x : is_rex x = true -> is_prefix x = false.
Proof. unfold is_rex, is_prefix. rewrite andb_true_iff, !N.leb_le. intro H. rewrite !(proj2 (N.eqb_neq _ _)) by lia. reflexivity. Qed.

Record reads (s : shape) (bs : list N) (rx : option N) (u : list N) : Prop := {
  r_bytes : bs = pre s ++ opt_list rx ++ u;
  r_rex : match rx with Some x => is_rex x = true /\ (rex_w x =? 1) = sh_w s | None => sh_w s = false end;
  r_head : match u with x :: _ => no_prefix x = true | [] => False end;
  r_match : matches_all (pats kinds s) u = true }.

Lemma decode_reads s bs r : forallb is_prefix (pre s) = true -> head_ok s = true -> body_ok kinds (sh_body s) = true ->
  decode_prefixes kinds (tokens_of s) bs = Some r -> exists rx u, reads s bs rx u.
Proof.
  intros Pr Hd Bo. unfold tokens_of.
  assert (G : forall l, forallb is_prefix l = true -> forall bs, decode_prefixes kinds (map TByte l ++ (if sh_w s then [TRexW] else []) ++ map TByte (opc s) ++
      body_tokens (sh_body s) ++ imm_tokens (imms s)) bs = Some r ->
    exists bs', bs = l ++ bs' /\ decode_prefixes kinds ((if sh_w s then [TRexW] else []) ++ map TByte (opc s) ++
      body_tokens (sh_body s) ++ imm_tokens (imms s)) bs' = Some r).
  { induction l as [|b l IH]; intros Hl bs0 D.
    - exists bs0. auto.
    - cbn [forallb] in Hl. apply andb_prop in Hl. destruct Hl as [Hb Hl]. cbn [map app decode_prefixes] in D. rewrite Hb in D.
      destruct bs0 as [|x bs0]; [discriminate D|]. destruct (N.eqb_spec x b) as [->|]; [|discriminate D].
      destruct (IH Hl _ D) as (bs' & -> & D'). exists bs'. auto. }
  intro D. destruct (G _ Pr _ D) as (bs' & -> & D'). clear G D.
  set (ts := map TByte (opc s) ++ body_tokens (sh_body s) ++ imm_tokens (imms s)) in *.
  assert (Hp : exists y ys, ts = TByte y :: ys /\ is_prefix y = false).
  { unfold ts, head_ok in *. destruct (opc s) as [|y ys] eqn:Eo.
    - destruct (sh_body s) as [|c i| |] eqn:Eb; try discriminate Hd. exists c. eexists. split; [reflexivity|].
      cbn [body_ok] in Bo. apply andb_prop in Bo. destruct Bo as [_ Bo]. rewrite forallb_forall in Bo.
      specialize (Bo 0 (in_upto 8 0 eq_refl)). rewrite N.add_0_r in Bo. apply andb_prop in Bo. now apply negb_true_iff.
    - exists y. eexists. split; [reflexivity|]. apply andb_prop in Hd. now apply negb_true_iff. }
  assert (Dr : decode_rex kinds (sh_w s) ts bs' = Some r).
  { destruct (sh_w s); [exact D'|]. cbn [app] in D'. destruct Hp as (y & ys & E1 & E2). rewrite E1 in *. cbn [decode_prefixes] in D'. now rewrite E2 in D'. }
  assert (Hm : forall rx u, decode_tokens kinds rx ts u = Some r -> matches_all (pats kinds s) u = true) by (intros rx u; apply tokens_match).
  assert (Hh : forall u, matches_all (pats kinds s) u = true -> match u with x :: _ => no_prefix x = true | [] => False end).
  { intros u M. unfold pats, head_ok in *. destruct (opc s) as [|y ys] eqn:Eo.
    - destruct (sh_body s) as [|c i| |] eqn:Eb; try discriminate Hd. destruct u as [|x u]; [discriminate M|].
      cbn [body_pats map app matches_all matches] in M. rewrite andb_true_r in M. apply andb_prop in M. destruct M as [M1 M2]. apply N.leb_le in M1. apply N.ltb_lt in M2.
      cbn [body_ok] in Bo. apply andb_prop in Bo. destruct Bo as [_ Bo]. rewrite forallb_forall in Bo.
      assert (L : x - c < N.of_nat 8) by (clear - M1 M2; lia). specialize (Bo _ (in_upto 8 _ L)).
      replace (c + (x - c)) with x in Bo by (clear - M1; lia). exact Bo.
    - destruct u as [|x u]; [discriminate M|]. cbn [map app matches_all matches] in M. apply andb_prop in M. destruct M as [M _]. apply N.eqb_eq in M. now subst. }
  unfold decode_rex in Dr. destruct bs' as [|x bs']; [discriminate Dr|]. destruct (is_rex x) eqn:Rx.
  - destruct (Bool.eqb (rex_w x =? 1) (sh_w s)) eqn:E; [|discriminate Dr]. apply Bool.eqb_prop in E.
    exists (Some x), bs'. split; [reflexivity|split; assumption|apply Hh, (Hm _ _ Dr)|apply (Hm _ _ Dr)].
  - destruct (sh_w s) eqn:Ew; [discriminate Dr|].
    exists None, (x :: bs'). split; [reflexivity|exact Ew|exact (Hh _ (Hm _ _ Dr))|apply (Hm _ _ Dr)].
Qed.
End Read.

Lemma prefix_split p1 : forall p2 x1 u1 x2 u2, forallb is_prefix p1 = true -> forallb is_prefix p2 = true ->
  is_prefix x1 = false -> is_prefix x2 = false -> p1 ++ x1 :: u1 = p2 ++ x2 :: u2 -> p1 = p2 /\ x1 = x2 /\ u1 = u2.
Proof.
  induction p1 as [|a p1 IH]; intros [|b p2] x1 u1 x2 u2 H1 H2 N1 N2 E; cbn in *.
  - injection E as -> ->. auto.
  - injection E as -> _. rewrite N1 in H2. discriminate H2.
  - injection E as -> _. rewrite N2 in H1. discriminate H1.
  - injection E as <- E. apply andb_prop in H1, H2. destruct H1 as [_ H1], H2 as [_ H2].
    destruct (IH _ _ _ _ _ H1 H2 N1 N2 E) as (-> & -> & ->). auto.
Qed.

Lemma no_prefix_two x : no_prefix x = true -> is_prefix x = false /\ is_rex x = false.
Proof. intro H. apply andb_prop in H. destruct H as [A B]. split; now apply negb_true_iff. Qed.

Lemma reads_both k1 k2 s1 s2 bs rx1 u1 rx2 u2 : forallb is_prefix (pre s1) = true -> forallb is_prefix (pre s2) = true ->
  reads k1 s1 bs rx1 u1 -> reads k2 s2 bs rx2 u2 -> pre s1 = pre s2 /\ rx1 = rx2 /\ sh_w s1 = sh_w s2 /\ u1 = u2.
Proof.
  intros P1 P2 [E1 R1 H1 M1] [E2 R2 H2 M2]. rewrite E1 in E2. clear E1 M1 M2.
  destruct u1 as [|x1 u1]; [destruct H1|]. destruct u2 as [|x2 u2]; [destruct H2|].
  apply no_prefix_two in H1, H2. destruct H1 as [A1 B1], H2 as [A2 B2].
  destruct rx1 as [y1|], rx2 as [y2|]; cbn [opt_list app] in E2.
  - destruct R1 as [R1 W1], R2 as [R2 W2].
    destruct (prefix_split _ _ _ _ _ _ P1 P2 (rex_no_prefix _ R1) (rex_no_prefix _ R2) E2) as (-> & -> & E). injection E as -> ->.
    rewrite <- W1, <- W2. auto.
  - destruct R1 as [R1 W1]. destruct (prefix_split _ _ _ _ _ _ P1 P2 (rex_no_prefix _ R1) A2 E2) as (_ & -> & _). congruence.
  - destruct R2 as [R2 W2]. destruct (prefix_split _ _ _ _ _ _ P1 P2 A1 (rex_no_prefix _ R2) E2) as (_ & -> & _). congruence.
  - destruct (prefix_split _ _ _ _ _ _ P1 P2 A1 A2 E2) as (-> & -> & ->). rewrite R1, R2. auto.
Qed.

(** ** The pairs that are not apart *)

Definition swap (i : nat) : nat := match i with 0%nat => 1%nat | 1%nat => 0%nat | i => i end.
Definition swap_token (t : token) : token :=
  match t with
  | TSlash g r => TSlash (swap g) (swap r)
  | TDigit n r => TDigit n (swap r)
  | TPlus r => TPlus (swap r)
  | TImm n i => TImm n (swap i)
  | t => t
  end.

Definition fixed_dec (a b : fixed) : {a = b} + {a <> b}.
Proof. decide equality. Defined.
Definition kind_dec (a b : kind) : {a = b} + {a <> b}.
Proof. decide equality; apply fixed_dec. Defined.

Definition mem_string (a : string) (l : list string) : bool := existsb (String.eqb a) l.
Definition synonymsb (a b : string) : bool := String.eqb a b || existsb (fun g => mem_string a g && mem_string b g) groups.
Definition is_exchange (a : string) : bool := mem_string a exchanges.

Definition is_nop (e : inst) (ts : list token) : bool :=
  String.eqb (i_name e) "nop" && yes (list_eq_dec kind_dec (i_kinds e) []) && yes (list_eq_dec token_dec ts [TByte 144]) &&
  yes (list_eq_dec piece_dec (i_pieces e) [PByte 144]) && yes (source_dec (i_modrm e) None) && yes (rio_dec (i_rio e) None).
Definition is_xchg_eax (e : inst) (ts : list token) : bool :=
  String.eqb (i_name e) "xchgl" &&
  (yes (list_eq_dec kind_dec (i_kinds e) [K32; KFixed FEax]) && yes (list_eq_dec token_dec ts [TByte 144; TPlus 0]) ||
   yes (list_eq_dec kind_dec (i_kinds e) [KFixed FEax; K32]) && yes (list_eq_dec token_dec ts [TByte 144; TPlus 1])).

Definition related (e1 : inst) (ts1 : list token) (e2 : inst) (ts2 : list token) : bool :=
  (yes (list_eq_dec kind_dec (i_kinds e1) (i_kinds e2)) && yes (list_eq_dec token_dec ts1 ts2) && synonymsb (i_name e1) (i_name e2)) ||
  ((List.length (i_kinds e1) =? 2)%nat && yes (list_eq_dec kind_dec (i_kinds e2) (rev (i_kinds e1))) &&
    yes (list_eq_dec token_dec ts2 (map swap_token ts1)) && String.eqb (i_name e1) (i_name e2) && is_exchange (i_name e1)) ||
  (is_nop e1 ts1 && is_xchg_eax e2 ts2) || (is_xchg_eax e1 ts1 && is_nop e2 ts2).

Definition misencodedb (e : inst) : bool := mem_string (i_name e) ["pminsb"; "jecxz"]%string.

Definition opcode : Type := (list N * bool * list pat)%type.
Definition opcode_of (e : inst) (ts : list token) : opcode :=
  let s := parse ts in (pre s, sh_w s, pats (i_kinds e) s).
Fixpoint eqb_list (a b : list N) : bool :=
  match a, b with
  | [], [] => true
  | x :: a, y :: b => (x =? y) && eqb_list a b
  | _, _ => false
  end.
Definition overlap (a b : opcode) : bool :=
  let '(p1, w1, l1) := a in
  let '(p2, w2, l2) := b in
  if apart l1 l2 then false else Bool.eqb w1 w2 && eqb_list p1 p2.

Definition pairs_ok (t : list (inst * list token)) : bool :=
  let l := map (fun x => (x, opcode_of (fst x) (snd x))) (filter (fun x => negb (misencodedb (fst x))) t) in
  forallb (fun a => forallb (fun b => if overlap (snd a) (snd b)
    then related (fst (fst a)) (snd (fst a)) (fst (fst b)) (snd (fst b)) else true) l) l.

Lemma pairs_checked : pairs_ok table = true.
Proof. vm_compute. reflexivity. Qed.

Lemma eqb_list_true a : forall b, eqb_list a b = true -> a = b.
Proof.
  induction a as [|x a IH]; intros [|y b] H; cbn in H; try discriminate H; [reflexivity|].
  apply andb_prop in H. destruct H as [H1 H2]. apply N.eqb_eq in H1. f_equal; auto.
Qed.
Lemma eqb_list_refl a : eqb_list a a = true.
Proof. induction a as [|x a IH]; [reflexivity|]. cbn. now rewrite N.eqb_refl. Qed.

Lemma mem_string_in a l : mem_string a l = true -> In a l.
Proof. intro H. apply existsb_exists in H. destruct H as (x & I & E). apply String.eqb_eq in E. now subst. Qed.
Lemma mem_in_string a l : In a l -> mem_string a l = true.
Proof. intro H. apply existsb_exists. exists a. split; [exact H|apply String.eqb_refl]. Qed.

Lemma synonymsb_true a b : synonymsb a b = true -> synonyms a b.
Proof.
  intro H. apply orb_prop in H. destruct H as [H|H].
  - left. now apply String.eqb_eq.
  - right. apply existsb_exists in H. destruct H as (g & G & H). apply andb_prop in H. destruct H as [H1 H2].
    exists g. auto using mem_string_in.
Qed.

(** *** Swapped operands *)

Lemma nth_swap (k1 k2 : kind) i : nth_error [k2; k1] (swap i) = nth_error [k1; k2] i.
Proof. destruct i as [|[|[|i]]]; reflexivity. Qed.

Definition swap_found (l : found) : found := map (fun x => (swap (fst x), snd x)) l.
Definition swap_result (r : option (found * list N)) : option (found * list N) :=
  let? (l, bs) := r in Some (swap_found l, bs).

Lemma decode_swap k1 k2 rex : forall n ts bs, (List.length ts <= n)%nat ->
  decode_tokens [k2; k1] rex (map swap_token ts) bs = swap_result (decode_tokens [k1; k2] rex ts bs).
Proof.
  induction n as [|n IH]; intros ts bs L; [destruct ts; [reflexivity|cbn in L; lia]|].
  assert (T : forall p (r1 r2 : option (found * list N)) , r2 = swap_result r1 ->
    (let? (l, b) := r2 in Some (swap_found p ++ l, b)) = swap_result (let? (l, b) := r1 in Some (p ++ l, b))).
  { intros p r1 r2 ->. destruct r1 as [[l b]|]; [|reflexivity]. cbn. unfold swap_found. now rewrite map_app. }
  destruct ts as [|t ts]; [reflexivity|]. cbn [List.length] in L.
  assert (B : forall b ts, (List.length ts <= n)%nat ->
    match bs with [] => None | x :: bs => if x =? b then decode_tokens [k2; k1] rex (map swap_token ts) bs else None end =
    swap_result match bs with [] => None | x :: bs => if x =? b then decode_tokens [k1; k2] rex ts bs else None end).
  { intros b ts0 L0. destruct bs as [|x bs]; [reflexivity|]. destruct (x =? b); [|reflexivity]. apply IH, L0. }
  destruct t as [b| |g r|d r|r|m i]; cbn [map swap_token].
  - destruct ts as [|[c| |g r|d r|r|m i] ts]; try (apply B; lia).
    cbn [map swap_token decode_tokens]. destruct bs as [|x bs]; [reflexivity|]. destruct ((b <=? x) && (x <? b + 8))%bool; [|reflexivity].
    unfold kind_at. rewrite nth_swap. destruct (nth_error [k1; k2] r) as [k|]; [|reflexivity]. cbn [obind].
    destruct (register_of _ _ _) as [o|]; [|reflexivity]. cbn [obind]. apply (T [(r, VOp o)]). apply IH. cbn in L. lia.
  - reflexivity.
  - cbn [decode_tokens]. destruct bs as [|x bs]; [reflexivity|]. unfold kind_at. rewrite !nth_swap.
    destruct (nth_error [k1; k2] g) as [kg|]; [|reflexivity]. destruct (nth_error [k1; k2] r) as [kr|]; [|reflexivity]. cbn [obind].
    destruct (register_of _ _ _) as [o|]; [|reflexivity]. cbn [obind]. destruct (modrm_form _ _ _) as [[f b']|]; [|reflexivity]. cbn [obind].
    destruct (rm_view _ _ _ _) as [[v b'']|]; [|reflexivity]. cbn [obind]. apply (T [(g, VOp o); (r, v)]). apply IH. lia.
  - cbn [decode_tokens]. destruct bs as [|x bs]; [reflexivity|]. destruct (field x 3 3 =? d); [|reflexivity]. unfold kind_at. rewrite !nth_swap.
    destruct (nth_error [k1; k2] r) as [kr|]; [|reflexivity]. cbn [obind].
    destruct (modrm_form _ _ _) as [[f b']|]; [|reflexivity]. cbn [obind].
    destruct (rm_view _ _ _ _) as [[v b'']|]; [|reflexivity]. cbn [obind]. apply (T [(r, v)]). apply IH. lia.
  - reflexivity.
  - cbn [decode_tokens]. unfold kind_at. rewrite !nth_swap. destruct (nth_error [k1; k2] i) as [k|]; [|reflexivity]. cbn [obind].
    destruct (read_signed m bs) as [[z b']|]; [|reflexivity]. cbn [obind]. destruct (immediate k m z) as [o|]; [|reflexivity]. cbn [obind].
    apply (T [(i, VOp o)]). apply IH. lia.
Qed.

Lemma decode_swap_all k1 k2 : forall ts bs,
  decode_prefixes [k2; k1] (map swap_token ts) bs = swap_result (decode_prefixes [k1; k2] ts bs).
Proof.
  assert (R : forall w ts bs, decode_rex [k2; k1] w (map swap_token ts) bs = swap_result (decode_rex [k1; k2] w ts bs)).
  { intros w ts bs. unfold decode_rex. destruct bs as [|x bs]; [reflexivity|]. destruct (is_rex x).
    - destruct (Bool.eqb _ w); [|reflexivity]. eapply decode_swap. reflexivity.
    - destruct w; [reflexivity|]. eapply decode_swap. reflexivity. }
  induction ts as [|t ts IH]; intro bs; [reflexivity|].
  destruct t as [b| |g r|d r|r|m i]; try reflexivity.
  - cbn [map swap_token decode_prefixes]. destruct (is_prefix b); [|exact (R false (TByte b :: ts) bs)].
    destruct bs as [|x bs]; [reflexivity|]. destruct (x =? b); [apply IH|reflexivity].
  - apply R.
Qed.

Lemma find_swap i l : find_view (swap i) (swap_found l) = find_view i l.
Proof.
  induction l as [|[j v] l IH]; [reflexivity|]. cbn [swap_found map find_view fst snd].
  assert (E : (swap i =? swap j)%nat = (i =? j)%nat) by (destruct i as [|[|i]], j as [|[|j]]; reflexivity).
  rewrite E. destruct (i =? j)%nat; [reflexivity|exact IH].
Qed.

Definition view_for (k : kind) (i : nat) (l : found) : option view :=
  match k with KFixed f => Some (VOp (OFixed f)) | _ => find_view i l end.

Lemma view_for_swap k i l : view_for k (swap i) (swap_found l) = view_for k i l.
Proof. unfold view_for. rewrite find_swap. reflexivity. Qed.

Lemma views_two k1 k2 l : views [k1; k2] 0 l = let? a := view_for k1 0 l in let? b := view_for k2 1 l in Some [a; b].
Proof. cbn [views]. unfold view_for. destruct (match k1 with KFixed f => _ | _ => _ end); [|reflexivity]. cbn [obind].
  destruct (match k2 with KFixed f => _ | _ => _ end); reflexivity. Qed.

Lemma views_swap k1 k2 l : views [k2; k1] 0 (swap_found l) = option_map (@rev view) (views [k1; k2] 0 l).
Proof.
  rewrite !views_two. pose proof (view_for_swap k2 1 l) as H2. pose proof (view_for_swap k1 0 l) as H1. cbn [swap] in H1, H2.
  rewrite H1, H2. destruct (view_for k1 0 l), (view_for k2 1 l); reflexivity.
Qed.

Lemma decode_mirror k1 k2 ts bs vs rest : decode [k1; k2] ts bs = Some (vs, rest) ->
  decode [k2; k1] (map swap_token ts) bs = Some (rev vs, rest).
Proof.
  unfold decode. rewrite decode_swap_all. destruct (decode_prefixes [k1; k2] ts bs) as [[l b]|]; [|discriminate]. cbn [obind swap_result].
  rewrite views_swap. destruct (views [k1; k2] 0 l) as [v|]; [|discriminate]. cbn [obind option_map]. intro H. injection H as <- <-. reflexivity.
Qed.

(** *** NOP *)

Lemma nop_bytes e ts : is_nop e ts = true -> i_name e = "nop"%string /\ i_kinds e = [] /\ ts = [TByte 144] /\ forall ops, write e ops = Ret [144].
Proof.
  unfold is_nop. rewrite !andb_true_iff. intros [[[[[N K] T] P] M] R]. apply String.eqb_eq in N. apply yes_true in K, T, P, M, R.
  repeat split; auto. intro ops. unfold write. rewrite M, R, P. reflexivity.
Qed.

Lemma xchg_eax e ts : is_xchg_eax e ts = true -> i_name e = "xchgl"%string /\
  forall r vs rest, decode (i_kinds e) ts ([144] ++ r) = Some (vs, rest) -> (vs = eax_eax \/ vs = rev eax_eax) /\ rest = r.
Proof.
  unfold is_xchg_eax. rewrite andb_true_iff, orb_true_iff, !andb_true_iff. intros [N H]. apply String.eqb_eq in N. split; [exact N|].
  destruct H as [[K T]|[K T]]; apply yes_true in K, T; rewrite K, T; intros r vs rest D; vm_compute in D; injection D as <- <-;
    (split; [|reflexivity]); [left|right]; reflexivity.
Qed.

(** ** Two instructions *)

Lemma entry_reads e ts bs v rest : In (e, ts) table -> decode (i_kinds e) ts bs = Some (v, rest) ->
  exists rx u, reads (i_kinds e) (parse ts) bs rx u.
Proof.
  intros I D. pose proof table_shaped as T. rewrite forallb_forall in T. specialize (T _ I). cbn [fst snd] in T. unfold shaped in T.
  rewrite !andb_true_iff in T. destruct T as [[[[[[[[To _] _] _] Pr] Hd] Bo] _] _]. apply yes_true in To.
  unfold decode in D. destruct (decode_prefixes (i_kinds e) ts bs) as [r|] eqn:E; [|discriminate D].
  apply (decode_reads (i_kinds e) (parse ts) bs r Pr Hd Bo). now rewrite To.
Qed.

Lemma entry_prefix e ts : In (e, ts) table -> forallb is_prefix (pre (parse ts)) = true.
Proof.
  intro I. pose proof table_shaped as T. rewrite forallb_forall in T. specialize (T _ I). cbn [fst snd] in T. unfold shaped in T.
  rewrite !andb_true_iff in T. destruct T as [[[[[_ Pr] _] _] _] _]. exact Pr.
Qed.

Lemma not_misencoded e : ~ misencoded (i_name e) -> misencodedb e = false.
Proof.
  intro H. destruct (misencodedb e) eqn:E; [|reflexivity]. exfalso. apply H. apply mem_string_in in E. cbn in E.
  destruct E as [E|[E|[]]]; [left|right]; congruence.
Qed.

Lemma pairs_related t e1 ts1 e2 ts2 : pairs_ok t = true -> In (e1, ts1) t -> In (e2, ts2) t ->
  misencodedb e1 = false -> misencodedb e2 = false -> overlap (opcode_of e1 ts1) (opcode_of e2 ts2) = true ->
  related e1 ts1 e2 ts2 = true.
Proof.
  intros P I1 I2 M1 M2 O. unfold pairs_ok in P.
  set (l := map (fun x => (x, opcode_of (fst x) (snd x))) (filter (fun x => negb (misencodedb (fst x))) t)) in *.
  assert (L : forall e ts, In (e, ts) t -> misencodedb e = false -> In ((e, ts), opcode_of e ts) l).
  { intros e ts I M. apply in_map_iff. exists (e, ts). split; [reflexivity|]. apply filter_In. split; [exact I|]. cbn [fst]. now rewrite M. }
  rewrite forallb_forall in P. specialize (P _ (L _ _ I1 M1)). rewrite forallb_forall in P. specialize (P _ (L _ _ I2 M2)).
  cbn [fst snd] in P. rewrite O in P. exact P.
Qed.

Lemma pair_related e1 ts1 e2 ts2 : In (e1, ts1) table -> In (e2, ts2) table ->
  ~ misencoded (i_name e1) -> ~ misencoded (i_name e2) -> overlap (opcode_of e1 ts1) (opcode_of e2 ts2) = true ->
  related e1 ts1 e2 ts2 = true.
Proof.
  intros I1 I2 M1 M2. exact (pairs_related table e1 ts1 e2 ts2 pairs_checked I1 I2 (not_misencoded _ M1) (not_misencoded _ M2)).
Qed.

Lemma write_unambiguous e1 ts1 ops1 b1 r1 e2 ts2 ops2 b2 r2 :
  In (e1, ts1) table -> In (e2, ts2) table -> ~ misencoded (i_name e1) -> ~ misencoded (i_name e2) ->
  Forall2 of_kind (i_kinds e1) ops1 -> Forall2 of_kind (i_kinds e2) ops2 ->
  write e1 ops1 = Ret b1 -> write e2 ops2 = Ret b2 -> b1 ++ r1 = b2 ++ r2 ->
  same (i_name e1) (map view_of ops1) (i_name e2) (map view_of ops2) /\ b1 = b2.
Proof.
  intros I1 I2 M1 M2 F1' F2' W1 W2 E.
  pose proof (write_decode _ _ _ _ r1 I1 F1' W1) as D1. pose proof (write_decode _ _ _ _ r2 I2 F2' W2) as D2.
  destruct (entry_reads _ _ _ _ _ I1 D1) as (rx1 & u1 & R1). destruct (entry_reads _ _ _ _ _ I2 D2) as (rx2 & u2 & R2).
  rewrite E in R1. destruct (reads_both _ _ _ _ _ _ _ _ _ (entry_prefix _ _ I1) (entry_prefix _ _ I2) R1 R2) as (P & _ & W & ->).
  assert (O : overlap (opcode_of e1 ts1) (opcode_of e2 ts2) = true).
  { unfold overlap, opcode_of. destruct (apart _ _) eqn:A; [|rewrite P, W, Bool.eqb_reflx; apply eqb_list_refl].
    exfalso. exact (apart_sound _ _ _ A (r_match _ _ _ _ _ R1) (r_match _ _ _ _ _ R2)). }
  pose proof (pair_related _ _ _ _ I1 I2 M1 M2 O) as Rel. unfold related in Rel.
  assert (Bytes : r1 = r2 -> b1 = b2) by (intros ->; now apply app_inv_tail in E).
  rewrite !orb_true_iff in Rel. destruct Rel as [[[Rel|Rel]|Rel]|Rel]; rewrite !andb_true_iff in Rel.
  - destruct Rel as [[K T] S']. apply yes_true in K, T. apply synonymsb_true in S'. subst ts2. rewrite <- E, <- K, D1 in D2. injection D2 as V <-.
    rewrite V. split; [now apply same_name|auto].
  - destruct Rel as [[[[L K] T] Nm] X]. apply yes_true in K, T. apply String.eqb_eq in Nm. apply mem_string_in in X.
    destruct (i_kinds e1) as [|k1 [|k2 [|]]] eqn:K1; try discriminate L. cbn [rev app] in K. apply decode_mirror in D1.
    rewrite <- E, K, T, D1 in D2. injection D2 as V <-. rewrite <- Nm, <- V. split; [now apply same_swapped|auto].
  - destruct Rel as [Np X]. destruct (nop_bytes _ _ Np) as (N1 & K1 & T1 & B1). destruct (xchg_eax _ _ X) as (N2 & X2).
    rewrite B1 in W1. injection W1 as <-. rewrite <- E in D2. destruct (X2 _ _ _ D2) as [V ->].
    rewrite N1, N2. rewrite K1 in F1'. inversion F1'. subst ops1. split; [now apply same_nop|auto].
  - destruct Rel as [X Np]. destruct (nop_bytes _ _ Np) as (N1 & K1 & T1 & B1). destruct (xchg_eax _ _ X) as (N2 & X2).
    rewrite B1 in W2. injection W2 as <-. rewrite E in D1. destruct (X2 _ _ _ D1) as [V <-].
    rewrite N1, N2. rewrite K1 in F2'. inversion F2'. subst ops2. split; [now apply same_nop'|auto].
Qed.

(** ** The instructions that are not encoded as in the manual *)

Lemma jecxz_jrcxz : exists e1 ts1 e2 ts2, In (e1, ts1) table /\ In (e2, ts2) table /\
  i_name e1 = "jecxz"%string /\ i_name e2 = "jrcxz"%string /\ i_kinds e1 = [KI8] /\ i_kinds e2 = [KI8] /\
  forall z, write e1 [OI8 z] = write e2 [OI8 z].
Proof.
  assert (G : forall n, existsb (fun x => String.eqb (i_name (fst x)) n && yes (list_eq_dec piece_dec (i_pieces (fst x)) [PByte 227; PImm 0]) &&
    yes (list_eq_dec kind_dec (i_kinds (fst x)) [KI8]) && yes (source_dec (i_modrm (fst x)) None) && yes (rio_dec (i_rio (fst x)) None)) table = true ->
    exists e ts, In (e, ts) table /\ i_name e = n /\ i_kinds e = [KI8] /\ forall z, write e [OI8 z] = Ret (227 :: le_bytes 1 z)).
  { intros n H. apply existsb_exists in H. destruct H as ([e ts] & I & H). cbn [fst] in H. rewrite !andb_true_iff in H.
    destruct H as [[[[N P] K] M] R]. apply String.eqb_eq in N. apply yes_true in P, K, M, R.
    exists e, ts. repeat split; auto. intro z. unfold write. rewrite M, R, P. reflexivity. }
  destruct (G "jecxz"%string) as (e1 & t1 & I1 & N1 & K1 & W1); [vm_compute; reflexivity|].
  destruct (G "jrcxz"%string) as (e2 & t2 & I2 & N2 & K2 & W2); [vm_compute; reflexivity|].
  exists e1, t1, e2, t2. repeat split; auto. intro z. now rewrite W1, W2.
Qed.

Definition find_inst (n : string) (ks : list kind) : option (inst * list token) :=
  find (fun x => String.eqb (i_name (fst x)) n && yes (list_eq_dec kind_dec (i_kinds (fst x)) ks)) table.

Lemma find_inst_in n ks e ts : find_inst n ks = Some (e, ts) -> In (e, ts) table /\ i_name e = n /\ i_kinds e = ks.
Proof.
  intro H. apply find_some in H. destruct H as [I H]. cbn [fst] in H. apply andb_prop in H. destruct H as [N K].
  apply String.eqb_eq in N. apply yes_true in K. auto.
Qed.

(** PMINSB XMM6, [RBX] followed by C0 has the bytes of PMOVZXWD XMM0, XMM0. *)
Lemma pminsb_pmovzxwd : exists e1 ts1 e2 ts2 b1 b2, In (e1, ts1) table /\ In (e2, ts2) table /\
  i_name e1 = "pminsb"%string /\ i_kinds e1 = [KX; KMem] /\ i_name e2 = "pmovzxwd"%string /\ i_kinds e2 = [KX; KX] /\
  write e1 [OX Rsi; OMem (ABase Rbx)] = Ret b1 /\ write e2 [OX Rax; OX Rax] = Ret b2 /\ b1 ++ [192] = b2.
Proof.
  destruct (find_inst "pminsb" [KX; KMem]) as [[e1 t1]|] eqn:E1; [|vm_compute in E1; discriminate E1].
  destruct (find_inst "pmovzxwd" [KX; KX]) as [[e2 t2]|] eqn:E2; [|vm_compute in E2; discriminate E2].
  destruct (find_inst_in _ _ _ _ E1) as (I1 & N1 & K1). destruct (find_inst_in _ _ _ _ E2) as (I2 & N2 & K2).
  exists e1, t1, e2, t2, [102; 15; 56; 51], [102; 15; 56; 51; 192].
  vm_compute in E1, E2. injection E1 as E1 _. injection E2 as E2 _. repeat split; auto; subst; vm_compute; reflexivity.
Qed.
