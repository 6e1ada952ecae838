(** Totality and soundness of the parser. *)
From Verif.Base Require Import BaseFacts.
From Verif.Lexer Require Import Model.
From Verif.Sexp Require Import Model.
From Verif.Parser Require Import Model Spec ProofsPrim.

Definition endof (ts : list token) (e : location) : location := fold_left (fun _ t => tend t) ts e.

Lemma endof_app a b e : endof (a ++ b) e = endof b (endof a e).
Proof. apply fold_left_app. Qed.

Lemma endof_last ts t e : endof (t :: ts) e = tend (List.last (t :: ts) t).
Proof.
  unfold endof. cbn [fold_left].
  assert (H : forall x d, fold_left (fun _ t => tend t) ts (tend x) = tend (List.last (x :: ts) d)).
  { induction ts as [|y ts IH]; intros x d; [reflexivity|].
    cbn [fold_left]. rewrite (IH y d). reflexivity. }
  apply H.
Qed.

Lemma range_cons t ts e : range (t :: ts) = (tstart t, endof (t :: ts) e).
Proof. unfold range. rewrite endof_last. reflexivity. Qed.

Lemma endof_indep ts e e' : ts <> [] -> endof ts e = endof ts e'.
Proof. destruct ts; [congruence|reflexivity]. Qed.

Definition is_postfix (r : tokenrep) : bool :=
  match r with TQuestion | TExclamation | TLBrace => true | _ => false end.

(** Tokens that start an S-expression. *)
Definition starts (r : tokenrep) : bool :=
  match r with
  | TSigned _ | TUnsigned _ | TFPNumber _ | TSymbol _ | TString _ | TChar _ | TLParen | TLBrack
  | TQuote | TBackquote | TComma | TCommaAt | TBackslash | TTilde | TTrue | TFalse => true
  | _ => false
  end.

Definition start_of (ts : list token) (e : location) : location :=
  match ts with t :: _ => tstart t | [] => e end.

Definition sexp_spec (m : P sexp) (n : nat) : Prop :=
  forall p ts e errs, (List.length ts <= n)%nat -> no_eof ts -> st p ts e errs ->
  exists r p' used ts' errs2, m p = Ret (r, p') /\ ts = used ++ ts' /\
    st p' ts' (endof used e) (errs ++ errs2) /\
    match r with
    | POk s => used <> [] /\ head_not is_postfix ts' /\ (errs2 = [] -> g_sexp used s)
    | PErr _ => used <> [] \/ (head_not starts ts /\ used = [])
    end.

Definition seq_spec (m : list sexp -> P (list sexp)) (n : nat) : Prop :=
  forall p ts e errs r0, (List.length ts <= n)%nat -> no_eof ts -> st p ts e errs ->
  exists ss p' used ts' errs2, m r0 p = Ret (POk (r0 ++ ss), p') /\ ts = used ++ ts' /\
    st p' ts' (endof used e) (errs ++ errs2) /\ head_not sexp_leading ts' /\
    (errs2 = [] -> g_seq used ss).

Definition body_spec (m : P srep) (n : nat) : Prop :=
  forall p ts e errs, (List.length ts <= n)%nat -> no_eof ts -> st p ts e errs ->
  exists r p' used ts' errs2, m p = Ret (r, p') /\ ts = used ++ ts' /\
    st p' ts' (endof used e) (errs ++ errs2) /\
    match r with
    | POk b => errs2 = [] -> g_body (start_of ts' (endof used e)) used b
    | PErr _ => True
    end.

Definition postfix_spec (m : location -> sexp -> P sexp) (n : nat) : Prop :=
  forall p ts e errs start s, (List.length ts <= n)%nat -> no_eof ts -> st p ts e errs ->
  exists r p' used ts' errs2, m start s p = Ret (r, p') /\ ts = used ++ ts' /\
    st p' ts' (endof used e) (errs ++ errs2) /\
    match r with
    | POk s' => head_not is_postfix ts' /\
        (errs2 = [] -> forall t pre, start = tstart t -> g_operand (t :: pre) s ->
           g_operand ((t :: pre) ++ used) s') /\
        (head_not is_postfix ts -> used = [] /\ errs2 = [] /\ s' = s)
    | PErr _ => True
    end.

Lemma no_eof_app a b : no_eof (a ++ b) <-> no_eof a /\ no_eof b.
Proof. apply Forall_app. Qed.

Lemma pbind_ok {A B} (m : P A) (k : A -> P B) p a p' : m p = Ret (POk a, p') -> pbind m k p = k a p'.
Proof. unfold pbind. intros ->. reflexivity. Qed.
Lemma pbind_err {A B} (m : P A) (k : A -> P B) p e p' : m p = Ret (PErr e, p') -> pbind m k p = Ret (PErr e, p').
Proof. unfold pbind. intros ->. reflexivity. Qed.

Lemma st_head_norm p t ts e errs : st p (t :: ts) e errs -> norm p -> hd_error (toks p) = Some t.
Proof.
  intros (H & _) Hn. rewrite <- Hn, drop_ambient_hd, H. reflexivity.
Qed.
Lemma st_nil_norm p e errs : st p [] e errs -> norm p -> hd_error (toks p) = None.
Proof.
  intros (H & _) Hn. rewrite <- Hn, drop_ambient_hd, H. reflexivity.
Qed.

(** An atom. *)
Lemma atom_ok body sx msg p t ts e errs r :
  norm p -> st p (t :: ts) e errs -> atom (trep t) r ->
  exists p', choose (sexp_alternatives body sx) (error_expected msg) p = Ret (POk r, p') /\
    st p' ts (tend t) errs.
Proof.
  intros Hn H Ha. rewrite choose_norm by assumption. rewrite (st_head_norm _ _ _ _ _ H Hn).
  inversion Ha as [z E|n E|s E|s E|s E|c E|E|E]; subst r; symmetry in E.
  - unfold sexp_integer.
    destruct (try_prim_ok f_signed (t_ "signed integer") p t ts e errs z H) as (p' & E1 & H').
    { rewrite E; reflexivity. }
    rewrite (pbind_ok _ _ _ _ _ E1). exists p'; split; [reflexivity|assumption].
  - unfold sexp_integer.
    pose proof (try_prim_no f_signed (t_ "signed integer") p (t :: ts) e errs H) as E1.
    rewrite (pbind_ok _ _ _ _ _ (E1 ltac:(cbn; rewrite E; reflexivity))).
    destruct (try_prim_ok f_unsigned (t_ "unsigned integer") _ t ts e errs n (peeked_st _ _ _ _ H)) as (p' & E2 & H').
    { rewrite E; reflexivity. }
    rewrite (pbind_ok _ _ _ _ _ E2). exists p'; split; [reflexivity|assumption].
  - unfold sexp_fpnumber.
    destruct (prim_ok f_fpnumber (t_ "number") p t ts e errs s H) as (p' & E1 & H').
    { rewrite E; reflexivity. }
    rewrite (pbind_ok _ _ _ _ _ E1). exists p'; split; [reflexivity|assumption].
  - unfold sexp_symbol.
    destruct (prim_ok f_symbol (t_ "symbol") p t ts e errs s H) as (p' & E1 & H').
    { rewrite E; reflexivity. }
    rewrite (pbind_ok _ _ _ _ _ E1). exists p'; split; [reflexivity|assumption].
  - unfold sexp_string.
    destruct (prim_ok f_string (t_ "string") p t ts e errs s H) as (p' & E1 & H').
    { rewrite E; reflexivity. }
    rewrite (pbind_ok _ _ _ _ _ E1). exists p'; split; [reflexivity|assumption].
  - unfold sexp_char.
    destruct (prim_ok f_char (t_ "char") p t ts e errs c H) as (p' & E1 & H').
    { rewrite E; reflexivity. }
    rewrite (pbind_ok _ _ _ _ _ E1). exists p'; split; [reflexivity|assumption].
  - unfold sexp_bool.
    destruct (try_prim_ok f_true (t_ "#t") p t ts e errs tt H) as (p' & E1 & H').
    { rewrite E; reflexivity. }
    rewrite (pbind_ok _ _ _ _ _ E1). exists p'; split; [reflexivity|assumption].
  - unfold sexp_bool.
    pose proof (try_prim_no f_true (t_ "#t") p (t :: ts) e errs H) as E1.
    rewrite (pbind_ok _ _ _ _ _ (E1 ltac:(cbn; rewrite E; reflexivity))).
    destruct (try_prim_ok f_false (t_ "#f") _ t ts e errs tt (peeked_st _ _ _ _ H)) as (p' & E2 & H').
    { rewrite E; reflexivity. }
    rewrite (pbind_ok _ _ _ _ _ E2). exists p'; split; [reflexivity|assumption].
Qed.

Definition base_spec (m : P srep) (n : nat) : Prop :=
  forall p ts e errs, (List.length ts <= n)%nat -> no_eof ts -> st p ts e errs -> norm p ->
  exists r p' used ts' errs2, m p = Ret (r, p') /\ ts = used ++ ts' /\
    st p' ts' (endof used e) (errs ++ errs2) /\
    match r with
    | POk b => used <> [] /\
        (errs2 = [] -> g_operand used (Sexp (range used) b) \/
                       (g_sexp used (Sexp (range used) b) /\ head_not is_postfix ts'))
    | PErr _ => used <> [] \/ (head_not starts ts /\ used = [])
    end.

Lemma list_ok body l r ml mr n :
  body_spec body n ->
  forall p t ts e errs, (List.length ts <= n)%nat -> no_eof ts -> st p (t :: ts) e errs ->
  l (trep t) = Some tt -> (forall x, r (trep x) = Some tt -> brackets (trep t) (trep x)) ->
  exists res p' used ts' errs2, list_between body l r ml mr p = Ret (res, p') /\ t :: ts = used ++ ts' /\
    st p' ts' (endof used e) (errs ++ errs2) /\ used <> [] /\
    match res with
    | POk b => errs2 = [] -> g_operand used (Sexp (range used) b)
    | PErr _ => True
    end.
Proof.
  intros Hb p t ts e errs Hn Hne H Hl Hr. unfold list_between.
  destruct (prim_ok l ml p t ts e errs tt H Hl) as (p1 & E1 & H1).
  rewrite (pbind_ok _ _ _ _ _ E1).
  destruct (Hb p1 ts (tend t) errs Hn Hne H1) as (res & p2 & used & ts' & errs2 & E2 & -> & H2 & Hres).
  destruct res as [b|err].
  2:{ rewrite (pbind_err _ _ _ _ _ E2).
      exists (PErr err), p2, (t :: used), ts', errs2. repeat split; [exact (proj1 H2)|exact (proj1 (proj2 H2))|exact (proj2 (proj2 H2))|discriminate]. }
  rewrite (pbind_ok _ _ _ _ _ E2).
  destruct ts' as [|x ts'].
  { destruct (prim_no r mr p2 [] _ _ H2 I) as (err & p3 & E3 & H3).
    rewrite (pbind_err _ _ _ _ _ E3).
    exists (PErr err), p3, (t :: used), [], errs2. split; [reflexivity|]. split; [reflexivity|].
    split; [assumption|]. split; [discriminate|exact I]. }
  destruct (r (trep x)) as [[]|] eqn:Er.
  - destruct (prim_ok r mr p2 x ts' _ _ tt H2 Er) as (p3 & E3 & H3).
    rewrite (pbind_ok _ _ _ _ _ E3).
    exists (POk b), p3, (t :: used ++ [x]), ts', errs2. split; [reflexivity|].
    split; [cbn; rewrite <- app_assoc; reflexivity|]. split.
    { change (t :: used ++ [x]) with ((t :: used) ++ [x]). rewrite endof_app. exact H3. }
    split; [discriminate|]. intros He. specialize (Hres He). cbn [start_of] in Hres.
    apply g_brackets; [apply Hr; assumption|assumption].
  - destruct (prim_no r mr p2 (x :: ts') _ _ H2) as (err & p3 & E3 & H3).
    { cbn. unfold leading_of. rewrite Er. reflexivity. }
    rewrite (pbind_err _ _ _ _ _ E3).
    exists (PErr err), p3, (t :: used), (x :: ts'), errs2. split; [reflexivity|]. split; [reflexivity|].
    split; [assumption|]. split; [discriminate|exact I].
Qed.

Lemma capture_eq {A B} (body : P A) (mk : srcloc -> A -> B) p ts e errs : st p ts e errs ->
  capture body mk p =
  (x <- body ;; fun p => pret (mk (start_of ts e, latest_token_end p) x) p) (peeked p).
Proof. intros H. unfold capture. rewrite (next_token_start_st _ _ _ _ H). destruct ts; reflexivity. Qed.

Lemma quoted_ok sx f m sym n :
  sexp_spec sx n ->
  forall p t ts e errs, (List.length ts <= n)%nat -> no_eof ts -> st p (t :: ts) e errs ->
  f (trep t) = Some tt -> prefix_op (trep t) sym ->
  exists res p' used ts' errs2, quoted sx f m sym p = Ret (res, p') /\ t :: ts = used ++ ts' /\
    st p' ts' (endof used e) (errs ++ errs2) /\ used <> [] /\
    match res with
    | POk b => errs2 = [] -> (g_sexp used (Sexp (range used) b) /\ head_not is_postfix ts')
    | PErr _ => True
    end.
Proof.
  intros Hs p t ts e errs Hn Hne H Hf Hp. unfold quoted.
  destruct (prim_ok f m _ t ts e errs tt (peeked_st _ _ _ _ H) Hf) as (p1 & E1 & H1).
  assert (E : capture (_ <- prim f m;; pret (RSymbol sym)) Sexp p =
              Ret (POk (Sexp (range [t]) (RSymbol sym)), p1)).
  { rewrite (capture_eq _ _ _ _ _ _ H). unfold pbind at 1. rewrite (pbind_ok _ _ _ _ _ E1).
    unfold pret. cbn. destruct H1 as (_ & -> & _). reflexivity. }
  rewrite (pbind_ok _ _ _ _ _ E). clear E.
  destruct (Hs p1 ts (tend t) errs Hn Hne H1) as (res & p2 & used & ts' & errs2 & E2 & -> & H2 & Hres).
  destruct res as [s|err].
  - rewrite (pbind_ok _ _ _ _ _ E2).
    exists (POk (RList [Sexp (range [t]) (RSymbol sym); s])), p2, (t :: used), ts', errs2.
    split; [reflexivity|]. split; [reflexivity|]. split; [assumption|]. split; [discriminate|].
    destruct Hres as (_ & Hpost & Hg). intros He. split; [|assumption].
    apply g_prefix; [assumption|apply Hg; assumption].
  - rewrite (pbind_err _ _ _ _ _ E2).
    exists (PErr err), p2, (t :: used), ts', errs2.
    split; [reflexivity|]. split; [reflexivity|]. split; [assumption|]. split; [discriminate|exact I].
Qed.

Lemma st_errs p ts e errs : st p ts e errs -> st p ts e (errs ++ []).
Proof. rewrite app_nil_r. auto. Qed.

Lemma base_ok body sx msg n :
  body_spec body n -> sexp_spec sx n ->
  base_spec (choose (sexp_alternatives body sx) (error_expected msg)) (S n).
Proof.
  intros Hb Hs p ts e errs Hn Hne H Hnorm.
  destruct ts as [|t ts].
  { rewrite choose_norm by assumption. rewrite (st_nil_norm _ _ _ H Hnorm).
    destruct (@error_st srep msg _ _ _ _ H) as (err & E).
    exists (PErr err), (peeked p), [], [], []. split; [exact E|]. split; [reflexivity|].
    split; [apply st_errs, peeked_st; assumption|]. right; split; [exact I|reflexivity]. }
  cbn in Hn. assert (Hn' : (List.length ts <= n)%nat) by lia.
  assert (Hne' : no_eof ts) by (inversion Hne; assumption).
  assert (Hatom : forall r, atom (trep t) r -> exists r p' used ts' errs2,
    choose (sexp_alternatives body sx) (error_expected msg) p = Ret (r, p') /\ t :: ts = used ++ ts' /\
    st p' ts' (endof used e) (errs ++ errs2) /\
    match r with
    | POk b => used <> [] /\
        (errs2 = [] -> g_operand used (Sexp (range used) b) \/
                       (g_sexp used (Sexp (range used) b) /\ head_not is_postfix ts'))
    | PErr _ => used <> [] \/ (head_not starts (t :: ts) /\ used = [])
    end).
  { intros r Hr. destruct (atom_ok body sx msg p t ts e errs r Hnorm H Hr) as (p' & E & H').
    exists (POk r), p', [t], ts, []. split; [assumption|]. split; [reflexivity|].
    split; [apply st_errs; assumption|]. split; [discriminate|]. intros _; left. apply g_atom; assumption. }
  assert (Herr : starts (trep t) = false -> exists r p' used ts' errs2,
    error_expected msg p = Ret (r, p') /\ t :: ts = used ++ ts' /\
    st p' ts' (endof used e) (errs ++ errs2) /\
    match r with
    | POk b => used <> [] /\
        (errs2 = [] -> g_operand used (Sexp (range used) b) \/
                       (g_sexp used (Sexp (range used) b) /\ head_not is_postfix ts'))
    | PErr _ => used <> [] \/ (head_not starts (t :: ts) /\ used = [])
    end).
  { intros Hst. destruct (@error_st srep msg _ _ _ _ H) as (err & E).
    exists (PErr err), (peeked p), [], (t :: ts), []. split; [exact E|]. split; [reflexivity|].
    split; [apply st_errs, peeked_st; assumption|]. right; split; [exact Hst|reflexivity]. }
  assert (Hlist : forall l r ml mr, l (trep t) = Some tt ->
    (forall x, r (trep x) = Some tt -> brackets (trep t) (trep x)) ->
    exists res p' used ts' errs2,
    list_between body l r ml mr p = Ret (res, p') /\ t :: ts = used ++ ts' /\
    st p' ts' (endof used e) (errs ++ errs2) /\
    match res with
    | POk b => used <> [] /\
        (errs2 = [] -> g_operand used (Sexp (range used) b) \/
                       (g_sexp used (Sexp (range used) b) /\ head_not is_postfix ts'))
    | PErr _ => used <> [] \/ (head_not starts (t :: ts) /\ used = [])
    end).
  { intros l r ml mr Hl Hr.
    destruct (list_ok body l r ml mr n Hb p t ts e errs Hn' Hne' H Hl Hr)
      as (res & p' & used & ts' & errs2 & E1 & E2 & H1 & H2 & H3).
    exists res, p', used, ts', errs2. split; [assumption|]. split; [assumption|]. split; [assumption|].
    destruct res; [|left; assumption]. split; [assumption|]. intros He; left; auto. }
  assert (Hquote : forall f m sym, f (trep t) = Some tt -> prefix_op (trep t) sym ->
    exists res p' used ts' errs2,
    quoted sx f m sym p = Ret (res, p') /\ t :: ts = used ++ ts' /\
    st p' ts' (endof used e) (errs ++ errs2) /\
    match res with
    | POk b => used <> [] /\
        (errs2 = [] -> g_operand used (Sexp (range used) b) \/
                       (g_sexp used (Sexp (range used) b) /\ head_not is_postfix ts'))
    | PErr _ => used <> [] \/ (head_not starts (t :: ts) /\ used = [])
    end).
  { intros f m sym Hf Hp.
    destruct (quoted_ok sx f m sym n Hs p t ts e errs Hn' Hne' H Hf Hp)
      as (res & p' & used & ts' & errs2 & E1 & E2 & H1 & H2 & H3).
    exists res, p', used, ts', errs2. split; [assumption|]. split; [assumption|]. split; [assumption|].
    destruct res; [|left; assumption]. split; [assumption|]. intros He; right; auto. }
  pose proof (choose_norm body sx msg p Hnorm) as Ech.
  rewrite (st_head_norm _ _ _ _ _ H Hnorm) in Ech.
  destruct (trep t) eqn:Et;
    first [ eapply Hatom; constructor
          | rewrite Ech; apply Herr; reflexivity
          | rewrite Ech; apply Hlist; [reflexivity|]; intros x Hx; destruct (trep x); try discriminate Hx; constructor
          | rewrite Ech; apply Hquote; [reflexivity|constructor] ].
Qed.

Lemma peeked3 p ts e errs : st p ts e errs -> st (peeked (peeked (peeked p))) ts e errs.
Proof. intros H. repeat apply peeked_st. assumption. Qed.

Lemma postfix_none fuel start s p ts e errs : st p ts e errs -> head_not is_postfix ts ->
  parse_postfix (S fuel) start s p = Ret (POk s, peeked (peeked (peeked p))).
Proof.
  intros H Hp. cbn [parse_postfix].
  assert (Hh : forall A (f : tokenrep -> option A), (forall r, is_postfix r = false -> f r = None) ->
    head_not (leading_of f) ts).
  { intros A f Hf. destruct ts as [|t ts]; [exact I|]. cbn in *. unfold leading_of.
    rewrite Hf by assumption. reflexivity. }
  rewrite (pbind_ok _ _ _ _ _ (try_prim_no f_question (t_ "?") p ts e errs H (Hh unit f_question ltac:(intros []; try discriminate; reflexivity)))).
  apply peeked_st in H.
  rewrite (pbind_ok _ _ _ _ _ (try_prim_no f_exclamation (t_ "!") _ ts e errs H (Hh unit f_exclamation ltac:(intros []; try discriminate; reflexivity)))).
  apply peeked_st in H.
  rewrite (pbind_ok _ _ _ _ _ (try_prim_no f_lbrace (t_ "{") _ ts e errs H (Hh unit f_lbrace ltac:(intros []; try discriminate; reflexivity)))).
  reflexivity.
Qed.

(** One step of the postfix loop, for each operator. *)
Lemma postfix_question fuel start s p t ts e errs : st p (t :: ts) e errs -> trep t = TQuestion ->
  exists p', parse_postfix (S fuel) start s p =
     parse_postfix fuel start (try_question (start, tend t) s) p' /\ st p' ts (tend t) errs.
Proof.
  intros H Et. cbn [parse_postfix].
  destruct (try_prim_ok f_question (t_ "?") p t ts e errs tt H ltac:(rewrite Et; reflexivity)) as (p' & E & H').
  rewrite (pbind_ok _ _ _ _ _ E). exists p'. split; [|assumption]. destruct H' as (_ & -> & _). reflexivity.
Qed.

Lemma postfix_exclamation fuel start s p t ts e errs : st p (t :: ts) e errs -> trep t = TExclamation ->
  exists p', parse_postfix (S fuel) start s p =
     parse_postfix fuel start (try_exclamation (start, tend t) s) p' /\ st p' ts (tend t) errs.
Proof.
  intros H Et. cbn [parse_postfix].
  rewrite (pbind_ok _ _ _ _ _ (try_prim_no f_question (t_ "?") p _ e errs H ltac:(cbn; rewrite Et; reflexivity))).
  apply peeked_st in H.
  destruct (try_prim_ok f_exclamation (t_ "!") _ t ts e errs tt H ltac:(rewrite Et; reflexivity)) as (p' & E & H').
  rewrite (pbind_ok _ _ _ _ _ E). exists p'. split; [|assumption]. destruct H' as (_ & -> & _). reflexivity.
Qed.

Lemma postfix_lbrace fuel start s p t ts e errs : st p (t :: ts) e errs -> trep t = TLBrace ->
  exists p', parse_postfix (S fuel) start s p =
     (ss <- parse_seq fuel [] ;;
      _ <- prim f_rbrace (t_ "}") ;;
      fun p => parse_postfix fuel start (annotate (start, latest_token_end p) s ss) p) p' /\
     st p' ts (tend t) errs.
Proof.
  intros H Et. cbn [parse_postfix].
  rewrite (pbind_ok _ _ _ _ _ (try_prim_no f_question (t_ "?") p _ e errs H ltac:(cbn; rewrite Et; reflexivity))).
  apply peeked_st in H.
  rewrite (pbind_ok _ _ _ _ _ (try_prim_no f_exclamation (t_ "!") _ _ e errs H ltac:(cbn; rewrite Et; reflexivity))).
  apply peeked_st in H.
  destruct (try_prim_ok f_lbrace (t_ "{") _ t ts e errs tt H ltac:(rewrite Et; reflexivity)) as (p' & E & H').
  rewrite (pbind_ok _ _ _ _ _ E). exists p'. split; [reflexivity|assumption].
Qed.

(** The four nonterminals together, by induction on the number of tokens. *)
Lemma postfix_step n :
  (forall fuel, (3 * n + 2 <= fuel)%nat -> seq_spec (parse_seq fuel) n) ->
  (forall fuel, (3 * n + 1 <= fuel)%nat -> postfix_spec (parse_postfix fuel) n) ->
  forall fuel, (3 * S n + 1 <= fuel)%nat -> postfix_spec (parse_postfix fuel) (S n).
Proof.
  intros Hseq IH [|fuel] Hf; [lia|]. intros p ts e errs start s Hn Hne H.
  destruct ts as [|t ts].
  { rewrite (postfix_none _ _ _ _ _ _ _ H I). exists (POk s), (peeked (peeked (peeked p))), [], [], [].
    split; [reflexivity|]. split; [reflexivity|]. split; [apply st_errs, peeked3; assumption|].
    split; [exact I|]. split; [|auto]. intros _ t pre _ Hg. rewrite app_nil_r; assumption. }
  cbn in Hn. assert (Hne' : no_eof ts) by (inversion Hne; assumption).
  destruct (is_postfix (trep t)) eqn:Ep.
  2:{ rewrite (postfix_none _ _ _ _ _ _ _ H Ep). exists (POk s), (peeked (peeked (peeked p))), [], (t :: ts), [].
      split; [reflexivity|]. split; [reflexivity|]. split; [apply st_errs, peeked3; assumption|].
      split; [exact Ep|]. split; [|auto]. intros _ t' pre _ Hg. rewrite app_nil_r; assumption. }
  assert (Hcont : forall used ts1 e1 errs1 p1 s1,
    st p1 ts1 e1 (errs ++ errs1) -> ts = used ++ ts1 -> e1 = endof (t :: used) e ->
    (errs1 = [] -> forall x pre, start = tstart x -> g_operand (x :: pre) s -> g_operand ((x :: pre) ++ t :: used) s1) ->
    exists r p' used' ts' errs2, parse_postfix fuel start s1 p1 = Ret (r, p') /\ t :: ts = used' ++ ts' /\
      st p' ts' (endof used' e) (errs ++ errs2) /\
      match r with
      | POk s' => head_not is_postfix ts' /\
        (errs2 = [] -> forall t pre, start = tstart t -> g_operand (t :: pre) s ->
           g_operand ((t :: pre) ++ used') s') /\
        (head_not is_postfix (t :: ts) -> used' = [] /\ errs2 = [] /\ s' = s)
      | PErr _ => True
      end).
  { intros used ts1 e1 errs1 p1 s1 H1 -> -> Hg1.
    rewrite app_length in Hn. apply no_eof_app in Hne' as [_ Hne1].
    destruct (IH fuel ltac:(lia) p1 ts1 _ _ start s1 ltac:(lia) Hne1 H1)
      as (r & p' & used2 & ts' & errs2 & E & -> & H2 & Hr).
    exists r, p', ((t :: used) ++ used2), ts', (errs1 ++ errs2). split; [assumption|].
    split; [cbn; rewrite app_assoc; reflexivity|].
    split; [rewrite endof_app, app_assoc; assumption|].
    destruct r as [s'|err]; [|exact I]. destruct Hr as (Hr1 & Hr2 & _).
    split; [assumption|]. split.
    - intros He x pre Hx Hop. apply app_eq_nil in He as [He1 He2]. subst.
      specialize (Hg1 eq_refl x pre eq_refl Hop).
      specialize (Hr2 eq_refl x (pre ++ t :: used) eq_refl Hg1).
      cbn [app] in *. rewrite <- app_assoc in Hr2. exact Hr2.
    - intros Hh. cbn in Hh. congruence. }
  assert (Hrange : forall x pre used, start = tstart x ->
    (start, endof (t :: used) e) = range ((x :: pre) ++ t :: used)).
  { intros x pre used ->. cbn [app]. rewrite (range_cons _ _ e). f_equal.
    change (x :: pre ++ t :: used) with ((x :: pre) ++ t :: used). rewrite endof_app. reflexivity. }
  destruct (trep t) eqn:Et; try discriminate Ep.
  - (* ? *)
    destruct (postfix_question fuel start s p t ts e errs H Et) as (p1 & -> & H1).
    apply (Hcont [] ts (tend t) [] p1); [apply st_errs; assumption|reflexivity|reflexivity|].
    intros _ x pre Hx Hop. unfold try_question.
    replace (start, tend t) with (range ((x :: pre) ++ [t])) by (symmetry; apply (Hrange x pre []); assumption).
    apply (g_postfix (x :: pre) s t TRY_QUESTION); [assumption|]. rewrite Et. constructor.
  - (* ! *)
    destruct (postfix_exclamation fuel start s p t ts e errs H Et) as (p1 & -> & H1).
    apply (Hcont [] ts (tend t) [] p1); [apply st_errs; assumption|reflexivity|reflexivity|].
    intros _ x pre Hx Hop. unfold try_exclamation.
    replace (start, tend t) with (range ((x :: pre) ++ [t])) by (symmetry; apply (Hrange x pre []); assumption).
    apply (g_postfix (x :: pre) s t TRY_EXCLAMATION); [assumption|]. rewrite Et. constructor.
  - (* { *)
    destruct (postfix_lbrace fuel start s p t ts e errs H Et) as (p1 & -> & H1).
    destruct (Hseq fuel ltac:(lia) p1 ts (tend t) errs [] ltac:(lia) Hne' H1)
      as (ss & p2 & used & ts1 & errs1 & E2 & -> & H2 & Hlead & Hg).
    rewrite (pbind_ok _ _ _ _ _ E2). cbn [app].
    destruct ts1 as [|x ts1].
    { destruct (prim_no f_rbrace (t_ "}") p2 [] _ _ H2 I) as (err & p3 & E3 & H3).
      rewrite (pbind_err _ _ _ _ _ E3). exists (PErr err), p3, (t :: used), [], errs1.
      split; [reflexivity|]. split; [reflexivity|]. split; [assumption|exact I]. }
    destruct (f_rbrace (trep x)) as [[]|] eqn:Er.
    + destruct (prim_ok f_rbrace (t_ "}") p2 x ts1 _ _ tt H2 Er) as (p3 & E3 & H3).
      rewrite (pbind_ok _ _ _ _ _ E3).
      assert (El : latest_token_end p3 = tend x) by apply H3. rewrite El.
      assert (Ex : trep x = TRBrace) by (destruct (trep x); try discriminate Er; reflexivity).
      apply (Hcont (used ++ [x]) ts1 (tend x) errs1 p3); [assumption|rewrite <- app_assoc; reflexivity| |].
      * change (t :: used ++ [x]) with ((t :: used) ++ [x]). rewrite endof_app. reflexivity.
      * intros He y pre Hy Hop. unfold annotate.
        replace (start, tend x) with (range ((y :: pre) ++ t :: used ++ [x])).
        2:{ symmetry. rewrite <- (Hrange y pre (used ++ [x])) by assumption. f_equal.
            change (t :: used ++ [x]) with ((t :: used) ++ [x]). rewrite endof_app. reflexivity. }
        apply (g_annotate (y :: pre) s t used ss x); auto.
    + destruct (prim_no f_rbrace (t_ "}") p2 (x :: ts1) _ _ H2) as (err & p3 & E3 & H3).
      { cbn. unfold leading_of. rewrite Er. reflexivity. }
      rewrite (pbind_err _ _ _ _ _ E3). exists (PErr err), p3, (t :: used), (x :: ts1), errs1.
      split; [reflexivity|]. split; [reflexivity|]. split; [assumption|exact I].
Qed.

Lemma sexp_step n :
  (forall fuel, (3 * n + 3 <= fuel)%nat -> body_spec (parse_body fuel) n) ->
  (forall fuel, (3 * n + 1 <= fuel)%nat -> sexp_spec (parse_sexp fuel) n) ->
  (forall fuel, (3 * n + 1 <= fuel)%nat -> postfix_spec (parse_postfix fuel) n) ->
  forall fuel, (3 * S n + 1 <= fuel)%nat -> sexp_spec (parse_sexp fuel) (S n).
Proof.
  intros Hbody Hsexp Hpost [|fuel] Hf; [lia|]. intros p ts e errs Hn Hne H.
  cbn [parse_sexp]. rewrite (next_token_start_st _ _ _ _ H).
  apply peeked_st in H.
  assert (Hb : base_spec (choose (sexp_alternatives (parse_body fuel) (parse_sexp fuel))
                            (error_expected (t_ "S-expression"))) (S n)).
  { apply base_ok; [apply Hbody; lia|apply Hsexp; lia]. }
  specialize (Hb _ ts e errs Hn Hne (peeked_st _ _ _ _ H) (peeked_norm _)).
  destruct Hb as (r & p1 & used & ts1 & errs1 & E & -> & H1 & Hr).
  match goal with |- context [pbind (capture ?m ?k)] =>
    assert (Ec : capture m k (peeked p) =
      match r with
      | POk b => Ret (POk (Sexp (start_of (used ++ ts1) e, endof used e) b), p1)
      | PErr err => Ret (PErr err, p1)
      end) end.
  { rewrite (capture_eq _ _ _ _ _ _ H). unfold pbind. rewrite E. cbn [bind].
    destruct r as [b|err]; [|reflexivity]. unfold pret. destruct H1 as (_ & -> & _). reflexivity. }
  destruct r as [b|err].
  2:{ rewrite (pbind_err _ _ _ _ _ Ec). exists (PErr err), p1, used, ts1, errs1.
      split; [reflexivity|]. split; [reflexivity|]. split; [assumption|]. assumption. }
  rewrite (pbind_ok _ _ _ _ _ Ec). destruct Hr as (Hu & Hg).
  destruct used as [|t used]; [congruence|].
  cbn [app start_of]. rewrite <- (range_cons t used e).
  rewrite app_length in Hn; cbn in Hn. apply no_eof_app in Hne as [_ Hne1].
  destruct (Hpost fuel ltac:(lia) p1 ts1 _ _ (tstart t) (Sexp (range (t :: used)) b) ltac:(lia) Hne1 H1)
    as (r & p2 & used2 & ts2 & errs2 & E2 & -> & H2 & Hr2).
  exists r, p2, ((t :: used) ++ used2), ts2, (errs1 ++ errs2).
  split; [exact E2|]. split; [rewrite <- app_assoc; reflexivity|].
  split; [rewrite endof_app, app_assoc; assumption|].
  destruct r as [s'|err]; [|left; discriminate].
  destruct Hr2 as (Hh & Hop & Hnone). split; [discriminate|]. split; [assumption|].
  intros He. apply app_eq_nil in He as [-> ->].
  destruct (Hg eq_refl) as [Ho|[Hs Hnp]].
  - apply g_postfixed. apply Hop; auto.
  - destruct (Hnone Hnp) as (-> & _ & ->). rewrite app_nil_r. assumption.
Qed.

Lemma seq_step n :
  (forall fuel, (3 * S n + 1 <= fuel)%nat -> sexp_spec (parse_sexp fuel) (S n)) ->
  (forall fuel, (3 * n + 2 <= fuel)%nat -> seq_spec (parse_seq fuel) n) ->
  forall fuel, (3 * S n + 2 <= fuel)%nat -> seq_spec (parse_seq fuel) (S n).
Proof.
  intros Hsexp IH [|fuel] Hf; [lia|]. intros p ts e errs r0 Hn Hne H.
  cbn [parse_seq]. rewrite (should_parse_st _ _ _ _ _ H). apply peeked_st in H.
  destruct (match ts with t :: _ => sexp_leading (trep t) | [] => false end) eqn:El.
  2:{ exists [], (peeked p), [], ts, []. rewrite app_nil_r. split; [reflexivity|]. split; [reflexivity|].
      split; [apply st_errs; assumption|]. split; [destruct ts; [exact I|exact El]|]. intros _; constructor. }
  destruct ts as [|t ts]; [discriminate|].
  destruct (Hsexp fuel ltac:(lia) _ _ _ _ Hn Hne H) as (r & p1 & used & ts1 & errs1 & E1 & Ets & H1 & Hr).
  (* after the element: progress, and the remaining tokens *)
  assert (Hel : exists o p2 used' ts2 errs2, swallow (parse_sexp fuel) (peeked p) = Ret (o, p2) /\
     t :: ts = used' ++ ts2 /\ used' <> [] /\ st p2 ts2 (endof used' e) (errs ++ errs2) /\
     (errs2 = [] -> exists a, o = Some a /\ g_sexp used' a)).
  { unfold swallow. rewrite E1. cbn [bind]. destruct r as [a|err].
    - destruct Hr as (Hu & _ & Hg). exists (Some a), p1, used, ts1, errs1. repeat split; try apply H1; auto.
      intros He; exists a; auto.
    - cbn [toks].
      destruct (skip_st (toks p1) {| toks := toks p1; latest_token_end := latest_token_end p1;
                 inner_errors := inner_errors p1 ++ [err] |} (endof used e) ((errs ++ errs1) ++ [err]))
        as (used2 & ts2 & Es & Hfol & Hall & Hst); [apply H1|cbn; f_equal; apply H1|].
      assert (Esig : significant (toks p1) = ts1) by apply H1. rewrite Esig in Es.
      exists None, (skip (toks p1) {| toks := toks p1; latest_token_end := latest_token_end p1;
                 inner_errors := inner_errors p1 ++ [err] |}), (used ++ used2), ts2, (errs1 ++ [err]).
      split; [reflexivity|]. split; [rewrite Ets, Es, app_assoc; reflexivity|]. split.
      { intros Hnil. apply app_eq_nil in Hnil as [-> ->]. cbn in Ets, Es. subst ts1 ts2.
        destruct Hr as [Hr|[Hr _]]; [congruence|]. cbn in Hr.
        inversion Hne as [|? ? Ht _]; subst. cbn in Hfol.
        destruct H as (Hsig & _).
        assert (Hamb : is_ambient (trep t) = false).
        { assert (Hin : In t (significant (toks (peeked p)))) by (rewrite Hsig; left; reflexivity).
          apply filter_In in Hin as [_ Hin]. destruct (is_ambient (trep t)); [discriminate|reflexivity]. }
        destruct (trep t); cbn in *; congruence. }
      split.
      { rewrite app_assoc. destruct used2 as [|x used2].
        - rewrite app_nil_r. assumption.
        - rewrite endof_app, endof_last. assumption. }
      intros He. apply app_eq_nil in He as [_ He]. discriminate. }
  clear E1 Ets H1 Hr r p1 used ts1 errs1.
  destruct Hel as (o & p1 & used & ts1 & errs1 & E1 & Ets & Hu & H1 & Hg).
  rewrite E1. cbn [bind].
  set (r1 := match o with Some a => r0 ++ [a] | None => r0 end).
  assert (Hlen : (List.length ts1 <= n)%nat).
  { apply (f_equal (@List.length token)) in Ets. rewrite app_length in Ets. cbn in Ets, Hn.
    destruct used; [congruence|cbn in Ets; lia]. }
  rewrite Ets in Hne. apply no_eof_app in Hne as [_ Hne1].
  assert (Er : forall ss, exists ss', r1 ++ ss = r0 ++ ss' /\ (ss' = match o with Some a => a :: ss | None => ss end)).
  { intros ss. unfold r1. destruct o as [a|]; eexists; (split; [|reflexivity]); rewrite <- ?app_assoc; reflexivity. }
  unfold pbind at 1, try_parse. rewrite (should_parse_st _ _ _ _ _ H1). apply peeked_st in H1.
  destruct ts1 as [|x ts1].
  { unfold pret; cbn [bind]. destruct (Er []) as (ss' & Ess & ->). rewrite app_nil_r in Ess. rewrite Ess.
    exists (match o with Some a => [a] | None => [] end), (peeked p1), used, [], errs1.
    split; [reflexivity|]. split; [assumption|]. split; [assumption|]. split; [exact I|].
    intros He. destruct (Hg He) as (a & -> & Ha). rewrite <- (app_nil_r used).
    apply g_cons; [assumption|constructor]. }
  unfold pbind, pret; cbn [bind].
  destruct (IH fuel ltac:(lia) _ _ _ _ r1 Hlen Hne1 H1) as (ss & p2 & used2 & ts2 & errs2 & E2 & Ets2 & H2 & Hl & Hg2).
  rewrite E2. destruct (Er ss) as (ss' & -> & ->).
  exists (match o with Some a => a :: ss | None => ss end), p2, (used ++ used2), ts2, (errs1 ++ errs2).
  split; [reflexivity|]. split; [rewrite Ets, Ets2, app_assoc; reflexivity|].
  split; [rewrite endof_app, app_assoc; assumption|]. split; [assumption|].
  intros He. apply app_eq_nil in He as [He1 He2]. destruct (Hg He1) as (a & -> & Ha).
  apply g_cons; auto.
Qed.

Lemma rep_list_like_dotted h xs s : dotted h xs s (rep_list_like h xs s).
Proof. destruct s as [l []]; unfold rep_list_like; cbn; constructor; discriminate. Qed.

Lemma body_step n :
  (forall fuel, (3 * S n + 2 <= fuel)%nat -> seq_spec (parse_seq fuel) (S n)) ->
  (forall fuel, (3 * n + 1 <= fuel)%nat -> sexp_spec (parse_sexp fuel) n) ->
  (forall fuel, (3 * n + 3 <= fuel)%nat -> body_spec (parse_body fuel) n) ->
  forall fuel, (3 * S n + 3 <= fuel)%nat -> body_spec (parse_body fuel) (S n).
Proof.
  intros Hseq Hsexp IH [|fuel] Hf; [lia|]. intros p ts e errs Hn Hne H.
  cbn [parse_body].
  destruct (Hseq fuel ltac:(lia) _ _ _ _ [] Hn Hne H) as (ss & p1 & used & ts1 & errs1 & E1 & -> & H1 & Hl & Hg).
  rewrite (pbind_ok _ _ _ _ _ E1). cbn [app]. clear E1.
  rewrite app_length in Hn. apply no_eof_app in Hne as [_ Hne1].
  destruct ts1 as [|t ts1].
  { rewrite (pbind_ok _ _ _ _ _ (try_prim_no f_at (t_ "@") p1 [] _ _ H1 I)). apply peeked_st in H1.
    rewrite (pbind_ok _ _ _ _ _ (try_prim_no f_dot (t_ ".") _ [] _ _ H1 I)). apply peeked_st in H1.
    exists (POk (RList ss)), (peeked (peeked p1)), used, [], errs1.
    split; [reflexivity|]. split; [reflexivity|]. split; [assumption|]. intros He; apply g_items; auto. }
  cbn in Hn. assert (Hne2 : no_eof ts1) by (inversion Hne1; assumption).
  assert (Hdefault : f_at (trep t) = None -> f_dot (trep t) = None ->
    exists r p' used' ts' errs2,
    (o <- try_prim f_at (t_ "@") ;;
     match o with
     | Some _ => last <- capture (parse_body fuel) Sexp ;; pret (RList (ss ++ [last]))
     | None =>
       o <- try_prim f_dot (t_ ".") ;;
       match o with
       | Some _ => last <- parse_sexp fuel ;;
         match ss with
         | [] => pret (rep last)
         | head :: items => pret (rep_list_like head items last)
         end
       | None => pret (RList ss)
       end
     end) p1 = Ret (r, p') /\ used ++ t :: ts1 = used' ++ ts' /\
     st p' ts' (endof used' e) (errs ++ errs2) /\
     match r with
     | POk b => errs2 = [] -> g_body (start_of ts' (endof used' e)) used' b
     | PErr _ => True
     end).
  { intros Ha Hd.
    rewrite (pbind_ok _ _ _ _ _ (try_prim_no f_at (t_ "@") p1 _ _ _ H1 ltac:(cbn; unfold leading_of; rewrite Ha; reflexivity))).
    apply peeked_st in H1.
    rewrite (pbind_ok _ _ _ _ _ (try_prim_no f_dot (t_ ".") _ _ _ _ H1 ltac:(cbn; unfold leading_of; rewrite Hd; reflexivity))).
    apply peeked_st in H1.
    exists (POk (RList ss)), (peeked (peeked p1)), used, (t :: ts1), errs1.
    split; [reflexivity|]. split; [reflexivity|]. split; [assumption|]. intros He; apply g_items; auto. }
  destruct (f_at (trep t)) as [[]|] eqn:Eat.
  - (* @ *)
    clear Hdefault.
    assert (Et : trep t = TAt) by (destruct (trep t); try discriminate Eat; reflexivity).
    destruct (try_prim_ok f_at (t_ "@") p1 t ts1 _ _ tt H1 Eat) as (p2 & E2 & H2).
    rewrite (pbind_ok _ _ _ _ _ E2).
    destruct (IH fuel ltac:(lia) _ ts1 _ _ ltac:(lia) Hne2 (peeked_st _ _ _ _ H2))
      as (r & p3 & used3 & ts3 & errs3 & E3 & -> & H3 & Hr).
    match goal with |- context [pbind (capture ?m ?k)] =>
      assert (Ec : capture m k p2 =
        match r with
        | POk b => Ret (POk (Sexp (start_of (used3 ++ ts3) (tend t), endof used3 (tend t)) b), p3)
        | PErr err => Ret (PErr err, p3)
        end) end.
    { rewrite (capture_eq _ _ _ _ _ _ H2). unfold pbind. rewrite E3. cbn [bind].
      destruct r as [b|err]; [|reflexivity]. unfold pret. destruct H3 as (_ & -> & _). reflexivity. }
    assert (Hst : st p3 ts3 (endof (used ++ t :: used3) e) (errs ++ errs1 ++ errs3)).
    { rewrite endof_app, app_assoc. assumption. }
    destruct r as [b|err].
    + rewrite (pbind_ok _ _ _ _ _ Ec).
      eexists (POk _), p3, (used ++ t :: used3), ts3, (errs1 ++ errs3).
      split; [reflexivity|]. split; [rewrite <- app_assoc; reflexivity|]. split; [assumption|].
      intros He. apply app_eq_nil in He as [-> ->].
      specialize (Hr eq_refl). specialize (Hg eq_refl).
      replace (start_of ts3 (endof (used ++ t :: used3) e)) with (start_of ts3 (endof used3 (tend t))).
      2:{ rewrite endof_app. reflexivity. }
      replace (start_of (used3 ++ ts3) (tend t), endof used3 (tend t)) with
        (match used3 with [] => (start_of ts3 (endof used3 (tend t)), tend t) | _ => range used3 end).
      2:{ destruct used3 as [|y used3]; [reflexivity|]. rewrite (range_cons y used3 (tend t)). reflexivity. }
      apply g_spread; assumption.
    + rewrite (pbind_err _ _ _ _ _ Ec).
      exists (PErr err), p3, (used ++ t :: used3), ts3, (errs1 ++ errs3).
      split; [reflexivity|]. split; [rewrite <- app_assoc; reflexivity|]. split; [assumption|exact I].
  - destruct (f_dot (trep t)) as [[]|] eqn:Edot.
    2:{ destruct (Hdefault eq_refl eq_refl) as (r & p' & used' & ts' & errs2 & E & Ets & H' & Hr).
        exists r, p', used', ts', errs2. auto. }
    clear Hdefault.
    assert (Et : trep t = TDot) by (destruct (trep t); try discriminate Edot; reflexivity).
    rewrite (pbind_ok _ _ _ _ _ (try_prim_no f_at (t_ "@") p1 _ _ _ H1 ltac:(cbn; unfold leading_of; rewrite Eat; reflexivity))).
    apply peeked_st in H1.
    destruct (try_prim_ok f_dot (t_ ".") _ t ts1 _ _ tt H1 Edot) as (p2 & E2 & H2).
    rewrite (pbind_ok _ _ _ _ _ E2).
    destruct (Hsexp fuel ltac:(lia) _ ts1 _ _ ltac:(lia) Hne2 H2)
      as (r & p3 & used3 & ts3 & errs3 & E3 & -> & H3 & Hr).
    assert (Hst : st p3 ts3 (endof (used ++ t :: used3) e) (errs ++ errs1 ++ errs3)).
    { rewrite endof_app, app_assoc. assumption. }
    destruct r as [last|err].
    + rewrite (pbind_ok _ _ _ _ _ E3). destruct Hr as (_ & _ & Hgs).
      destruct ss as [|h ss].
      * exists (POk (rep last)), p3, (used ++ t :: used3), ts3, (errs1 ++ errs3).
        split; [reflexivity|]. split; [rewrite <- app_assoc; reflexivity|]. split; [assumption|].
        intros He. apply app_eq_nil in He as [-> ->]. specialize (Hg eq_refl). inversion Hg; subst.
        apply g_dot; auto.
      * exists (POk (rep_list_like h ss last)), p3, (used ++ t :: used3), ts3, (errs1 ++ errs3).
        split; [reflexivity|]. split; [rewrite <- app_assoc; reflexivity|]. split; [assumption|].
        intros He. apply app_eq_nil in He as [-> ->].
        eapply g_dotted; [apply Hg; reflexivity|assumption|apply Hgs; reflexivity|apply rep_list_like_dotted].
    + rewrite (pbind_err _ _ _ _ _ E3).
      exists (PErr err), p3, (used ++ t :: used3), ts3, (errs1 ++ errs3).
      split; [reflexivity|]. split; [rewrite <- app_assoc; reflexivity|]. split; [assumption|exact I].
Qed.
