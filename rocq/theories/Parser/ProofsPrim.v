(** Token-level steps of the parser in terms of the significant tokens. *)
From Verif.Base Require Import BaseFacts.
From Verif.Lexer Require Import Model.
From Verif.Sexp Require Import Model.
From Verif.Parser Require Import Model Spec.

(** The observable part of a parser state. *)
Definition st (p : pstate) (ts : list token) (e : location) (errs : list perror) : Prop :=
  significant (toks p) = ts /\ latest_token_end p = e /\ inner_errors p = errs.

Definition norm (p : pstate) : Prop := drop_ambient (toks p) = toks p.

Definition peeked (p : pstate) : pstate := with_toks (drop_ambient (toks p)) p.

Lemma drop_ambient_sig l : significant (drop_ambient l) = significant l.
Proof.
  unfold significant. induction l as [|t l IH]; [reflexivity|]. cbn.
  destruct (is_ambient (trep t)) eqn:E; cbn; [assumption|]. rewrite E. reflexivity.
Qed.

Lemma drop_ambient_hd l : hd_error (drop_ambient l) = hd_error (significant l).
Proof.
  unfold significant. induction l as [|t l IH]; [reflexivity|]. cbn.
  destruct (is_ambient (trep t)); cbn; [assumption|reflexivity].
Qed.

Lemma drop_ambient_idem l : drop_ambient (drop_ambient l) = drop_ambient l.
Proof.
  induction l as [|t l IH]; [reflexivity|]. cbn.
  destruct (is_ambient (trep t)) eqn:E; [assumption|]. cbn. rewrite E. reflexivity.
Qed.

Lemma peek_eq p : peek_token p = (hd_error (significant (toks p)), peeked p).
Proof. unfold peek_token. rewrite drop_ambient_hd. reflexivity. Qed.

Lemma peeked_st p ts e errs : st p ts e errs -> st (peeked p) ts e errs.
Proof. intros (H & He & Hr). unfold st, peeked; cbn. rewrite drop_ambient_sig. auto. Qed.

Lemma peeked_norm p : norm (peeked p).
Proof. unfold norm, peeked; cbn. apply drop_ambient_idem. Qed.

Lemma norm_peeked p : norm p -> peeked p = p.
Proof. destruct p; unfold norm, peeked, with_toks; cbn. intros ->; reflexivity. Qed.

Lemma peek_st p ts e errs : st p ts e errs -> peek_token p = (hd_error ts, peeked p).
Proof. intros (H & _). rewrite peek_eq, H. reflexivity. Qed.

Lemma next_st p t ts e errs : st p (t :: ts) e errs ->
  exists p', next_token (toks p) p = (Some t, p') /\ st p' ts (tend t) errs.
Proof.
  unfold st. intros (H & _ & Hr). revert H. unfold significant.
  generalize (toks p). induction l as [|x l IH]; cbn; [discriminate|].
  destruct (is_ambient (trep x)) eqn:E; cbn.
  - intros H. apply IH; assumption.
  - intros H; injection H as -> <-. eexists; split; [reflexivity|]. cbn. auto.
Qed.

Lemma next_token_start_st p ts e errs : st p ts e errs ->
  next_token_start p = (match ts with t :: _ => tstart t | [] => e end, peeked p).
Proof.
  intros H. unfold next_token_start. rewrite (peek_st _ _ _ _ H).
  destruct ts; cbn; [|reflexivity]. destruct H as (_ & <- & _). reflexivity.
Qed.

Lemma should_parse_st lead p ts e errs : st p ts e errs ->
  should_parse lead p = (match ts with t :: _ => lead (trep t) | [] => false end, peeked p).
Proof.
  intros H. unfold should_parse. rewrite (peek_st _ _ _ _ H). destruct ts; reflexivity.
Qed.

Lemma error_st {A} msg p ts e errs : st p ts e errs ->
  exists err, @error_expected A msg p = Ret (PErr err, peeked p).
Proof. intros H. unfold error_expected. rewrite (peek_st _ _ _ _ H). eauto. Qed.

Lemma prim_ok {A} (f : tokenrep -> option A) msg p t ts e errs a :
  st p (t :: ts) e errs -> f (trep t) = Some a ->
  exists p', prim f msg p = Ret (POk a, p') /\ st p' ts (tend t) errs.
Proof.
  intros H Hf. unfold prim. rewrite (peek_st _ _ _ _ H). cbn [hd_error]. rewrite Hf.
  destruct (next_st _ _ _ _ _ (peeked_st _ _ _ _ H)) as (p' & -> & H').
  rewrite Hf. exists p'. auto.
Qed.

Definition head_not (f : tokenrep -> bool) (ts : list token) : Prop :=
  match ts with t :: _ => f (trep t) = false | [] => True end.

Lemma prim_no {A} (f : tokenrep -> option A) msg p ts e errs :
  st p ts e errs -> head_not (leading_of f) ts ->
  exists err p', prim f msg p = Ret (PErr err, p') /\ st p' ts e errs.
Proof.
  intros H Hf. unfold prim. rewrite (peek_st _ _ _ _ H).
  pose proof (peeked_st _ _ _ _ H) as H'.
  destruct (@error_st A msg _ _ _ _ H') as (err & E). exists err, (peeked (peeked p)).
  split; [|apply peeked_st; assumption].
  destruct ts as [|t ts]; cbn [hd_error]; [assumption|].
  cbn in Hf. unfold leading_of in Hf. destruct (f (trep t)); [discriminate|]. assumption.
Qed.

Lemma try_prim_ok {A} (f : tokenrep -> option A) msg p t ts e errs a :
  st p (t :: ts) e errs -> f (trep t) = Some a ->
  exists p', try_prim f msg p = Ret (POk (Some a), p') /\ st p' ts (tend t) errs.
Proof.
  intros H Hf. unfold try_prim, try_parse. rewrite (should_parse_st _ _ _ _ _ H).
  unfold leading_of. rewrite Hf. unfold pbind.
  destruct (prim_ok f msg _ _ _ _ _ _ (peeked_st _ _ _ _ H) Hf) as (p' & -> & H'). exists p'; split; [reflexivity|assumption].
Qed.

Lemma try_prim_no {A} (f : tokenrep -> option A) msg p ts e errs :
  st p ts e errs -> head_not (leading_of f) ts ->
  try_prim f msg p = Ret (POk None, peeked p).
Proof.
  intros H Hf. unfold try_prim, try_parse. rewrite (should_parse_st _ _ _ _ _ H).
  destruct ts as [|t ts]; [reflexivity|]. cbn in Hf. rewrite Hf. reflexivity.
Qed.

Lemma try_parse_norm {A B} lead (m : P A) (k : option A -> P B) p : norm p ->
  (o <- try_parse lead m ;; k o) p =
  if (match hd_error (toks p) with Some t => lead (trep t) | None => false end)
  then (x <- m ;; k (Some x)) p else k None p.
Proof.
  intros Hn.
  assert (E : with_toks (toks p) p = p) by (destruct p; reflexivity).
  assert (E2 : should_parse lead p = (match hd_error (toks p) with Some t => lead (trep t) | None => false end, p)).
  { unfold should_parse, peek_token. rewrite Hn, E. reflexivity. }
  unfold pbind at 1. unfold try_parse at 1. rewrite E2.
  destruct (hd_error (toks p)) as [t|]; [|reflexivity].
  destruct (lead (trep t)); [|reflexivity].
  unfold pbind. destruct (m p) as [[[a|err] p']| |]; reflexivity.
Qed.

Lemma choose_norm (body : P srep) (sx : P sexp) msg p : norm p ->
  choose (sexp_alternatives body sx) (error_expected msg) p =
  match hd_error (toks p) with
  | None => error_expected msg p
  | Some t =>
    match trep t with
    | TSigned _ | TUnsigned _ => sexp_integer p
    | TFPNumber _ => sexp_fpnumber p
    | TSymbol _ => sexp_symbol p
    | TString _ => sexp_string p
    | TChar _ => sexp_char p
    | TLParen => list_between body f_lparen f_rparen (t_ "(") (t_ ")") p
    | TLBrack => list_between body f_lbrack f_rbrack (t_ "[") (t_ "]") p
    | TQuote => quoted sx f_quote (t_ "'") QUOTE p
    | TBackquote => quoted sx f_backquote (t_ "`") QUASIQUOTE p
    | TComma => quoted sx f_comma (t_ ",") UNQUOTE p
    | TCommaAt => quoted sx f_comma_at (t_ ",@") UNQUOTE_SPLICING p
    | TBackslash => quoted sx f_backslash (t_ "\") CAPTURE p
    | TTilde => quoted sx f_tilde (t_ "~") LOAD p
    | TTrue | TFalse => sexp_bool p
    | _ => error_expected msg p
    end
  end.
Proof.
  intros Hn.
  assert (E : forall m : P srep, (x <- m ;; pret x) p = m p).
  { intros m. unfold pbind, pret. destruct (m p) as [[[a|err] p']| |]; reflexivity. }
  unfold sexp_alternatives.
  destruct (hd_error (toks p)) as [t|] eqn:Eh.
  - destruct (trep t) eqn:Et;
    repeat (cbn [choose]; rewrite try_parse_norm by assumption; rewrite Eh, Et; cbn [leading_of integer_leading bool_leading
       f_signed f_unsigned f_fpnumber f_symbol f_string f_char f_lparen f_lbrack f_quote f_backquote f_comma f_comma_at f_backslash f_tilde f_true f_false orb]; try rewrite E; try reflexivity).
  - repeat (cbn [choose]; rewrite try_parse_norm by assumption; rewrite Eh). reflexivity.
Qed.

Lemma skip_st l : forall p e errs, latest_token_end p = e -> inner_errors p = errs ->
  exists used ts', significant l = used ++ ts' /\
    head_not (fun r => negb (sexp_following r)) ts' /\
    Forall (fun t => sexp_following (trep t) = false) used /\
    st (skip l p) ts' (match used with [] => e | t :: _ => tend (List.last used t) end) errs.
Proof.
  induction l as [|t l IH]; intros p e errs He Hr.
  - exists [], []. repeat split; auto; cbn; auto.
  - cbn [skip]. unfold significant in *. cbn [filter].
    destruct (is_ambient (trep t)) eqn:Ea; cbn [negb].
    + destruct (IH (with_toks l p) e errs He Hr) as (u & ts' & H1 & H2 & H3 & H4).
      exists u, ts'. auto.
    + destruct (sexp_following (trep t)) eqn:Ef.
      * exists [], (t :: filter (fun t => negb (is_ambient (trep t))) l).
        split; [reflexivity|]. split; [cbn; rewrite Ef; reflexivity|]. split; [constructor|].
        repeat split; cbn; auto. unfold significant. cbn. rewrite Ea. reflexivity.
      * destruct (IH {| toks := l; latest_token_end := tend t; inner_errors := inner_errors p |}
                    (tend t) errs eq_refl Hr) as (u & ts' & H1 & H2 & H3 & H4).
        exists (t :: u), ts'. split; [cbn; rewrite H1; reflexivity|]. split; [assumption|].
        split; [constructor; assumption|]. destruct u as [|x u]; [assumption|].
        assert (E : List.last (t :: x :: u) t = List.last (x :: u) x).
        { clear. revert t x; induction u as [|y u IHu]; intros t x; [reflexivity|].
          change (List.last (t :: x :: y :: u) t) with (List.last (x :: y :: u) t).
          change (List.last (x :: y :: u) t) with (List.last (y :: u) t).
          change (List.last (x :: y :: u) x) with (List.last (y :: u) x).
          clear. revert t x y; induction u as [|z u IHu]; intros; [reflexivity|]. apply IHu. }
        rewrite E. assumption.
Qed.
