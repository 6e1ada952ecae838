(** Printed S-expressions read back. *)
From Verif.Base Require Import BaseFacts.
From Verif.Str Require Import Model Spec Proofs.
From Verif.Lexer Require Import Model Spec ProofsNum Proofs.
From Verif.Sexp Require Import Model Spec.
From Verif.Parser Require Import Model Spec Proofs.

(** ** Induction on S-expressions *)

Section SexpInd.
Variable P : sexp -> Prop.
Hypothesis Hint : forall l b v, P (Sexp l (RInteger b v)).
Hypothesis Hfp : forall l s, P (Sexp l (RFPNumber s)).
Hypothesis Hsym : forall l s, P (Sexp l (RSymbol s)).
Hypothesis Hstr : forall l s, P (Sexp l (RString s)).
Hypothesis Hchar : forall l c, P (Sexp l (RChar c)).
Hypothesis Hlist : forall l xs, Forall P xs -> P (Sexp l (RList xs)).
Hypothesis Hll : forall l h xs z, P h -> Forall P xs -> P z -> P (Sexp l (RListLike h xs z)).
Hypothesis Hbool : forall l b, P (Sexp l (RBool b)).
Hypothesis Hnat : forall l s, P (Sexp l (RNative s)).

Fixpoint sexp_ind' (s : sexp) : P s :=
  match s with
  | Sexp l r =>
    let all := fix all (xs : list sexp) : Forall P xs :=
      match xs with [] => Forall_nil P | x :: xs => Forall_cons x (sexp_ind' x) (all xs) end in
    match r with
    | RInteger b v => Hint l b v
    | RFPNumber s => Hfp l s
    | RSymbol s => Hsym l s
    | RString s => Hstr l s
    | RChar c => Hchar l c
    | RList xs => Hlist l xs (all xs)
    | RListLike h xs z => Hll l h xs z (sexp_ind' h) (all xs) (sexp_ind' z)
    | RBool b => Hbool l b
    | RNative s => Hnat l s
    end
  end.
End SexpInd.

(** ** Numbers *)

Lemma show_loop_decimal fuel : forall n, (n < 2 ^ N.of_nat fuel)%N -> (0 < fuel)%nat ->
  decimal (show_loop fuel n) n.
Proof.
  induction fuel as [|fuel IH]; intros n Hn Hf; [lia|]. cbn [show_loop].
  destruct (N.ltb_spec n 10) as [Hlt|Hge].
  - replace n with (48 + n - 48)%N at 2 by lia. constructor. unfold digit; lia.
  - replace n with (10 * (n / 10) + (48 + n mod 10 - 48))%N at 3.
    + apply dec_snoc; [|unfold digit; pose proof (N.mod_lt n 10); lia].
      apply IH.
      * rewrite Nat2N.inj_succ, N.pow_succ_r' in Hn.
        apply N.div_lt_upper_bound; lia.
      * destruct fuel; [|lia]. cbn in Hn. lia.
    + pose proof (N.div_mod n 10). lia.
Qed.

Lemma show_u64_decimal n : decimal (show_u64 n) n.
Proof.
  apply show_loop_decimal; [|lia].
  assert (H : (n < 2 ^ N.of_nat (N.size_nat n))%N).
  { destruct n as [|p]; [cbn; lia|]. cbn [N.size_nat].
    pose proof (Pos.size_nat_monotone) as _.
    induction p as [p IHp|p IHp|]; cbn [Pos.size_nat]; try (cbn; lia);
      rewrite Nat2N.inj_succ, N.pow_succ_r'; lia. }
  rewrite Nat2N.inj_succ, N.pow_succ_r'. lia.
Qed.

Lemma digit_id c : digit c -> id_char c.
Proof.
  intros H. apply is_id_char_spec. unfold is_id_char. apply is_digit_spec in H. rewrite H.
  rewrite !orb_true_r. reflexivity.
Qed.

Lemma decimal_id t n : decimal t n -> Forall id_char t.
Proof. intros H. apply decimal_digits in H. eapply Forall_impl; [|exact H]. apply digit_id. Qed.

Lemma unsigned_word n : (n < 2 ^ 64)%N -> word (show_u64 n) (TUnsigned n).
Proof.
  intros H. pose proof (show_u64_decimal n) as Hd. split; [eapply decimal_nonempty; exact Hd|].
  split; [eapply decimal_id; exact Hd|]. apply wt_unsigned. apply ul_plain; assumption.
Qed.

Lemma negative_word v : (2 ^ 63 <= v < 2 ^ 64)%N ->
  word (show_i64 (as_i64 v)) (TSigned (as_i64 v)) /\ Z.to_N (as_i64 v mod 2 ^ 64) = v.
Proof.
  intros H. unfold as_i64. destruct (N.ltb_spec v (2 ^ 63)) as [|_]; [lia|].
  assert (Hz : (Z.of_N v - 2 ^ 64 < 0)%Z) by lia.
  unfold show_i64. destruct (Z.ltb_spec (Z.of_N v - 2 ^ 64) 0) as [_|]; [|lia].
  set (n := Z.to_N (- (Z.of_N v - 2 ^ 64))).
  pose proof (show_u64_decimal n) as Hd. split.
  - split; [discriminate|]. split.
    + constructor; [apply is_id_char_spec; reflexivity|eapply decimal_id; exact Hd].
    + apply wt_signed.
      * intros m Hm. inversion Hm as [t k Hk Hk2 E|t k Hk Hk2 E]; subst.
        apply decimal_hd in Hk. unfold digit in Hk. cbn in Hk. lia.
      * replace (Z.of_N v - 2 ^ 64)%Z with (- Z.of_N n)%Z by (unfold n; lia).
        change (c_ "-") with minus. apply nl_minus; [assumption|]. unfold n. lia.
  - replace (Z.of_N v - 2 ^ 64)%Z with (Z.of_N v + (-1) * 2 ^ 64)%Z by lia.
    rewrite Z_mod_plus_full, Z.mod_small by lia. lia.
Qed.

(** ** Lexing in context *)

Inductive lexed : text -> list tokenrep -> text -> Prop :=
| lx_nil rest : lexed [] [] rest
| lx_cons s a r rs rest : s <> [] -> token_text r s (a ++ rest) -> lexed a rs rest ->
    lexed (s ++ a) (r :: rs) rest.

Lemma lexed_app a rs b rs' rest : lexed a rs (b ++ rest) -> lexed b rs' rest ->
  lexed (a ++ b) (rs ++ rs') rest.
Proof.
  intros H H'. remember (b ++ rest) as br eqn:E. induction H as [|s a r rs br Hs Ht _ IH]; [assumption|].
  rewrite <- app_assoc. cbn [app]. constructor; [assumption| |auto]. rewrite <- app_assoc, <- E. assumption.
Qed.

Lemma lexed_one s r rest : s <> [] -> token_text r s rest -> lexed s [r] rest.
Proof. intros Hs Ht. rewrite <- (app_nil_r s). constructor; [assumption|assumption|constructor]. Qed.

Lemma lexed_tokenised a rs before : lexed a rs [] -> exists toks, tokenised before a toks /\ map trep toks = rs.
Proof.
  intros H. remember (@nil char) as nl eqn:E. revert before.
  induction H as [|s a r rs rest Hs Ht _ IH]; intros before; [exists []; split; [constructor|reflexivity]|].
  subst rest. destruct (IH eq_refl (before ++ s)) as (toks & Hk & Hm).
  eexists (_ :: toks). split; [constructor|cbn [map trep]; rewrite Hm; reflexivity]; [assumption| |assumption].
  rewrite app_nil_r in Ht. assumption.
Qed.

Definition sig (rs : list tokenrep) : list tokenrep := filter (fun r => negb (is_ambient r)) rs.

Lemma sig_significant ts : map trep (significant ts) = sig (map trep ts).
Proof.
  unfold significant, sig. induction ts as [|t ts IH]; [reflexivity|]. cbn.
  destruct (negb (is_ambient (trep t))); cbn; rewrite IH; reflexivity.
Qed.

Lemma sig_app a b : sig (a ++ b) = sig a ++ sig b.
Proof. apply filter_app. Qed.

(** ** The invariant *)

Section Print.
Variable show_f64 : text -> text.
Notation print := (print show_f64).
Notation printable := (printable show_f64).

Definition prefixed (s : sexp) : bool :=
  match rep s with
  | RList l => match sugar_rep l with Prefix _ _ => true | _ => false end
  | _ => false
  end.

Definition fits (s : sexp) (rest : text) : Prop := next_char (fun c => ~ id_char c) rest \/ closed s.

Definition first_ok (t : text) : Prop :=
  match t with [] => False | c :: _ => ~ space_char c /\ c <> c_ "@" end.

Definition reads (s : sexp) (rs : list tokenrep) : Prop :=
  forall ts, map trep ts = sig rs ->
  exists s', strip s' = strip s /\ if prefixed s then g_sexp ts s' else g_operand ts s'.

Definition good (s : sexp) : Prop :=
  exists a rs, print s = Ret a /\ first_ok a /\ (forall rest, fits s rest -> lexed a rs rest) /\ reads s rs.

Definition reads_seq (ss : list sexp) (rs : list tokenrep) : Prop :=
  forall ts, map trep ts = sig rs -> exists ss', map strip ss' = map strip ss /\ g_seq ts ss'.

Fixpoint print_all (l : list sexp) : outcome (list text) :=
  match l with
  | [] => Ret []
  | s :: l => let* t := print s in let* ts := print_all l in Ret (t :: ts)
  end.

Lemma print_list l xs : print (Sexp l (RList xs)) =
  (let* ts := print_all xs in
    match sugar_rep xs, ts with
    | Prefix t _, [_; x] => Ret (t ++ x)
    | Postfix _ t, [_; x] => Ret (x ++ t)
    | Annotated _ _, _ :: x :: xs => Ret (x ++ t_ " {" ++ join xs ++ t_ "}")
    | _, _ => Ret (t_ "(" ++ join ts ++ t_ ")")
    end).
Proof. reflexivity. Qed.

Lemma print_list_like l h xs z : print (Sexp l (RListLike h xs z)) =
  (let* th := print h in
    let* ti := print_all xs in
    let* tl := print z in
    Ret (t_ "(" ++ th ++ flat_map (fun t => t_ " " ++ t) ti ++ t_ " . " ++ tl ++ t_ ")")).
Proof. reflexivity. Qed.

Fixpoint all_printable (l : list sexp) : Prop :=
  match l with [] => True | s :: l => printable s /\ all_printable l end.

Lemma printable_list l xs : printable (Sexp l (RList xs)) =
  (all_printable xs /\
    match sugar_rep xs with Postfix x _ => closed x | Annotated x _ => no_prefix x | _ => True end).
Proof. reflexivity. Qed.

Lemma printable_list_like l h xs z : printable (Sexp l (RListLike h xs z)) =
  (printable h /\ all_printable xs /\ printable z /\
    (forall ys, rep z <> RList ys) /\ (forall h' ys z', rep z <> RListLike h' ys z')).
Proof. reflexivity. Qed.

Lemma all_printable_Forall l : all_printable l <-> Forall printable l.
Proof.
  induction l as [|x l IH]; cbn; [split; [constructor|trivial]|]. rewrite IH.
  split; [intros []; constructor; assumption|]. inversion 1; auto.
Qed.

Lemma not_id_space rest : next_char (fun c => ~ id_char c) (t_ " " ++ rest).
Proof. intros H; apply is_id_char_spec in H; discriminate. Qed.
Lemma not_id_rparen rest : next_char (fun c => ~ id_char c) (t_ ")" ++ rest).
Proof. intros H; apply is_id_char_spec in H; discriminate. Qed.
Lemma not_id_rbrace rest : next_char (fun c => ~ id_char c) (t_ "}" ++ rest).
Proof. intros H; apply is_id_char_spec in H; discriminate. Qed.

Lemma first_ok_app a b : first_ok a -> first_ok (a ++ b).
Proof. destruct a; [contradiction|]. auto. Qed.
Lemma first_ok_nonempty a : first_ok a -> a <> [].
Proof. destruct a; [contradiction|discriminate]. Qed.

Lemma space_then t rest : first_ok t -> token_text TWhitespaces (t_ " ") (t ++ rest).
Proof.
  intros H. apply tt_space; [discriminate|repeat constructor|]. destruct t as [|c t]; [contradiction|]. apply H.
Qed.

(** One element, then more separated by spaces. *)
Lemma tail_good xs : Forall good xs -> exists ts rs, print_all xs = Ret ts /\
  (forall rest, next_char (fun c => ~ id_char c) rest ->
     lexed (flat_map (fun t => t_ " " ++ t) ts) rs rest) /\ reads_seq xs rs.
Proof.
  induction 1 as [|x xs (a & rs & Ep & Hf & Hl & Hr) _ (ts & rss & Eps & Hls & Hrs)].
  - exists [], []. split; [reflexivity|]. split; [intros; constructor|].
    intros [|]; [|discriminate]. intros _. exists []. split; [reflexivity|constructor].
  - exists (a :: ts), (TWhitespaces :: rs ++ rss). cbn [print_all]. rewrite Ep. cbn [bind]. rewrite Eps. cbn [bind].
    split; [reflexivity|]. split.
    + intros rest Hrest. cbn [flat_map]. rewrite <- app_assoc.
      constructor; [discriminate|rewrite <- app_assoc; apply space_then; assumption|].
      apply lexed_app; [|auto]. apply Hl. left. destruct ts as [|t ts]; [assumption|].
      cbn [flat_map]. rewrite <- !app_assoc. apply not_id_space.
    + intros tk. change (sig (TWhitespaces :: rs ++ rss)) with (sig (rs ++ rss)). rewrite sig_app.
      intros E. apply map_eq_app in E as (t1 & t2 & -> & E1 & E2).
      destruct (Hr _ E1) as (s' & Es & Hg). destruct (Hrs _ E2) as (ss' & Ess & Hgs).
      exists (s' :: ss'). split; [cbn; congruence|]. constructor; [|assumption].
      destruct (prefixed x); [assumption|constructor; assumption].
Qed.

Lemma join_good xs : Forall good xs -> exists ts rs, print_all xs = Ret ts /\
  (forall rest, next_char (fun c => ~ id_char c) rest -> lexed (join ts) rs rest) /\ reads_seq xs rs.
Proof.
  intros H. destruct H as [|x xs (a & rs & Ep & Hf & Hl & Hr) Hxs].
  - exists [], []. split; [reflexivity|]. split; [intros; constructor|].
    intros [|]; [|discriminate]. intros _. exists []. split; [reflexivity|constructor].
  - destruct (tail_good _ Hxs) as (ts & rss & Eps & Hls & Hrs).
    exists (a :: ts), (rs ++ rss). cbn [print_all]. rewrite Ep. cbn [bind]. rewrite Eps. cbn [bind].
    split; [reflexivity|]. split.
    + intros rest Hrest. cbn [join]. apply lexed_app; [|auto]. apply Hl. left.
      destruct ts as [|t ts]; [assumption|]. cbn [flat_map]. rewrite <- !app_assoc. apply not_id_space.
    + intros tk. rewrite sig_app. intros E. apply map_eq_app in E as (t1 & t2 & -> & E1 & E2).
      destruct (Hr _ E1) as (s' & Es & Hg). destruct (Hrs _ E2) as (ss' & Ess & Hgs).
      exists (s' :: ss'). split; [cbn; congruence|]. constructor; [|assumption].
      destruct (prefixed x); [assumption|constructor; assumption].
Qed.

(** ** Atoms *)

Lemma word_first t r : word t r -> first_ok t.
Proof.
  intros (Hn & Hf & _). destruct t as [|c t]; [congruence|]. inversion Hf as [|? ? Hc _]; subst. cbn.
  apply is_id_char_spec in Hc. split.
  - intros Hs. apply is_space_spec in Hs. unfold is_space in Hs.
    repeat (apply orb_true_iff in Hs as [Hs|Hs]); apply N.eqb_eq in Hs; subst c; discriminate.
  - intros ->. discriminate.
Qed.

Lemma atom_good s t r : print s = Ret t -> prefixed s = false -> ~ closed s -> word t r -> atom r (rep s) -> good s.
Proof.
  intros Ep Hp Hc Hw Ha. exists t, [r]. split; [assumption|]. split; [eapply word_first; exact Hw|].
  destruct Hw as (Hn & Hf & Hw). split.
  - intros rest [Hr|Hr]; [|contradiction]. apply lexed_one; [assumption|]. apply tt_word; assumption.
  - intros ts. assert (Ea : is_ambient r = false) by (inversion Ha; reflexivity).
    unfold sig; cbn [filter]. rewrite Ea. cbn [negb]. intros E. destruct ts as [|x [|]]; try discriminate.
    injection E as E. rewrite Hp. exists (Sexp (range [x]) (rep s)). split; [|constructor; rewrite E; assumption].
    destruct s as [l rr]. reflexivity.
Qed.

Lemma delim_good s t r : print s = Ret t -> prefixed s = false -> first_ok t ->
  (forall rest, token_text r t rest) -> atom r (rep s) -> good s.
Proof.
  intros Ep Hp Hf Ht Ha. exists t, [r]. split; [assumption|]. split; [assumption|]. split.
  - intros rest _. apply lexed_one; [apply first_ok_nonempty; assumption|apply Ht].
  - intros ts. assert (Ea : is_ambient r = false) by (inversion Ha; reflexivity).
    unfold sig; cbn [filter]. rewrite Ea. cbn [negb]. intros E. destruct ts as [|x [|]]; try discriminate.
    injection E as E. rewrite Hp. exists (Sexp (range [x]) (rep s)). split; [|constructor; rewrite E; assumption].
    destruct s as [l rr]. reflexivity.
Qed.

Ltac first_ok_tac := cbn; split; [intros Hs; apply is_space_spec in Hs; discriminate|discriminate].

Lemma paren_good l r body rs :
  print (Sexp l r) = Ret (t_ "(" ++ body ++ t_ ")") -> prefixed (Sexp l r) = false ->
  (forall rest, lexed (body ++ t_ ")") (rs ++ [TRParen]) rest) ->
  (forall next ts, map trep ts = sig rs -> exists b, strip (Sexp nowhere b) = strip (Sexp nowhere r) /\ g_body next ts b) ->
  good (Sexp l r).
Proof.
  intros Ep Hp Hl Hg. exists (t_ "(" ++ body ++ t_ ")"), (TLParen :: rs ++ [TRParen]).
  split; [assumption|]. split; [first_ok_tac|]. split.
  - intros rest _. constructor; [discriminate|apply tt_lparen|apply Hl].
  - intros ts. change (sig (TLParen :: rs ++ [TRParen])) with (TLParen :: sig (rs ++ [TRParen])).
    rewrite sig_app. change (sig [TRParen]) with [TRParen]. intros E.
    destruct ts as [|x ts]; [discriminate|]. injection E as Ex E.
    apply map_eq_app in E as (t1 & t2 & -> & E1 & E2). destruct t2 as [|y [|]]; try discriminate. injection E2 as Ey.
    destruct (Hg (tstart y) t1 E1) as (b & Eb & Hb). rewrite Hp.
    exists (Sexp (range (x :: t1 ++ [y])) b). split; [|constructor; [rewrite Ex, Ey; constructor|assumption]].
    cbn [strip] in *. exact Eb.
Qed.

Lemma strip_list l xs : strip (Sexp l (RList xs)) = Sexp nowhere (RList (map strip xs)).
Proof. reflexivity. Qed.

Lemma sugar_prefix xs t x : sugar_rep xs = Prefix t x ->
  exists l sym tok, xs = [Sexp l (RSymbol sym); x] /\ prefix_op tok sym /\ is_ambient tok = false /\
    (forall rest, next_char (fun c => c <> c_ "@") rest -> token_text tok t rest) /\ first_ok t.
Proof.
  unfold sugar_rep. destruct xs as [|[l r] xs]; [discriminate|]. destruct r as [| |sym| | | | | |]; try discriminate.
  unfold sugar_of. destruct xs as [|y [|z xs]]; try discriminate.
  - destruct (text_eqb sym QUOTE) eqn:K1; [apply text_eqb_eq in K1; subst sym|
    destruct (text_eqb sym QUASIQUOTE) eqn:K2; [apply text_eqb_eq in K2; subst sym|
    destruct (text_eqb sym UNQUOTE) eqn:K3; [apply text_eqb_eq in K3; subst sym|
    destruct (text_eqb sym UNQUOTE_SPLICING) eqn:K4; [apply text_eqb_eq in K4; subst sym|
    destruct (text_eqb sym LOAD) eqn:K5; [apply text_eqb_eq in K5; subst sym|
    destruct (text_eqb sym CAPTURE) eqn:K6; [apply text_eqb_eq in K6; subst sym|]]]]]];
    repeat match goal with |- context [if ?b then _ else _] => destruct b end;
    intros E; try discriminate; injection E as <- <-;
    [exists l, QUOTE, TQuote|exists l, QUASIQUOTE, TBackquote|exists l, UNQUOTE, TComma
    |exists l, UNQUOTE_SPLICING, TCommaAt|exists l, LOAD, TTilde|exists l, CAPTURE, TBackslash];
    (split; [reflexivity|]; split; [first [exact po_quote|exact po_quasiquote|exact po_unquote|exact po_splicing|exact po_load|exact po_capture]|]; split; [reflexivity|]; split;
     [intros rest Hr; first [apply tt_quote|apply tt_backquote|apply tt_comma; assumption|apply tt_comma_at
                            |apply tt_tilde|apply tt_backslash]|first_ok_tac]).
  - destruct (text_eqb sym ANNOTATE); discriminate.
Qed.

Lemma sugar_postfix xs t x : sugar_rep xs = Postfix x t ->
  exists l sym tok, xs = [Sexp l (RSymbol sym); x] /\ postfix_op tok sym /\ word t tok.
Proof.
  unfold sugar_rep. destruct xs as [|[l r] xs]; [discriminate|]. destruct r as [| |sym| | | | | |]; try discriminate.
  unfold sugar_of. destruct xs as [|y [|z xs]]; try discriminate.
  - do 6 (destruct (text_eqb sym _); [discriminate|]).
    destruct (text_eqb sym TRY_QUESTION) eqn:H1; [apply text_eqb_eq in H1; subst sym|];
    [destruct (is_list (rep y)) eqn:Hi; cbn [andb]|cbn [andb]].
    + intros E; injection E as <- <-. exists l, TRY_QUESTION, TQuestion. split; [reflexivity|]. split; [exact po_question|].
      split; [discriminate|]. split; [repeat constructor; apply is_id_char_spec; reflexivity|]. apply wt_question; reflexivity.
    + destruct (text_eqb TRY_QUESTION TRY_EXCLAMATION) eqn:H2; [discriminate|]. cbn [andb].
      destruct (text_eqb _ ANNOTATE); discriminate.
    + destruct (text_eqb sym TRY_EXCLAMATION) eqn:H2; [apply text_eqb_eq in H2; subst sym|];
      [destruct (is_list (rep y)) eqn:Hi; cbn [andb]|cbn [andb]].
      * intros E; injection E as <- <-. exists l, TRY_EXCLAMATION, TExclamation. split; [reflexivity|]. split; [exact po_exclamation|].
        split; [discriminate|]. split; [repeat constructor; apply is_id_char_spec; reflexivity|]. apply wt_exclamation; reflexivity.
      * destruct (text_eqb _ ANNOTATE); discriminate.
      * destruct (text_eqb _ ANNOTATE); discriminate.
  - destruct (text_eqb sym ANNOTATE); discriminate.
Qed.

Lemma sugar_annotated xs x ss : sugar_rep xs = Annotated x ss ->
  exists l, xs = Sexp l (RSymbol ANNOTATE) :: x :: ss.
Proof.
  unfold sugar_rep. destruct xs as [|[l r] xs]; [discriminate|]. destruct r as [| |sym| | | | | |]; try discriminate.
  unfold sugar_of. destruct xs as [|y [|z xs]]; try discriminate.
  - do 6 (destruct (text_eqb sym _); [discriminate|]).
    do 2 (destruct (text_eqb sym _ && _); [discriminate|]).
    destruct (text_eqb sym ANNOTATE) eqn:H; [|discriminate]. apply text_eqb_eq in H; subst sym.
    intros E; injection E as <- <-. eauto.
  - destruct (text_eqb sym ANNOTATE) eqn:H; [|discriminate]. apply text_eqb_eq in H; subst sym.
    intros E; injection E as <- <-. eauto.
Qed.

Lemma no_prefix_prefixed s : no_prefix s -> prefixed s = false.
Proof. unfold no_prefix, prefixed. destruct (rep s); auto. destruct (sugar_rep l); auto. contradiction. Qed.

Lemma next_at t rest : first_ok t -> next_char (fun c => c <> c_ "@") (t ++ rest).
Proof. destruct t; [contradiction|]. cbn. tauto. Qed.

Lemma printable_good s : printable s -> good s.
Proof.
  induction s as [l b v|l t|l t|l t|l c|l xs IH|l h xs z IHh IHxs IHz|l b|l t] using sexp_ind'; intros H.
  - destruct b; cbn in H.
    + destruct (negative_word v H) as [Hw Ev]. eapply atom_good; [reflexivity|reflexivity|intros []|exact Hw|].
      cbn [rep]. rewrite <- Ev at 2. constructor.
    + eapply atom_good; [reflexivity|reflexivity|intros []|apply unsigned_word; exact H|constructor].
  - destruct H as [E Hw]. eapply atom_good; [cbn; rewrite E; reflexivity|reflexivity|intros []|exact Hw|constructor].
  - eapply atom_good; [reflexivity|reflexivity|intros []|exact H|constructor].
  - eapply delim_good; [cbn; rewrite escape_esc; reflexivity|reflexivity|first_ok_tac| |constructor].
    intros rest. apply tt_string; [apply denotes_esc|apply esc_no_raw_quote].
  - eapply delim_good; [cbn; rewrite escape_esc; reflexivity|reflexivity|first_ok_tac| |constructor].
    intros rest. change ([35%N; c_backslash] ++ esc [c]) with (t_ "#\" ++ esc [c]).
    cbn [esc]. destruct (escape_char c) as [e|] eqn:E.
    + apply escape_char_cases in E as (k & -> & Hin). cbn [app]. apply (tt_char_escape k c rest). assumption.
    + apply escape_char_none in E as (Hb & _). apply (tt_char c rest). assumption.
  - rewrite printable_list in H. destruct H as [Hall Hsug]. apply all_printable_Forall in Hall.
    assert (Hgood : Forall good xs).
    { clear Hsug. induction IH as [|x xs Hx _ IH']; constructor; inversion Hall; auto. }
    clear IH Hall.
    destruct (sugar_rep xs) as [pt px|px pt|px pss|] eqn:Es.
    + (* prefix *)
      destruct (sugar_prefix _ _ _ Es) as (l0 & sym & tok & -> & Hop & Hamb & Ht & Hf).
      inversion Hgood as [|? ? (sa & _ & Esa & _) Hgood']; subst.
      inversion Hgood' as [|? ? (a & rs & Ep & Hfa & Hl & Hr) _]; subst. clear Hgood Hgood'.
      exists (pt ++ a), (tok :: rs). rewrite print_list. cbn [print_all]. rewrite Esa. cbn [bind].
      rewrite Ep. cbn [bind]. rewrite Es. split; [reflexivity|].
      split; [apply first_ok_app; assumption|]. split.
      * intros rest [Hrest|Hc]; [|unfold closed in Hc; cbn [rep] in Hc; rewrite Es in Hc; contradiction].
        constructor; [apply first_ok_nonempty; assumption|apply Ht, next_at; assumption|]. apply Hl; left; assumption.
      * intros ts. unfold sig; cbn [filter]. rewrite Hamb. cbn [negb]. fold (sig rs). intros E.
        destruct ts as [|q ts]; [discriminate|]. injection E as Eq E.
        destruct (Hr _ E) as (s' & Es' & Hg).
        assert (Hps : prefixed (Sexp l (RList [Sexp l0 (RSymbol sym); px])) = true)
          by (unfold prefixed; cbn [rep]; rewrite Es; reflexivity).
        rewrite Hps. eexists. split; [|apply (g_prefix q ts sym s'); [rewrite Eq; assumption|]].
        -- rewrite !strip_list. cbn [map]. rewrite Es'. reflexivity.
        -- destruct (prefixed px); [assumption|constructor; assumption].
    + (* postfix *)
      destruct (sugar_postfix _ _ _ Es) as (l0 & sym & tok & -> & Hop & Hw).
      inversion Hgood as [|? ? (sa & _ & Esa & _) Hgood']; subst.
      inversion Hgood' as [|? ? (a & rs & Ep & Hfa & Hl & Hr) _]; subst. clear Hgood Hgood'.
      exists (a ++ pt), (rs ++ [tok]). rewrite print_list. cbn [print_all]. rewrite Esa. cbn [bind].
      rewrite Ep. cbn [bind]. rewrite Es. split; [reflexivity|].
      split; [apply first_ok_app; assumption|]. split.
      * intros rest [Hrest|Hc]; [|unfold closed in Hc; cbn [rep] in Hc; rewrite Es in Hc; contradiction].
        apply lexed_app; [apply Hl; right; assumption|]. destruct Hw as (Hn & Hid & Hw).
        apply lexed_one; [assumption|]. apply tt_word; assumption.
      * intros ts. rewrite sig_app. intros E. apply map_eq_app in E as (t1 & t2 & -> & E1 & E2).
        assert (Hamb : sig [tok] = [tok]) by (inversion Hop; reflexivity). rewrite Hamb in E2.
        destruct t2 as [|y [|]]; try discriminate. injection E2 as Ey.
        destruct (Hr _ E1) as (s' & Es' & Hg).
        assert (Hps : prefixed (Sexp l (RList [Sexp l0 (RSymbol sym); px])) = false)
          by (unfold prefixed; cbn [rep]; rewrite Es; reflexivity).
        assert (Hpx : prefixed px = false).
        { revert Hsug. unfold closed, prefixed. destruct (rep px) as [| | | | |yl| | |]; auto.
          destruct (sugar_rep yl); auto; contradiction. }
        rewrite Hps. rewrite Hpx in Hg. eexists. split; [|apply (g_postfix t1 s' y sym); [assumption|rewrite Ey; assumption]].
        rewrite !strip_list. cbn [map]. rewrite Es'. reflexivity.
    + (* annotate *)
      destruct (sugar_annotated _ _ _ Es) as (l0 & ->).
      inversion Hgood as [|? ? (sa & _ & Esa & _) Hgood']; subst.
      inversion Hgood' as [|? ? (a & rs & Ep & Hfa & Hl & Hr) Hgoods]; subst. clear Hgood Hgood'.
      destruct (join_good _ Hgoods) as (ts & rss & Eps & Hls & Hrs).
      exists (a ++ t_ " {" ++ join ts ++ t_ "}"), (rs ++ [TWhitespaces; TLBrace] ++ rss ++ [TRBrace]).
      rewrite print_list. cbn [print_all]. rewrite Esa. cbn [bind]. rewrite Ep. cbn [bind]. rewrite Eps. cbn [bind].
      rewrite Es. split; [reflexivity|]. split; [apply first_ok_app; assumption|]. split.
      * intros rest _. apply lexed_app; [apply Hl; left; apply (not_id_space (t_ "{" ++ (join ts ++ t_ "}") ++ rest))|].
        apply lexed_app.
        -- change (t_ " {") with (t_ " " ++ t_ "{").
           constructor; [discriminate|apply (space_then (t_ "{")); first_ok_tac|].
           apply lexed_one; [discriminate|apply tt_lbrace].
        -- apply lexed_app; [apply Hls, not_id_rbrace|]. apply lexed_one; [discriminate|apply tt_rbrace].
      * intros tk. rewrite !sig_app. change (sig [TWhitespaces; TLBrace]) with [TLBrace].
        change (sig [TRBrace]) with [TRBrace]. intros E.
        apply map_eq_app in E as (t1 & t2 & -> & E1 & E2).
        destruct t2 as [|lb t2]; [discriminate|]. injection E2 as El E2.
        apply map_eq_app in E2 as (t3 & t4 & -> & E3 & E4).
        destruct t4 as [|rb [|]]; try discriminate. injection E4 as Erb.
        destruct (Hr _ E1) as (s' & Es' & Hg). destruct (Hrs _ E3) as (ss' & Ess' & Hgs).
        assert (Hps : prefixed (Sexp l (RList (Sexp l0 (RSymbol ANNOTATE) :: px :: pss))) = false)
          by (unfold prefixed; cbn [rep]; rewrite Es; reflexivity).
        rewrite Hps. rewrite (no_prefix_prefixed _ Hsug) in Hg.
        eexists. split; [|apply (g_annotate t1 s' lb t3 ss' rb); assumption].
        rewrite !strip_list. cbn [map app]. rewrite Es', Ess'. reflexivity.
    + (* plain list *)
      destruct (join_good _ Hgood) as (ts & rs & Eps & Hls & Hrs).
      apply (paren_good l (RList xs) (join ts) rs).
      * rewrite print_list, Eps. cbn [bind]. rewrite Es. reflexivity.
      * unfold prefixed; cbn [rep]. rewrite Es. reflexivity.
      * intros rest. apply lexed_app; [apply Hls, not_id_rparen|]. apply lexed_one; [discriminate|apply tt_rparen].
      * intros next tk E. destruct (Hrs _ E) as (ss' & Ess & Hg). exists (RList ss').
        split; [rewrite !strip_list, Ess; reflexivity|constructor; assumption].
  - rewrite printable_list_like in H. destruct H as (Hh & Hall & Hz & Hn1 & Hn2). apply all_printable_Forall in Hall.
    assert (Hgood : Forall good xs).
    { induction IHxs as [|x xs Hx _ IH']; constructor; inversion Hall; auto. }
    destruct (IHh Hh) as (a & rs & Ep & Hfa & Hl & Hr). destruct (IHz Hz) as (az & rz & Epz & Hfz & Hlz & Hrz).
    destruct (tail_good _ Hgood) as (ts & rss & Eps & Hls & Hrs).
    apply (paren_good l (RListLike h xs z) (a ++ flat_map (fun t => t_ " " ++ t) ts ++ t_ " . " ++ az)
             (rs ++ rss ++ [TWhitespaces; TDot; TWhitespaces] ++ rz)).
    + rewrite print_list_like, Ep. cbn [bind]. rewrite Eps. cbn [bind]. rewrite Epz. cbn [bind].
      rewrite <- !app_assoc. reflexivity.
    + reflexivity.
    + intros rest. rewrite <- !app_assoc.
      apply lexed_app.
      { apply Hl. left. destruct ts as [|t ts]; [apply not_id_space|].
        cbn [flat_map]. rewrite <- !app_assoc. apply not_id_space. }
      apply lexed_app; [apply Hls, not_id_space|].
      apply lexed_app.
      { change (t_ " . ") with (t_ " " ++ t_ "." ++ t_ " ").
        constructor; [discriminate|apply (space_then (t_ ".")); first_ok_tac|].
        constructor; [discriminate| |].
        - apply tt_word; [discriminate|repeat constructor; apply is_id_char_spec; reflexivity|apply not_id_space|apply wt_dot; reflexivity].
        - apply lexed_one; [discriminate|]. rewrite <- app_assoc. apply space_then; assumption. }
      apply lexed_app; [apply Hlz; left; apply not_id_rparen|]. apply lexed_one; [discriminate|apply tt_rparen].
    + intros next tk. rewrite !sig_app. change (sig [TWhitespaces; TDot; TWhitespaces]) with [TDot]. intros E.
      apply map_eq_app in E as (t1 & t2 & -> & E1 & E2). apply map_eq_app in E2 as (t3 & t4 & -> & E3 & E4).
      destruct t4 as [|d t4]; [discriminate|]. injection E4 as Ed E4.
      destruct (Hr _ E1) as (h' & Eh & Hg). destruct (Hrs _ E3) as (ss' & Ess & Hgs).
      destruct (Hrz _ E4) as (z' & Ez & Hgz).
      exists (RListLike h' ss' z'). split.
      { cbn [strip]. rewrite Eh, Ess, Ez. reflexivity. }
      rewrite app_assoc. apply (g_dotted next (t1 ++ t3) h' ss' d t4 z').
      * constructor; [|assumption]. destruct (prefixed h); [assumption|constructor; assumption].
      * assumption.
      * destruct (prefixed z); [assumption|constructor; assumption].
      * destruct z as [lz rz'], z' as [lz' rz'']. cbn [strip rep] in *. injection Ez as Ez. constructor.
        -- intros ys ->. destruct rz'; try discriminate. apply (Hn1 l0); reflexivity.
        -- intros h0 ys z0 ->. destruct rz'; try discriminate. apply (Hn2 h1 init last); reflexivity.
  - destruct b; (eapply delim_good; [reflexivity|reflexivity|first_ok_tac| |constructor]); intros rest;
      [apply tt_true|apply tt_false].
  - destruct H.
Qed.

Lemma lines_good ss : Forall good ss -> exists a rs, print_ss show_f64 ss = Ret a /\ lexed a rs [] /\
  reads_seq ss rs /\ match ss with [] => True | _ => first_ok a end.
Proof.
  induction 1 as [|s ss (a & rs & Ep & Hf & Hl & Hr) _ (b & rss & Eb & Hlb & Hrb & Hfb)].
  - exists [], []. split; [reflexivity|]. split; [constructor|]. split; [|exact I].
    intros [|]; [|discriminate]. intros _. exists []. split; [reflexivity|constructor].
  - destruct ss as [|s2 ss].
    + exists a, rs. split; [exact Ep|]. split; [apply Hl; left; exact I|]. split; [|assumption].
      intros tk E. destruct (Hr _ E) as (s' & Es & Hg). exists [s']. split; [cbn; congruence|].
      rewrite <- (app_nil_r tk). constructor; [|constructor]. destruct (prefixed s); [assumption|constructor; assumption].
    + exists (a ++ [c_lf] ++ b), (rs ++ [TWhitespaces] ++ rss).
      split; [cbn [print_ss]; cbn [print_ss] in Eb; rewrite Ep; cbn [bind]; rewrite Eb; reflexivity|].
      split; [|split; [|apply first_ok_app; assumption]].
      * apply lexed_app; [apply Hl; left|].
        { intros H; apply is_id_char_spec in H; discriminate. }
        apply lexed_app; [|assumption]. apply lexed_one; [discriminate|].
        apply tt_space; [discriminate|constructor; [cbn; tauto|constructor]|].
        rewrite app_nil_r. destruct b; [contradiction|]. apply Hfb.
      * intros tk. rewrite !sig_app. change (sig [TWhitespaces]) with (@nil tokenrep). cbn [app]. intros E.
        apply map_eq_app in E as (t1 & t2 & -> & E1 & E2).
        destruct (Hr _ E1) as (s' & Es & Hg). destruct (Hrb _ E2) as (ss' & Ess & Hgs).
        exists (s' :: ss'). split; [cbn [map]; cbn [map] in Ess; congruence|]. constructor; [|assumption].
        destruct (prefixed s); [assumption|constructor; assumption].
Qed.

Lemma print_parse ss : Forall printable ss ->
  exists t toks loc ss', print_ss show_f64 ss = Ret t /\ lex t = Ret toks /\
    parse toks = Ret (POk (loc, ss'), []) /\ map strip ss' = map strip ss.
Proof.
  intros H. assert (Hg : Forall good ss) by (eapply Forall_impl; [exact printable_good|exact H]).
  destruct (lines_good _ Hg) as (t & rs & Ep & Hl & Hr & _).
  destruct (lexed_tokenised _ _ [] Hl) as (toks & Ht & Em).
  destruct (Hr (significant toks)) as (ss' & Es & Hgr).
  { rewrite sig_significant, Em. reflexivity. }
  exists t, toks, (range (significant toks)), ss'. split; [assumption|]. split; [apply lex_iff; assumption|].
  split; [|assumption]. apply parse_complete. split; [assumption|reflexivity].
Qed.
End Print.
