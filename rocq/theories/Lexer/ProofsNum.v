(** Number syntax: the parsing functions agree with the literal grammars. *)
From Verif.Base Require Import BaseFacts.
From Verif.Lexer Require Import Model Spec.

Lemma is_digit_spec c : is_digit c = true <-> digit c.
Proof. unfold is_digit, digit; lia. Qed.

Lemma digits_value_app acc a b :
  digits_value acc (a ++ b) =
  match digits_value acc a with Some n => digits_value n b | None => None end.
Proof.
  revert acc; induction a as [|c a IH]; intros acc; cbn [digits_value app]; [reflexivity|].
  destruct (is_digit c); [apply IH|reflexivity].
Qed.

Lemma decimal_nonempty t n : decimal t n -> t <> [].
Proof. destruct 1; [discriminate|]. destruct t; discriminate. Qed.

Lemma decimal_digits t n : decimal t n -> Forall digit t.
Proof.
  induction 1; [constructor; auto|]. apply Forall_app; split; auto.
Qed.

Lemma parse_digits_spec t n : parse_digits t = Some n <-> decimal t n.
Proof.
  split.
  - revert n. induction t as [|c t IH] using rev_ind; intros n; [discriminate|].
    destruct t as [|d t].
    + cbn. destruct (is_digit c) eqn:E; [|discriminate]. intros H; injection H as <-.
      replace (10 * 0 + (c - 48))%N with (c - 48)%N by lia.
      apply (dec_one c). apply is_digit_spec; assumption.
    + intros H. change (digits_value 0 ((d :: t) ++ [c]) = Some n) in H.
      rewrite digits_value_app in H.
      destruct (digits_value 0 (d :: t)) as [m|] eqn:E; [|discriminate].
      cbn [digits_value] in H. destruct (is_digit c) eqn:Ed; [|discriminate].
      injection H as <-. apply dec_snoc; [apply IH; exact E|apply is_digit_spec; assumption].
  - induction 1 as [c Hc|t n c Ht IH Hc].
    + cbn. apply is_digit_spec in Hc; rewrite Hc. f_equal; lia.
    + pose proof (decimal_nonempty _ _ Ht) as Hne.
      assert (E : parse_digits (t ++ [c]) = digits_value 0 (t ++ [c])) by (destruct t; reflexivity).
      rewrite E, digits_value_app.
      assert (E' : digits_value 0 t = Some n) by (destruct t; [congruence|exact IH]).
      rewrite E'. cbn [digits_value]. apply is_digit_spec in Hc; rewrite Hc. reflexivity.
Qed.

Lemma decimal_fun t n m : decimal t n -> decimal t m -> n = m.
Proof. rewrite <- !parse_digits_spec; congruence. Qed.

Lemma decimal_hd c t n : decimal (c :: t) n -> digit c.
Proof. intros H; apply decimal_digits in H; inversion H; assumption. Qed.

Lemma parse_u64_spec t n : parse_u64 t = Some n <-> unsigned_literal t n.
Proof.
  unfold parse_u64. split.
  - destruct t as [|c t]; [discriminate|].
    destruct (N.eqb_spec c (c_ "+")) as [->|Hc].
    + destruct (parse_digits t) as [m|] eqn:E; [|discriminate].
      destruct (N.ltb_spec m (2 ^ 64)); [|discriminate]. intros H'; injection H' as <-.
      apply parse_digits_spec in E. change (c_ "+") with plus. constructor; assumption.
    + destruct (parse_digits (c :: t)) as [m|] eqn:E; [|discriminate].
      destruct (N.ltb_spec m (2 ^ 64)); [|discriminate]. intros H'; injection H' as <-.
      apply parse_digits_spec in E. constructor; assumption.
  - intros H; inversion H as [t' m Hd Hlt|t' m Hd Hlt]; subst.
    + pose proof Hd as Hd'. destruct t as [|c t]; [apply decimal_nonempty in Hd; congruence|].
      apply decimal_hd in Hd'. destruct (N.eqb_spec c (c_ "+")) as [->|_].
      { unfold digit, c_ in Hd'; cbn in Hd'; lia. }
      apply parse_digits_spec in Hd; rewrite Hd. apply N.ltb_lt in Hlt; rewrite Hlt; reflexivity.
    + cbn [N.eqb]. change (plus =? c_ "+")%N with true. cbn iota.
      apply parse_digits_spec in Hd; rewrite Hd. apply N.ltb_lt in Hlt; rewrite Hlt; reflexivity.
Qed.

Lemma parse_i64_neg t z :
  (forall n, ~ unsigned_literal t n) -> parse_i64 t = Some z <-> negative_literal t z.
Proof.
  intros Hu. unfold parse_i64. split.
  - destruct t as [|c t]; [discriminate|].
    destruct (N.eqb_spec c (c_ "+")) as [->|Hc].
    + destruct (parse_digits t) as [m|] eqn:E; [|discriminate].
      match goal with |- context [if ?b then _ else _] => destruct b eqn:Hb end; [|discriminate].
      intros _. exfalso. apply parse_digits_spec in E.
      apply (Hu m). change (c_ "+") with plus. constructor; [assumption|lia].
    + destruct (N.eqb_spec c (c_ "-")) as [->|Hc'].
      * destruct (parse_digits t) as [m|] eqn:E; [|discriminate].
        match goal with |- context [if ?b then _ else _] => destruct b eqn:Hb end; [|discriminate].
        intros H; injection H as <-. apply parse_digits_spec in E.
        change (c_ "-") with minus. constructor; [assumption|lia].
      * destruct (parse_digits (c :: t)) as [m|] eqn:E; [|discriminate].
        match goal with |- context [if ?b then _ else _] => destruct b eqn:Hb end; [|discriminate].
        intros _. exfalso. apply parse_digits_spec in E. apply (Hu m). constructor; [assumption|lia].
  - intros H; inversion H as [t' m Hd Hlt]; subst.
    change (minus =? c_ "+")%N with false. change (minus =? c_ "-")%N with true. cbn iota.
    apply parse_digits_spec in Hd; rewrite Hd.
    match goal with |- context [if ?b then _ else _] => destruct b eqn:Hb end; [reflexivity|lia].
Qed.

Lemma digits0_forallb t : forallb is_digit t = true <-> digits0 t.
Proof.
  split.
  - induction t as [|c t IH]; cbn [forallb]; [constructor|].
    rewrite andb_true_iff, is_digit_spec. intros [Hc Ht]; constructor; auto.
  - induction 1 as [|c t Hc _ IH]; cbn [forallb]; [reflexivity|].
    apply is_digit_spec in Hc; rewrite Hc, IH; reflexivity.
Qed.

Lemma digit_not_sign c : digit c -> c <> plus /\ c <> minus.
Proof. unfold digit, plus, minus; lia. Qed.

Lemma is_exponent_spec t : is_exponent t = true <-> exponent t.
Proof.
  split.
  - destruct t as [|c t]; cbn [is_exponent]; [constructor|].
    destruct ((c =? c_ "e") || (c =? c_ "E"))%N eqn:Ec; [|discriminate].
    assert (He : c = c_ "e" \/ c = c_ "E").
    { rewrite orb_true_iff, !N.eqb_eq in Ec; exact Ec. }
    destruct t as [|s r]; [discriminate|].
    destruct ((s =? c_ "+") || (s =? c_ "-"))%N eqn:Es.
    + assert (Hs : [s] = [plus] \/ [s] = [minus]).
      { rewrite orb_true_iff, !N.eqb_eq in Es; destruct Es as [->| ->]; auto. }
      destruct r as [|d r]; [discriminate|]. rewrite digits0_forallb. intros Hd.
      change (c :: s :: d :: r) with (c :: [s] ++ (d :: r)).
      apply ex_some; [exact He|right; exact Hs|discriminate|exact Hd].
    + rewrite digits0_forallb. intros Hd.
      change (c :: s :: r) with (c :: [] ++ (s :: r)).
      apply ex_some; [exact He|left; reflexivity|discriminate|exact Hd].
  - intros H; inversion H as [|e sign r He Hs Hne Hd]; subst; [reflexivity|].
    cbn [is_exponent].
    assert (Ee : ((e =? c_ "e") || (e =? c_ "E"))%N = true) by (destruct He as [->| ->]; reflexivity).
    rewrite Ee. pose proof Hd as Hd'. apply digits0_forallb in Hd'.
    destruct Hs as [->|[->| ->]]; cbn [app].
    + destruct r as [|d r]; [congruence|]. inversion Hd as [|? ? Hdig _]; subst.
      destruct (digit_not_sign _ Hdig) as [Hp Hm].
      assert (Es : ((d =? c_ "+") || (d =? c_ "-"))%N = false).
      { apply orb_false_iff; split; apply N.eqb_neq; assumption. }
      rewrite Es. exact Hd'.
    + change ((plus =? c_ "+") || (plus =? c_ "-"))%N with true. cbn iota.
      destruct r; [congruence|exact Hd'].
    + change ((minus =? c_ "+") || (minus =? c_ "-"))%N with true. cbn iota.
      destruct r; [congruence|exact Hd'].
Qed.

Lemma span_spec f t a b :
  span f t = (a, b) <-> t = a ++ b /\ Forall (fun c => f c = true) a /\
                        (match b with [] => True | c :: _ => f c = false end).
Proof.
  split.
  - revert a b; induction t as [|c t IH]; intros a b; cbn [span].
    + intros H; injection H as <- <-; auto.
    + destruct (f c) eqn:E.
      * destruct (span f t) as [a' b'] eqn:S. intros H; injection H as <- <-.
        destruct (IH _ _ eq_refl) as (-> & Ha & Hb). cbn; auto.
      * intros H; injection H as <- <-; auto.
  - intros (-> & Ha & Hb). induction Ha as [|c a Hc _ IH]; cbn [app span].
    + destruct b as [|c b]; [reflexivity|]. cbn [span]. rewrite Hb; reflexivity.
    + rewrite Hc, IH; reflexivity.
Qed.

Lemma lower_same c d : ((97 <= d <= 122) -> lower c = d <-> same_letter c d)%N.
Proof. unfold lower, same_letter. intros Hd. destruct ((65 <=? c) && (c <=? 90))%N eqn:E; lia. Qed.

Lemma map_lower_spec w : Forall (fun d => (97 <= d <= 122)%N) w -> forall t,
  map lower t = w <-> Forall2 same_letter t w.
Proof.
  induction 1 as [|d w Hd _ IH]; intros t.
  - destruct t; cbn; split; intros H; try reflexivity; try constructor; try discriminate; inversion H.
  - destruct t as [|c t]; cbn [map]; [split; intros H; inversion H|]. split.
    + intros H; injection H as Hc Ht. constructor; [apply lower_same; assumption|apply IH; exact Ht].
    + intros H; inversion H; subst. f_equal; [apply lower_same; assumption|apply IH; assumption].
Qed.

Definition words := [t_ "inf"; t_ "infinity"; t_ "nan"].

Lemma words_lower w : In w words -> Forall (fun d => (97 <= d <= 122)%N) w.
Proof.
  cbn. intros [<-|[<-|[<-|[]]]]; repeat constructor; lia.
Qed.

Definition unsign (t : text) : text :=
  match t with
  | c :: t' => if ((c =? c_ "+") || (c =? c_ "-"))%N then t' else t
  | [] => t
  end.

Definition is_sign (sign : text) := sign = [] \/ sign = [plus] \/ sign = [minus].

Lemma unsign_split t : exists sign, is_sign sign /\ t = sign ++ unsign t.
Proof.
  destruct t as [|c t]; cbn [unsign]; [exists []; split; [left|]; reflexivity|].
  destruct ((c =? c_ "+") || (c =? c_ "-"))%N eqn:E; [|exists []; split; [left|]; reflexivity].
  rewrite orb_true_iff, !N.eqb_eq in E. exists [c]. split; [|reflexivity].
  right; destruct E as [->| ->]; auto.
Qed.

Lemma unsign_app sign b : is_sign sign ->
  (match b with [] => True | c :: _ => c <> plus /\ c <> minus end) -> unsign (sign ++ b) = b.
Proof.
  intros [->|[->| ->]] Hb; cbn [app unsign]; try reflexivity.
  destruct b as [|c b]; [reflexivity|]. cbn [unsign]. destruct Hb as [Hp Hm].
  apply N.eqb_neq in Hp, Hm. unfold plus, minus in *.
  change (c_ "+") with 43%N; change (c_ "-") with 45%N. rewrite Hp, Hm; reflexivity.
Qed.

(** The part of [accepts_f64] after the sign. *)
Definition unsigned_float (body : text) : bool :=
  let l := map lower body in
  if text_eqb l (t_ "inf") || text_eqb l (t_ "infinity") || text_eqb l (t_ "nan") then true
  else
    let '(ds, r) := span is_digit body in
    match r with
    | c :: r' =>
      if (c =? c_ ".")%N then
        let '(fs, r'') := span is_digit r' in
        negb (match ds, fs with [], [] => true | _, _ => false end) && is_exponent r''
      else negb (match ds with [] => true | _ => false end) && is_exponent r
    | [] => negb (match ds with [] => true | _ => false end)
    end.

Lemma accepts_f64_unsign t : accepts_f64 t = unsigned_float (unsign t).
Proof. reflexivity. Qed.

Lemma is_word_spec t :
  text_eqb (map lower t) (t_ "inf") || text_eqb (map lower t) (t_ "infinity")
    || text_eqb (map lower t) (t_ "nan") = true
  <-> exists w, In w words /\ Forall2 same_letter t w.
Proof.
  rewrite !orb_true_iff, !text_eqb_eq. split.
  - intros [[H|H]|H]; eexists; (split; [|apply map_lower_spec; [|exact H]]); cbn; auto;
      apply words_lower; cbn; auto.
  - intros (w & Hin & HF). pose proof (words_lower _ Hin) as Hl.
    apply map_lower_spec in HF; [|assumption]. rewrite HF.
    cbn in Hin. destruct Hin as [<-|[<-|[<-|[]]]]; auto.
Qed.

Lemma digits0_Forall t : digits0 t <-> Forall (fun c => is_digit c = true) t.
Proof.
  split; induction 1 as [|c t Hc _ IH]; constructor; auto; apply is_digit_spec; assumption.
Qed.

Lemma exponent_hd_not_digit ex : exponent ex ->
  match ex with [] => True | c :: _ => is_digit c = false end.
Proof. intros H; inversion H as [|e sign t [->| ->]]; subst; reflexivity. Qed.

Lemma exponent_hd_not_dot c ex : exponent (c :: ex) -> (c =? c_ ".")%N = false.
Proof. intros H; inversion H as [|e sign t [->| ->]]; subst; reflexivity. Qed.

Lemma accepts_f64_spec t : accepts_f64 t = true <-> float_literal t.
Proof.
  rewrite accepts_f64_unsign. split.
  - destruct (unsign_split t) as (sign & Hs & Et). intros H. rewrite Et. clear Et.
    set (b := unsign t) in *; clearbody b. unfold unsigned_float in H.
    match type of H with (if ?c then _ else _) = _ => destruct c eqn:Ew end.
    + apply is_word_spec in Ew as (w & Hin & HF). eapply fl_word; eassumption.
    + destruct (span is_digit b) as [ds r] eqn:Sp. apply span_spec in Sp as (-> & Hds & Hr).
      apply digits0_Forall in Hds.
      destruct r as [|c r].
      * apply negb_true_iff in H. apply fl_int; try assumption; [|constructor].
        destruct ds; [discriminate|discriminate].
      * destruct (N.eqb_spec c (c_ ".")) as [->|Hc].
        -- destruct (span is_digit r) as [fs r'] eqn:Sp'.
           apply span_spec in Sp' as (-> & Hfs & Hr'). apply digits0_Forall in Hfs.
           apply andb_true_iff in H as [Hne Hex]. apply is_exponent_spec in Hex.
           apply fl_frac; try assumption.
           destruct ds; [right|left; discriminate]. destruct fs; [discriminate|discriminate].
        -- apply andb_true_iff in H as [Hne Hex]. apply is_exponent_spec in Hex.
           apply fl_int; try assumption. destruct ds; discriminate.
  - intros H; inversion H as [sign w b Hs Hin HF|sign ds ex Hs Hds Hne Hex|sign ds fs ex Hs Hds Hfs Hne Hex]; subst.
    + assert (Hw : match b with [] => True | c :: _ => c <> plus /\ c <> minus end).
      { cbn in Hin. destruct HF as [|c d b w Hcd _]; [exact I|].
        unfold same_letter, plus, minus in *.
        destruct Hin as [E|[E|[E|[]]]]; vm_compute in E; injection E as <- _; lia. }
      rewrite unsign_app by assumption. unfold unsigned_float.
      match goal with |- (if ?c then _ else _) = _ => replace c with true end; [reflexivity|].
      symmetry; apply is_word_spec. exists w; auto.
    + assert (Hb : match ds ++ ex with [] => True | c :: _ => c <> plus /\ c <> minus end).
      { destruct ds as [|c ds]; [congruence|]. cbn. inversion Hds; subst. apply digit_not_sign; assumption. }
      rewrite unsign_app by assumption. unfold unsigned_float.
      match goal with |- (if ?c then _ else _) = _ => destruct c end; [reflexivity|].
      assert (Sp : span is_digit (ds ++ ex) = (ds, ex)).
      { apply span_spec. split; [reflexivity|]. split; [apply digits0_Forall; assumption|].
        apply exponent_hd_not_digit; assumption. }
      rewrite Sp. destruct ex as [|c ex].
      * destruct ds; [congruence|reflexivity].
      * rewrite (exponent_hd_not_dot _ _ Hex). apply is_exponent_spec in Hex; rewrite Hex.
        destruct ds; [congruence|reflexivity].
    + assert (Hb : match ds ++ c_ "." :: fs ++ ex with [] => True | c :: _ => c <> plus /\ c <> minus end).
      { destruct ds as [|c ds]; cbn.
        - split; discriminate.
        - inversion Hds; subst. apply digit_not_sign; assumption. }
      rewrite unsign_app by assumption. unfold unsigned_float.
      match goal with |- (if ?c then _ else _) = _ => destruct c end; [reflexivity|].
      assert (Sp : span is_digit (ds ++ c_ "." :: fs ++ ex) = (ds, c_ "." :: fs ++ ex)).
      { apply span_spec. split; [reflexivity|]. split; [apply digits0_Forall; assumption|]. reflexivity. }
      rewrite Sp. rewrite N.eqb_refl.
      assert (Sp' : span is_digit (fs ++ ex) = (fs, ex)).
      { apply span_spec. split; [reflexivity|]. split; [apply digits0_Forall; assumption|].
        apply exponent_hd_not_digit; assumption. }
      rewrite Sp'. apply is_exponent_spec in Hex; rewrite Hex.
      destruct ds; [|reflexivity]. destruct fs; [|reflexivity]. destruct Hne; congruence.
Qed.

Lemma classify_spec s r : word_token s r <-> classify_id s = r.
Proof.
  unfold classify_id. split.
  - intros H; inversion H as [n Hn|z Hu Hz|Hu Hz Hf|E|E|E|Hu Hz Hf Ed Eq Ee]; subst.
    + apply parse_u64_spec in Hn; rewrite Hn; reflexivity.
    + assert (E : parse_u64 s = None).
      { destruct (parse_u64 s) as [n|] eqn:E; [|reflexivity]. apply parse_u64_spec in E. elim (Hu _ E). }
      rewrite E. apply parse_i64_neg in Hz; [|assumption]. rewrite Hz; reflexivity.
    + assert (E : parse_u64 s = None).
      { destruct (parse_u64 s) as [n|] eqn:E; [|reflexivity]. apply parse_u64_spec in E. elim (Hu _ E). }
      assert (E' : parse_i64 s = None).
      { destruct (parse_i64 s) as [z|] eqn:E'; [|reflexivity].
        apply parse_i64_neg in E'; [|assumption]. elim (Hz _ E'). }
      rewrite E, E'. apply accepts_f64_spec in Hf; rewrite Hf; reflexivity.
    + reflexivity.
    + reflexivity.
    + reflexivity.
    + assert (E : parse_u64 s = None).
      { destruct (parse_u64 s) as [n|] eqn:E; [|reflexivity]. apply parse_u64_spec in E. elim (Hu _ E). }
      assert (E' : parse_i64 s = None).
      { destruct (parse_i64 s) as [z|] eqn:E'; [|reflexivity].
        apply parse_i64_neg in E'; [|assumption]. elim (Hz _ E'). }
      rewrite E, E'. destruct (accepts_f64 s) eqn:F; [apply accepts_f64_spec in F; contradiction|].
      destruct (text_eqb s (t_ ".")) eqn:E1; [apply text_eqb_eq in E1; contradiction|].
      destruct (text_eqb s (t_ "?")) eqn:E2; [apply text_eqb_eq in E2; contradiction|].
      destruct (text_eqb s (t_ "!")) eqn:E3; [apply text_eqb_eq in E3; contradiction|]. reflexivity.
  - intros <-. destruct (parse_u64 s) as [n|] eqn:E.
    { constructor. apply parse_u64_spec; assumption. }
    assert (Hu : forall n, ~ unsigned_literal s n).
    { intros n Hn; apply parse_u64_spec in Hn; congruence. }
    destruct (parse_i64 s) as [z|] eqn:E'.
    { constructor; [assumption|]. apply parse_i64_neg; assumption. }
    assert (Hz : forall z, ~ negative_literal s z).
    { intros z Hz; apply parse_i64_neg in Hz; [congruence|assumption]. }
    destruct (accepts_f64 s) eqn:F.
    { constructor; try assumption. apply accepts_f64_spec; assumption. }
    assert (Hf : ~ float_literal s). { intros Hf; apply accepts_f64_spec in Hf; congruence. }
    destruct (text_eqb s (t_ ".")) eqn:E1; [apply text_eqb_eq in E1; constructor; assumption|].
    destruct (text_eqb s (t_ "?")) eqn:E2; [apply text_eqb_eq in E2; constructor; assumption|].
    destruct (text_eqb s (t_ "!")) eqn:E3; [apply text_eqb_eq in E3; constructor; assumption|].
    constructor; try assumption; intros ->; discriminate.
Qed.
