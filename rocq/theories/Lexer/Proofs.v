From Verif.Base Require Import BaseFacts.
From Verif.Str Require Import Model Spec Proofs.
From Verif.Lexer Require Import Model Spec ProofsNum.

Local Open Scope N_scope.

(** ** Locations *)

Lemma split_newline_spec t p ps :
  split_newline t = (p, ps) ->
  N.of_nat (List.length ps) = count_newlines t /\
  forall acc, after_last_newline acc t = match rev ps with [] => acc ++ p | q :: _ => q end.
Proof.
  revert p ps; induction t as [|c t IH]; intros p ps; cbn [split_newline].
  - intros H; injection H as <- <-. split; [reflexivity|]. intros acc; cbn; rewrite app_nil_r; reflexivity.
  - destruct (split_newline t) as [p' ps'] eqn:E. destruct (IH _ _ eq_refl) as [Hn Ha].
    cbn [count_newlines after_last_newline]. destruct (c =? c_lf) eqn:Ec; intros H; injection H as <- <-.
    + split; [cbn [List.length]; lia|]. intros acc. rewrite Ha. cbn [rev app].
      destruct (rev ps') as [|q qs]; reflexivity.
    + split; [lia|]. intros acc. rewrite Ha.
      destruct (rev ps') as [|q qs]; [rewrite <- app_assoc; reflexivity|reflexivity].
Qed.

Lemma count_newlines_app a b : count_newlines (a ++ b) = count_newlines a + count_newlines b.
Proof. induction a as [|c a IH]; cbn [count_newlines app]; [reflexivity|]. lia. Qed.

Lemma after_last_newline_app acc a b :
  after_last_newline acc (a ++ b) = after_last_newline (after_last_newline acc a) b.
Proof.
  revert acc; induction a as [|c a IH]; intros acc; cbn [after_last_newline app]; [reflexivity|].
  destruct (c =? c_lf); apply IH.
Qed.

Lemma rsplit_newline_spec t :
  exists q qs, rsplit_newline t = q :: qs /\ N.of_nat (List.length qs) = count_newlines t /\
  forall acc, after_last_newline acc t = if count_newlines t =? 0 then acc ++ q else q.
Proof.
  unfold rsplit_newline. destruct (split_newline t) as [p ps] eqn:E.
  apply split_newline_spec in E as [Hn Ha].
  destruct ps as [|x ps] using rev_ind.
  - exists p, []. cbn in *. rewrite <- Hn. repeat split. intros acc; apply Ha.
  - clear IHps. exists x, (rev ps ++ [p]). cbn [rev]. rewrite rev_app_distr. cbn [rev app].
    split; [reflexivity|]. rewrite app_length in *; cbn in *. rewrite rev_length. split; [lia|].
    intros acc. rewrite Ha, rev_app_distr. cbn.
    destruct (N.eqb_spec (count_newlines t) 0); [lia|reflexivity].
Qed.

Lemma location_eat_position before s :
  location_eat (position before) s = Ret (position (before ++ s)).
Proof.
  unfold location_eat. destruct (rsplit_newline_spec s) as (q & qs & -> & Hn & Ha).
  unfold position; cbn [offset line character].
  rewrite blen_app, count_newlines_app, after_last_newline_app, Ha, <- Hn.
  destruct qs as [|x qs]; cbn [List.length].
  - cbn. rewrite blen_app. f_equal. f_equal; lia.
  - destruct (N.eqb_spec (N.of_nat (S (List.length qs))) 0); [lia|]. reflexivity.
Qed.

(** ** Eating *)

Lemma blen_pos a : a <> [] -> 0 < blen a.
Proof. destruct a as [|c a]; [congruence|]. cbn. pose proof (len_utf8_pos c); lia. Qed.

Lemma eat_len_ok a b n : a <> [] ->
  eat_len (blen a) {| current := a ++ b; consumed_len := n |} =
  Ret (true, {| current := b; consumed_len := n + blen a |}).
Proof.
  intros Ha. unfold eat_len; cbn [current consumed_len].
  pose proof (blen_pos _ Ha). rewrite blen_app.
  replace (negb (blen a =? 0) && (blen a <=? blen a + blen b)) with true by lia.
  rewrite split_at_byte_app. reflexivity.
Qed.

Lemma eat_len_one c b n :
  eat_len (len_utf8 c) {| current := c :: b; consumed_len := n |} =
  Ret (true, {| current := b; consumed_len := n + len_utf8 c |}).
Proof.
  pose proof (eat_len_ok [c] b n ltac:(discriminate)) as E. cbn [blen app] in E.
  rewrite N.add_0_r in E. exact E.
Qed.

Lemma eat_len_eof k n : 0 < k ->
  eat_len k {| current := []; consumed_len := n |} = Ret (false, {| current := []; consumed_len := n |}).
Proof.
  intros Hk. unfold eat_len; cbn [current blen].
  replace (negb (k =? 0) && (k <=? 0)) with false by lia. reflexivity.
Qed.

Lemma eat_exact_ok s b n : s <> [] ->
  eat_exact s {| current := s ++ b; consumed_len := n |} =
  Ret (true, {| current := b; consumed_len := n + blen s |}).
Proof.
  intros Hs. unfold eat_exact; cbn [current]. rewrite starts_with_app. apply eat_len_ok; assumption.
Qed.

Lemma eat_exact_no s t n : starts_with s t = false ->
  eat_exact s {| current := t; consumed_len := n |} = Ret (false, {| current := t; consumed_len := n |}).
Proof. intros H. unfold eat_exact; cbn [current]. rewrite H; reflexivity. Qed.

Lemma eat_if_ok f c b n : f c = true ->
  eat_if f {| current := c :: b; consumed_len := n |} =
  Ret (true, {| current := b; consumed_len := n + len_utf8 c |}).
Proof.
  intros H. unfold eat_if; cbn [current]. rewrite H.
  pose proof (eat_len_ok [c] b n ltac:(discriminate)) as E. cbn [blen app] in E.
  rewrite N.add_0_r in E. exact E.
Qed.

Lemma eat_if_no f t n : next_char (fun c => f c = false) t ->
  eat_if f {| current := t; consumed_len := n |} = Ret (false, {| current := t; consumed_len := n |}).
Proof. intros H. unfold eat_if; cbn [current]. destruct t as [|c t]; [reflexivity|]. cbn in H; rewrite H; reflexivity. Qed.

Lemma while_len_app f a b :
  Forall (fun c => f c = true) a -> next_char (fun c => f c = false) b ->
  while_len f (a ++ b) = blen a.
Proof.
  induction 1 as [|c a Hc _ IH]; intros Hb; cbn [app while_len blen].
  - destruct b as [|c b]; [reflexivity|]. cbn in Hb |- *. rewrite Hb; reflexivity.
  - rewrite Hc, IH by assumption. reflexivity.
Qed.

Lemma eat_while_app f a b n :
  Forall (fun c => f c = true) a -> next_char (fun c => f c = false) b ->
  eat_while f {| current := a ++ b; consumed_len := n |} =
  Ret (match a with [] => false | _ => true end, {| current := b; consumed_len := n + blen a |}).
Proof.
  intros Ha Hb. unfold eat_while; cbn [current]. rewrite while_len_app by assumption.
  destruct a as [|c a].
  - unfold eat_len; cbn. rewrite N.add_0_r; reflexivity.
  - rewrite eat_len_ok by discriminate. reflexivity.
Qed.

Lemma span_exists (f : char -> bool) t :
  exists a b, t = a ++ b /\ Forall (fun c => f c = true) a /\ next_char (fun c => f c = false) b.
Proof.
  destruct (span f t) as [a b] eqn:E. apply span_spec in E as (-> & Ha & Hb).
  exists a, b. split; [reflexivity|]. split; [assumption|]. destruct b; assumption.
Qed.

(** ** Character classes *)

Lemma is_space_spec c : is_space c = true <-> space_char c.
Proof. unfold is_space, space_char, c_space, c_tab, c_cr, c_lf; cbn [In]. lia. Qed.

Lemma existsb_in c l : existsb (fun d => c =? d) l = true <-> In c l.
Proof.
  rewrite existsb_exists. split.
  - intros (x & Hx & E). apply N.eqb_eq in E; subst; assumption.
  - intros H; exists c; split; [assumption|apply N.eqb_refl].
Qed.

Lemma range_in (P : char -> Prop) (lo : N) (n : nat) c :
  lo <= c < lo + N.of_nat n -> (forall k, (k < n)%nat -> P (lo + N.of_nat k)) -> P c.
Proof.
  intros H HP. replace c with (lo + N.of_nat (N.to_nat (c - lo))) by lia. apply HP. lia.
Qed.

Lemma is_id_char_spec c : is_id_char c = true <-> id_char c.
Proof.
  unfold id_char. split.
  - intros H. unfold is_id_char in H. rewrite !orb_true_iff, existsb_in in H.
    apply existsb_in.
    destruct H as [[[H|H]|H]|H].
    + apply existsb_in in H. apply existsb_exists in H as (d & Hd & E). apply N.eqb_eq in E; subst d.
      cbn in Hd. repeat (destruct Hd as [<-|Hd]; [reflexivity|]). destruct Hd.
    + unfold is_digit in H. pattern c. apply (range_in _ 48 10); [lia|]. intros k Hk.
      do 10 (destruct k as [|k]; [reflexivity|]); lia.
    + pattern c. apply (range_in _ 65 26); [lia|]. intros k Hk.
      do 26 (destruct k as [|k]; [reflexivity|]); lia.
    + pattern c. apply (range_in _ 97 26); [lia|]. intros k Hk.
      do 26 (destruct k as [|k]; [reflexivity|]); lia.
  - intros H. cbn in H. repeat (destruct H as [<-|H]; [reflexivity|]). destruct H.
Qed.

Lemma not_true_false (b : bool) : b <> true -> b = false.
Proof. destruct b; congruence. Qed.

Lemma not_space c : ~ space_char c -> is_space c = false.
Proof. intros H; apply not_true_false; rewrite is_space_spec; assumption. Qed.
Lemma not_id c : ~ id_char c -> is_id_char c = false.
Proof. intros H; apply not_true_false; rewrite is_id_char_spec; assumption. Qed.

Lemma next_char_impl (P Q : char -> Prop) t : (forall c, P c -> Q c) -> next_char P t -> next_char Q t.
Proof. destruct t; cbn; auto. Qed.

Lemma can_unescape_in l x : In (l, x) escape_table -> can_unescape l = true.
Proof. intros H; apply unescape_char_spec in H. unfold can_unescape; rewrite H; reflexivity. Qed.

Lemma can_unescape_no l : (forall x, ~ In (l, x) escape_table) -> can_unescape l = false.
Proof.
  intros H. unfold can_unescape. destruct (unescape_char l) as [x|] eqn:E; [|reflexivity].
  apply unescape_char_spec in E. elim (H _ E).
Qed.

Lemma can_unescape_dec l : (exists x, In (l, x) escape_table) \/ (forall x, ~ In (l, x) escape_table).
Proof.
  destruct (unescape_char l) as [x|] eqn:E.
  - left; exists x; apply unescape_char_spec; assumption.
  - right; intros x H; apply unescape_char_spec in H; congruence.
Qed.

(** ** Skipping the branches that do not apply *)

Lemma produce_with_ok before s rest n f r :
  n = blen s -> f s = Ret r ->
  forall e, consumed_len e = n ->
  produce_with {| input := s ++ rest; loc := position before |} e f =
  Ret ({| tstart := position before; tend := position (before ++ s); trep := r |},
       {| input := rest; loc := position (before ++ s) |}).
Proof.
  intros -> Hf e He. unfold produce_with; cbn [input loc]. rewrite He, split_at_byte_app.
  rewrite location_eat_position. cbn [bind]. rewrite Hf. reflexivity.
Qed.

Definition result before s rest r : outcome (option (token * lexer)) :=
  Ret (Some ({| tstart := position before; tend := position (before ++ s); trep := r |},
             {| input := rest; loc := position (before ++ s) |})).

Lemma Forall_spec_impl (f : char -> bool) (P : char -> Prop) s :
  (forall c, f c = true <-> P c) -> Forall P s -> Forall (fun c => f c = true) s.
Proof. intros H; apply Forall_impl; intros c; apply H. Qed.

Lemma next_space before s rest :
  s <> [] -> Forall space_char s -> next_char (fun c => ~ space_char c) rest ->
  next {| input := s ++ rest; loc := position before |} = result before s rest TWhitespaces.
Proof.
  intros Hne Hs Hr. unfold next. cbn [input current].
  destruct (s ++ rest) as [|c0 t0] eqn:E; [destruct s; [congruence|discriminate]|]. rewrite <- E.
  unfold eat_whitespaces. rewrite eat_while_app.
  - cbn [bind]. destruct s as [|c s]; [congruence|]. unfold produce.
    rewrite (produce_with_ok before (c :: s) rest _ _ TWhitespaces eq_refl eq_refl).
    + reflexivity.
    + reflexivity.
  - eapply Forall_spec_impl; [apply is_space_spec|assumption].
  - eapply next_char_impl; [|eassumption]. apply not_space.
Qed.

(** Common prefix of the remaining branches: the first character is not a space. *)
Lemma eat_whitespaces_no t n : next_char (fun c => ~ space_char c) t ->
  eat_whitespaces {| current := t; consumed_len := n |} =
  Ret (false, {| current := t; consumed_len := n |}).
Proof.
  intros H. unfold eat_whitespaces. pose proof (eat_while_app is_space [] t n) as E.
  cbn [app] in E. rewrite E; [cbn; rewrite N.add_0_r; reflexivity|constructor|].
  eapply next_char_impl; [|eassumption]. apply not_space.
Qed.

Lemma eat_id_no t n : next_char (fun c => ~ id_char c) t ->
  eat_id {| current := t; consumed_len := n |} = Ret (false, {| current := t; consumed_len := n |}).
Proof.
  intros H. unfold eat_id. pose proof (eat_while_app is_id_char [] t n) as E.
  cbn [app] in E. rewrite E; [cbn; rewrite N.add_0_r; reflexivity|constructor|].
  eapply next_char_impl; [|eassumption]. apply not_id.
Qed.

Lemma starts_with_hd_no x p t : next_char (fun c => c <> x) t -> starts_with (x :: p) t = false.
Proof.
  destruct t as [|c t]; [reflexivity|]. cbn. intros H.
  destruct (N.eqb_spec x c); [congruence|reflexivity].
Qed.

Lemma eat_line_comment_no t n : next_char (fun c => c <> c_ ";") t ->
  eat_line_comment {| current := t; consumed_len := n |} =
  Ret (false, {| current := t; consumed_len := n |}).
Proof.
  intros H. unfold eat_line_comment. rewrite eat_exact_no; [reflexivity|].
  apply starts_with_hd_no; exact H.
Qed.

Lemma eat_string_no t n : next_char (fun c => c <> c_quote) t ->
  eat_string {| current := t; consumed_len := n |} = Ret (None, {| current := t; consumed_len := n |}).
Proof.
  intros H. unfold eat_string. rewrite eat_exact_no; [reflexivity|].
  apply starts_with_hd_no; exact H.
Qed.

Lemma eat_char_no t n : starts_with (t_ "#\") t = false ->
  eat_char {| current := t; consumed_len := n |} = Ret (None, {| current := t; consumed_len := n |}).
Proof. intros H. unfold eat_char. rewrite eat_exact_no; [reflexivity|exact H]. Qed.

Lemma negb_eqb_true a b : negb (a =? b) = true <-> a <> b.
Proof. rewrite negb_true_iff, N.eqb_neq. reflexivity. Qed.

Lemma not_lf_forall body : ~ In c_lf body -> Forall (fun c => negb (c =? c_lf) = true) body.
Proof.
  intros H. apply Forall_forall. intros c Hc. apply negb_eqb_true. intros ->. contradiction.
Qed.

Lemma eat_line_comment_line body rest n : ~ In c_lf body ->
  eat_line_comment {| current := (t_ ";" ++ body ++ [c_lf]) ++ rest; consumed_len := n |} =
  Ret (true, {| current := rest; consumed_len := n + blen (t_ ";" ++ body ++ [c_lf]) |}).
Proof.
  intros H. unfold eat_line_comment. rewrite <- !app_assoc. rewrite eat_exact_ok by discriminate.
  cbn [bind]. rewrite eat_while_app; [|apply not_lf_forall; assumption|reflexivity].
  cbn [bind]. rewrite eat_exact_ok by discriminate. cbn [bind]. rewrite !blen_app. do 3 f_equal. lia.
Qed.

Lemma eat_line_comment_eof body n : ~ In c_lf body ->
  eat_line_comment {| current := (t_ ";" ++ body) ++ []; consumed_len := n |} =
  Ret (true, {| current := []; consumed_len := n + blen (t_ ";" ++ body) |}).
Proof.
  intros H. unfold eat_line_comment. rewrite <- app_assoc. rewrite eat_exact_ok by discriminate.
  cbn [bind]. rewrite eat_while_app; [|apply not_lf_forall; assumption|exact I].
  cbn [bind]. rewrite eat_exact_no by reflexivity. cbn [bind]. rewrite !blen_app. do 3 f_equal. lia.
Qed.

(** ** Strings *)

Lemma eat_string_loop_body body s :
  denotes body s -> ~ raw_quote body -> forall fuel rest n,
  (List.length (body ++ rest) < fuel)%nat ->
  exists fuel' n' body2, (List.length rest < fuel')%nat /\ n' = n + blen body - blen body2 /\
    blen body2 <= blen body /\
    Forall (fun c => negb ((c =? c_quote) || (c =? c_backslash)) = true) body2 /\
    eat_string_loop fuel {| current := body ++ rest; consumed_len := n |} =
    eat_string_loop fuel' {| current := body2 ++ rest; consumed_len := n' |}.
Proof.
  intros Hd. remember (List.length body) as k eqn:Hk.
  assert (Hle : (List.length body <= k)%nat) by lia. clear Hk. revert body s Hd Hle.
  induction k as [|k IH]; intros body s Hd Hle Hq fuel rest n Hf.
  - destruct body; [|cbn in Hle; lia]. exists fuel, n, []. cbn in *. repeat split; try lia; constructor.
  - (* split the plain prefix *)
    destruct (span_exists (fun c => negb ((c =? c_quote) || (c =? c_backslash))) body)
      as (a & b & -> & Ha & Hb).
    destruct b as [|c b].
    { rewrite app_nil_r in *. exists fuel, n, a. rewrite app_length in Hf.
      repeat split; [lia|lia|lia|assumption]. }
    (* the plain prefix denotes itself *)
    assert (Hda : forall b' s', denotes (a ++ b') s' -> exists s2, denotes a a /\ denotes b' s2).
    { clear -Ha. induction Ha as [|x a Hx Ha IH]; intros b' s' Hd.
      - exists s'; split; [constructor|assumption].
      - cbn [app] in Hd. inversion Hd as [|? ? ? Hne Hd'|]; subst.
        + destruct (IH _ _ Hd') as (s2 & H1 & H2). exists s2; split; [constructor; assumption|assumption].
        + exfalso. clear -Hx. unfold c_backslash, c_quote in Hx. cbn in Hx. discriminate. }
    destruct (Hda _ _ Hd) as (s2 & Haa & Hd2).
    cbn in Hb. apply negb_false_iff in Hb. apply orb_true_iff in Hb as [Hb|Hb]; apply N.eqb_eq in Hb; subst c.
    { exfalso. apply Hq. exists a, b, a. split; [reflexivity|assumption]. }
    inversion Hd2 as [|? ? ? Hne _|l x b' s3 Hin Hd3]; subst; [congruence|].
    destruct fuel as [|fuel]; [lia|].
    rewrite !app_length in Hf. cbn [List.length] in Hf.
    assert (Hq3 : ~ raw_quote b').
    { intros (p & q & sp & -> & Hp). apply Hq.
      exists (a ++ c_backslash :: l :: p), q, (a ++ x :: sp). split.
      - rewrite <- app_assoc; reflexivity.
      - clear -Ha Hin Hp. induction Ha as [|y a Hy _ IHa]; cbn [app].
        + constructor; assumption.
        + constructor; [|assumption]. intros ->. cbn in Hy. discriminate. }
    rewrite app_length in Hle; cbn [List.length] in Hle.
    destruct (IH b' s3 Hd3 ltac:(lia) Hq3 fuel rest (n + blen (a ++ [c_backslash; l])))
      as (fuel' & n' & body2 & Hf' & -> & Hb2 & Hp2 & E).
    { rewrite app_length. lia. }
    exists fuel', (n + blen (a ++ [c_backslash; l]) + blen b' - blen body2), body2.
    rewrite !blen_app in *. cbn [blen] in *. repeat split; [assumption|lia|lia|assumption|].
    rewrite <- E. clear E IH.
    cbn [eat_string_loop]. rewrite <- app_assoc. rewrite eat_while_app; [|assumption|reflexivity].
    cbn [bind]. rewrite eat_exact_no by reflexivity. cbn [bind app].
    rewrite eat_len_one. cbn [bind].
    rewrite eat_if_ok by (eapply can_unescape_in; eassumption). cbn [bind].
    f_equal. f_equal. lia.
Qed.

Lemma eat_string_terminated body s rest n :
  denotes body s -> ~ raw_quote body ->
  eat_string {| current := (c_quote :: body ++ [c_quote]) ++ rest; consumed_len := n |} =
  Ret (Some true, {| current := rest; consumed_len := n + blen (c_quote :: body ++ [c_quote]) |}).
Proof.
  intros Hd Hq. unfold eat_string.
  change ((c_quote :: body ++ [c_quote]) ++ rest) with ([c_quote] ++ (body ++ [c_quote]) ++ rest).
  rewrite eat_exact_ok by discriminate. cbn [bind current]. rewrite <- app_assoc.
  destruct (eat_string_loop_body body s Hd Hq (S (List.length (body ++ [c_quote] ++ rest)))
              ([c_quote] ++ rest) (n + blen [c_quote]) ltac:(lia))
    as (fuel' & n' & body2 & Hf' & -> & Hle & Hp & ->).
  destruct fuel' as [|fuel']; [lia|]. cbn [eat_string_loop].
  rewrite eat_while_app; [|assumption|reflexivity]. cbn [bind].
  rewrite eat_exact_ok by discriminate. cbn [bind].
  do 3 f_equal. cbn [blen]. rewrite !blen_app. cbn [blen]. lia.
Qed.

Lemma eat_string_eof body s n :
  denotes body s -> ~ raw_quote body ->
  eat_string {| current := (c_quote :: body) ++ []; consumed_len := n |} =
  Ret (Some false, {| current := []; consumed_len := n + blen (c_quote :: body) |}).
Proof.
  intros Hd Hq. unfold eat_string.
  change ((c_quote :: body) ++ []) with ([c_quote] ++ body ++ []).
  rewrite eat_exact_ok by discriminate. cbn [bind current].
  destruct (eat_string_loop_body body s Hd Hq (S (List.length (body ++ []))) [] (n + blen [c_quote]) ltac:(lia))
    as (fuel' & n' & body2 & Hf' & -> & Hle & Hp & ->).
  destruct fuel' as [|fuel']; [cbn in Hf'; lia|]. cbn [eat_string_loop].
  rewrite eat_while_app; [|assumption|exact I]. cbn [bind].
  rewrite eat_exact_no by reflexivity. cbn [bind].
  rewrite eat_len_eof by reflexivity. cbn [bind].
  do 3 f_equal. cbn [blen]. lia.
Qed.

Lemma eat_string_bad body s rest n :
  denotes body s -> ~ raw_quote body ->
  next_char (fun c => forall x, ~ In (c, x) escape_table) rest ->
  eat_string {| current := (c_quote :: body ++ [c_backslash]) ++ rest; consumed_len := n |} =
  Ret (Some false, {| current := rest; consumed_len := n + blen (c_quote :: body ++ [c_backslash]) |}).
Proof.
  intros Hd Hq Hr. unfold eat_string.
  change ((c_quote :: body ++ [c_backslash]) ++ rest) with ([c_quote] ++ (body ++ [c_backslash]) ++ rest).
  rewrite eat_exact_ok by discriminate. cbn [bind current]. rewrite <- app_assoc.
  destruct (eat_string_loop_body body s Hd Hq (S (List.length (body ++ [c_backslash] ++ rest)))
              ([c_backslash] ++ rest) (n + blen [c_quote]) ltac:(lia))
    as (fuel' & n' & body2 & Hf' & -> & Hle & Hp & ->).
  destruct fuel' as [|fuel']; [lia|]. cbn [eat_string_loop].
  rewrite eat_while_app; [|assumption|reflexivity]. cbn [bind].
  rewrite eat_exact_no by reflexivity. cbn [bind].
  cbn [app]. rewrite eat_len_one. cbn [bind].
  rewrite eat_if_no by (eapply next_char_impl; [apply can_unescape_no|assumption]). cbn [bind].
  do 3 f_equal. cbn [blen]. rewrite !blen_app. cbn [blen]. lia.
Qed.

Lemma string_token_ok body s :
  denotes body s -> string_token true (c_quote :: body ++ [c_quote]) = Ret (TString s).
Proof.
  intros Hd. unfold string_token.
  assert (Hb : blen (c_quote :: body ++ [c_quote]) = len_utf8 c_quote + blen body + len_utf8 c_quote).
  { cbn [blen]. rewrite blen_app. cbn [blen]. lia. }
  rewrite Hb. destruct (N.ltb_spec (len_utf8 c_quote + blen body + len_utf8 c_quote) (len_utf8 c_quote + len_utf8 c_quote)); [lia|].
  replace (len_utf8 c_quote + blen body + len_utf8 c_quote - len_utf8 c_quote)
    with (blen (c_quote :: body)) by (cbn [blen]; lia).
  change (c_quote :: body ++ [c_quote]) with ((c_quote :: body) ++ [c_quote]).
  rewrite split_at_byte_app.
  replace (len_utf8 c_quote) with (blen [c_quote]) by reflexivity.
  change (c_quote :: body) with ([c_quote] ++ body). rewrite split_at_byte_app.
  apply unescape_iff in Hd. rewrite Hd. reflexivity.
Qed.

(** ** Characters *)

Lemma eat_char_plain c rest n : c <> c_backslash ->
  eat_char {| current := (t_ "#\" ++ [c]) ++ rest; consumed_len := n |} =
  Ret (Some true, {| current := rest; consumed_len := n + blen (t_ "#\" ++ [c]) |}).
Proof.
  intros Hc. unfold eat_char. rewrite <- app_assoc. rewrite eat_exact_ok by discriminate.
  cbn [bind app]. rewrite eat_if_ok by (apply negb_eqb_true; assumption). cbn [bind].
  do 3 f_equal. rewrite blen_app. cbn [blen]. lia.
Qed.

Lemma eat_char_escape l x rest n : In (l, x) escape_table ->
  eat_char {| current := (t_ "#\" ++ [c_backslash; l]) ++ rest; consumed_len := n |} =
  Ret (Some true, {| current := rest; consumed_len := n + blen (t_ "#\" ++ [c_backslash; l]) |}).
Proof.
  intros Hl. unfold eat_char. rewrite <- app_assoc. rewrite eat_exact_ok by discriminate.
  cbn [bind app]. rewrite eat_if_no by reflexivity. cbn [bind].
  cbn [app]. rewrite eat_len_one. cbn [bind].
  rewrite eat_if_ok by (eapply can_unescape_in; eassumption). cbn [bind].
  do 3 f_equal. rewrite blen_app. cbn [blen]. lia.
Qed.

Lemma eat_char_eof n :
  eat_char {| current := t_ "#\" ++ []; consumed_len := n |} =
  Ret (Some false, {| current := []; consumed_len := n + blen (t_ "#\") |}).
Proof.
  unfold eat_char. rewrite eat_exact_ok by discriminate. cbn [bind].
  rewrite eat_if_no by exact I. cbn [bind]. reflexivity.
Qed.

Lemma eat_char_bad rest n :
  next_char (fun c => forall x, ~ In (c, x) escape_table) rest ->
  eat_char {| current := (t_ "#\" ++ [c_backslash]) ++ rest; consumed_len := n |} =
  Ret (Some false, {| current := rest; consumed_len := n + blen (t_ "#\" ++ [c_backslash]) |}).
Proof.
  intros Hr. unfold eat_char. rewrite <- app_assoc. rewrite eat_exact_ok by discriminate.
  cbn [bind app]. rewrite eat_if_no by reflexivity. cbn [bind].
  cbn [app]. rewrite eat_len_one. cbn [bind].
  rewrite eat_if_no by (eapply next_char_impl; [apply can_unescape_no|assumption]). cbn [bind].
  do 3 f_equal. rewrite blen_app. cbn [blen]. lia.
Qed.

Lemma char_token_plain c : c <> c_backslash -> char_token true (t_ "#\" ++ [c]) = Ret (TChar c).
Proof.
  intros Hc. unfold char_token. rewrite split_at_byte_app.
  assert (H : unescape [c] = Ret (Some [c])).
  { apply unescape_iff. constructor; [assumption|constructor]. }
  rewrite H. reflexivity.
Qed.

Lemma char_token_escape l x : In (l, x) escape_table ->
  char_token true (t_ "#\" ++ [c_backslash; l]) = Ret (TChar x).
Proof.
  intros Hl. unfold char_token. rewrite split_at_byte_app.
  assert (H : unescape [c_backslash; l] = Ret (Some [x])).
  { apply unescape_iff. constructor; [assumption|constructor]. }
  rewrite H. reflexivity.
Qed.

(** ** One step of the lexer *)

(** Branch lemmas: what [next] does once the earlier alternatives are excluded. *)
Lemma next_comment before s rest :
  next_char (fun c => c = c_ ";") s -> s <> [] ->
  eat_line_comment {| current := s ++ rest; consumed_len := 0 |} =
    Ret (true, {| current := rest; consumed_len := 0 + blen s |}) ->
  next {| input := s ++ rest; loc := position before |} = result before s rest TLineComment.
Proof.
  intros Hs Hne E. unfold next; cbn [input current].
  destruct s as [|c s]; [congruence|]. cbn in Hs; subst c. cbn [app].
  rewrite eat_whitespaces_no by (cbn; intros [H|[H|[H|[H|[]]]]]; discriminate). cbn [bind].
  cbn [app] in E. rewrite E. cbn [bind]. unfold produce.
  rewrite (produce_with_ok before (c_ ";" :: s) rest _ _ TLineComment eq_refl eq_refl); [reflexivity|reflexivity].
Qed.

Lemma next_word before s rest :
  s <> [] -> Forall id_char s -> next_char (fun c => ~ id_char c) rest ->
  next {| input := s ++ rest; loc := position before |} = result before s rest (classify_id s).
Proof.
  intros Hne Hs Hr. unfold next; cbn [input current].
  destruct (s ++ rest) as [|c0 t0] eqn:E; [destruct s; [congruence|discriminate]|]. rewrite <- E.
  assert (Hc0 : id_char c0).
  { destruct s as [|c s]; [congruence|]. cbn in E; injection E as <- _. inversion Hs; assumption. }
  assert (Hns : ~ space_char c0).
  { intros H. apply is_id_char_spec in Hc0. cbn in H.
    destruct H as [<-|[<-|[<-|[<-|[]]]]]; discriminate. }
  assert (Hnc : c0 <> c_ ";"). { intros ->. apply is_id_char_spec in Hc0. discriminate. }
  rewrite eat_whitespaces_no by (rewrite E; exact Hns). cbn [bind].
  rewrite eat_line_comment_no by (rewrite E; exact Hnc). cbn [bind].
  unfold eat_id. rewrite eat_while_app.
  - cbn [bind]. destruct s as [|c s]; [congruence|].
    rewrite (produce_with_ok before (c :: s) rest _ _ (classify_id (c :: s)) eq_refl eq_refl); [reflexivity|reflexivity].
  - eapply Forall_spec_impl; [apply is_id_char_spec|assumption].
  - eapply next_char_impl; [|eassumption]. apply not_id.
Qed.

(** Characters that are neither spaces, comment starts nor identifier characters reach the string
    branch. *)
Definition special (c : char) : Prop := ~ space_char c /\ c <> c_ ";" /\ ~ id_char c.

Lemma special_dec c : is_space c = false -> is_id_char c = false -> c <> c_ ";" -> special c.
Proof.
  intros H1 H2 H3. split; [|split; [assumption|]]; intros H.
  - apply is_space_spec in H; congruence.
  - apply is_id_char_spec in H; congruence.
Qed.

Lemma next_special before c t :
  special c ->
  next {| input := c :: t; loc := position before |} =
  let* (b, e) := eat_string {| current := c :: t; consumed_len := 0 |} in
  match b with
  | Some terminated =>
    let* r := produce_with {| input := c :: t; loc := position before |} e (string_token terminated) in Ret (Some r)
  | None =>
    let* (b, e) := eat_char e in
    match b with
    | Some terminated =>
      let* r := produce_with {| input := c :: t; loc := position before |} e (char_token terminated) in Ret (Some r)
    | None =>
      let* r := next_fixed fixed_tokens {| input := c :: t; loc := position before |} e in Ret (Some r)
    end
  end.
Proof.
  intros (Hs & Hc & Hi). unfold next; cbn [input current].
  rewrite eat_whitespaces_no by exact Hs. cbn [bind].
  rewrite eat_line_comment_no by exact Hc. cbn [bind].
  rewrite eat_id_no by exact Hi. cbn [bind]. reflexivity.
Qed.

Lemma next_string_branch before s rest term r :
  next_char (fun c => c = c_quote) s -> s <> [] ->
  eat_string {| current := s ++ rest; consumed_len := 0 |} =
    Ret (Some term, {| current := rest; consumed_len := 0 + blen s |}) ->
  string_token term s = Ret r ->
  next {| input := s ++ rest; loc := position before |} = result before s rest r.
Proof.
  intros Hs Hne E Ht. destruct s as [|c s]; [congruence|]. cbn in Hs; subst c.
  cbn [app] in *. rewrite next_special.
  2:{ apply special_dec; [reflexivity|reflexivity|discriminate]. }
  rewrite E. cbn [bind].
  change (c_quote :: s ++ rest) with ((c_quote :: s) ++ rest).
  rewrite (produce_with_ok before (c_quote :: s) rest _ _ r eq_refl Ht); [reflexivity|reflexivity].
Qed.

Lemma next_char_branch before s rest term r :
  starts_with (t_ "#\") s = true ->
  eat_char {| current := s ++ rest; consumed_len := 0 |} =
    Ret (Some term, {| current := rest; consumed_len := 0 + blen s |}) ->
  char_token term s = Ret r ->
  next {| input := s ++ rest; loc := position before |} = result before s rest r.
Proof.
  intros Hs E Ht. apply starts_with_true in Hs as (s' & ->).
  change ((t_ "#\" ++ s') ++ rest) with (c_ "#" :: c_backslash :: s' ++ rest).
  rewrite next_special.
  2:{ apply special_dec; [reflexivity|reflexivity|discriminate]. }
  rewrite eat_string_no by (cbn; discriminate). cbn [bind].
  change (c_ "#" :: c_backslash :: s' ++ rest) with ((t_ "#\" ++ s') ++ rest).
  rewrite E. cbn [bind].
  rewrite (produce_with_ok before (t_ "#\" ++ s') rest _ _ r eq_refl Ht); [reflexivity|reflexivity].
Qed.

(** Fixed tokens: the first one in the table that is a prefix of the input. *)
Fixpoint first_fixed (ts : list (text * tokenrep)) (t : text) : option (text * tokenrep) :=
  match ts with
  | (s, r) :: ts => if starts_with s t then Some (s, r) else first_fixed ts t
  | [] => None
  end.

Lemma next_fixed_ok before ts s r rest :
  Forall (fun p => fst p <> []) ts ->
  first_fixed ts (s ++ rest) = Some (s, r) ->
  next_fixed ts {| input := s ++ rest; loc := position before |} {| current := s ++ rest; consumed_len := 0 |} =
  Ret ({| tstart := position before; tend := position (before ++ s); trep := r |},
       {| input := rest; loc := position (before ++ s) |}).
Proof.
  induction 1 as [|[s' r'] ts Hne _ IH]; cbn [first_fixed next_fixed]; [discriminate|].
  destruct (starts_with s' (s ++ rest)) eqn:E.
  - intros H; injection H as -> ->. rewrite eat_exact_ok by exact Hne. cbn [bind]. unfold produce.
    rewrite (produce_with_ok before s rest _ _ r eq_refl eq_refl); [reflexivity|reflexivity].
  - intros H. rewrite eat_exact_no by assumption. cbn [bind]. apply IH; assumption.
Qed.

Lemma next_fixed_none before ts c rest :
  first_fixed ts (c :: rest) = None ->
  next_fixed ts {| input := c :: rest; loc := position before |} {| current := c :: rest; consumed_len := 0 |} =
  Ret ({| tstart := position before; tend := position (before ++ [c]); trep := TUnknownCharacter |},
       {| input := rest; loc := position (before ++ [c]) |}).
Proof.
  induction ts as [|[s' r'] ts IH]; cbn [first_fixed next_fixed].
  - intros _. rewrite eat_if_ok by reflexivity. cbn [bind]. unfold produce.
    change (c :: rest) with ([c] ++ rest).
    rewrite (produce_with_ok before [c] rest (blen [c]) _ TUnknownCharacter eq_refl eq_refl);
      [reflexivity|]. cbn; lia.
  - destruct (starts_with s' (c :: rest)) eqn:E; [discriminate|].
    intros H. rewrite eat_exact_no by assumption. cbn [bind]. apply IH; assumption.
Qed.

Lemma fixed_nonempty : Forall (fun p : text * tokenrep => fst p <> []) fixed_tokens.
Proof. repeat constructor; discriminate. Qed.

Lemma next_fixed_branch before s r rest :
  next_char special s -> s <> [] -> next_char (fun c => c <> c_quote) s ->
  starts_with (t_ "#\") (s ++ rest) = false ->
  first_fixed fixed_tokens (s ++ rest) = Some (s, r) ->
  next {| input := s ++ rest; loc := position before |} = result before s rest r.
Proof.
  intros Hs Hne Hq Hc Hf. destruct s as [|c s]; [congruence|]. cbn [app] in *.
  rewrite next_special by exact Hs. rewrite eat_string_no by exact Hq. cbn [bind].
  rewrite eat_char_no by exact Hc. cbn [bind].
  change (c :: s ++ rest) with ((c :: s) ++ rest) in *.
  rewrite (next_fixed_ok before fixed_tokens (c :: s) r rest fixed_nonempty Hf). reflexivity.
Qed.

Lemma next_unknown before c rest :
  special c -> c <> c_quote -> starts_with (t_ "#\") (c :: rest) = false ->
  first_fixed fixed_tokens (c :: rest) = None ->
  next {| input := c :: rest; loc := position before |} = result before [c] rest TUnknownCharacter.
Proof.
  intros Hs Hq Hc Hf. rewrite next_special by exact Hs. rewrite eat_string_no by exact Hq. cbn [bind].
  rewrite eat_char_no by exact Hc. cbn [bind]. rewrite next_fixed_none by exact Hf. reflexivity.
Qed.

(** Every specified token text is what the lexer produces. *)
Lemma next_complete before r s rest :
  s <> [] -> token_text r s rest ->
  next {| input := s ++ rest; loc := position before |} = result before s rest r.
Proof.
  intros Hne H. destruct H; try
    (apply next_fixed_branch;
     [ cbn; apply special_dec; [reflexivity|reflexivity|discriminate]
     | assumption | cbn; discriminate | cbn; reflexivity | cbn; reflexivity ]).
  - apply next_space; assumption.
  - apply next_comment; [reflexivity|assumption|apply eat_line_comment_line; assumption].
  - apply next_comment; [reflexivity|assumption|apply eat_line_comment_eof; assumption].
  - apply classify_spec in H2. subst r. apply next_word; assumption.
  - eapply next_string_branch; [reflexivity|assumption|eapply eat_string_terminated; eassumption|].
    apply string_token_ok; assumption.
  - eapply next_string_branch; [reflexivity|assumption|eapply eat_string_eof; eassumption|reflexivity].
  - eapply next_string_branch; [reflexivity|assumption|eapply eat_string_bad; eassumption|reflexivity].
  - eapply next_char_branch; [reflexivity|apply eat_char_plain; assumption|apply char_token_plain; assumption].
  - eapply next_char_branch; [reflexivity|eapply eat_char_escape; eassumption|apply char_token_escape; assumption].
  - eapply next_char_branch; [reflexivity|apply eat_char_eof|reflexivity].
  - eapply next_char_branch; [reflexivity|apply eat_char_bad; assumption|reflexivity].
  - (* comma *)
    apply next_fixed_branch;
     [ cbn; apply special_dec; [reflexivity|reflexivity|discriminate]
     | assumption | cbn; discriminate | cbn; reflexivity | ].
    destruct rest as [|d rest]; [reflexivity|]. cbn [next_char] in H.
    cbn -[N.eqb]. change (c_ "@") with 64 in H. cbn.
    destruct d as [|p]; [reflexivity|].
    destruct (Pos.eqb_spec 64 p) as [E|E]; [subst p; congruence|reflexivity].
  - (* unknown *)
    apply next_unknown; [|assumption| |].
    + split; [assumption|]. split; [|assumption]. intros ->. apply H1; cbn; auto.
    + cbn -[N.eqb]. destruct (N.eqb_spec 35 c) as [<-|]; [|reflexivity].
      specialize (H3 eq_refl). destruct rest as [|d rest]; [reflexivity|]. cbn [next_char] in H3.
      cbn -[N.eqb]. destruct (N.eqb_spec 92 d) as [E|]; [|reflexivity].
      destruct H3 as (_ & _ & H3). subst d; exfalso; apply H3; reflexivity.
    + cbn -[N.eqb].
      assert (Hn : forall x, In x (t_ ";()[]{}'`\~,@") -> (x =? c) = false).
      { intros x Hx. apply N.eqb_neq. intros ->. contradiction. }
      rewrite ?(Hn 40), ?(Hn 41), ?(Hn 91), ?(Hn 93), ?(Hn 123), ?(Hn 125), ?(Hn 39), ?(Hn 96),
        ?(Hn 92), ?(Hn 126), ?(Hn 44), ?(Hn 64) by (cbn; auto 20).
      cbn [andb].
      destruct (N.eqb_spec 35 c) as [<-|]; [|reflexivity]. cbn [andb].
      specialize (H3 eq_refl). destruct rest as [|d rest]; [reflexivity|]. cbn [next_char] in H3.
      destruct H3 as (Ht & Hf & _).
      destruct (N.eqb_spec 116 d) as [E|]; [subst d; elim Ht; reflexivity|].
      destruct (N.eqb_spec 102 d) as [E|]; [subst d; elim Hf; reflexivity|]. reflexivity.
Qed.

(** ** Every non-empty text starts with a specified token *)

Lemma string_exists t :
  exists s rest r, c_quote :: t = s ++ rest /\ s <> [] /\ token_text r s rest.
Proof.
  (* scan complete characters until a quote, the end, or a bad escape *)
  assert (Hscan : exists body rest x, t = body ++ rest /\ denotes body x /\ ~ raw_quote body /\
    (rest = [] \/ next_char (fun c => c = c_quote) rest \/
     exists r2, rest = c_backslash :: r2 /\ next_char (fun c => forall y, ~ In (c, y) escape_table) r2)).
  { assert (Hnil : ~ raw_quote []) by (intros (a & b & x & E & _); destruct a; discriminate).
    remember (List.length t) as k eqn:Hk.
    assert (Hle : (List.length t <= k)%nat) by lia. clear Hk. revert t Hle.
    induction k as [|k IH]; intros t Hle.
    - destruct t; [|cbn in Hle; lia]. exists [], [], []. repeat split; [constructor|assumption|auto].
    - destruct t as [|c t]; [exists [], [], []; repeat split; [constructor|assumption|auto]|].
      cbn in Hle.
      destruct (N.eq_dec c c_quote) as [->|Hq].
      { exists [], (c_quote :: t), []. repeat split; [constructor|assumption|cbn; auto]. }
      destruct (N.eq_dec c c_backslash) as [->|Hb].
      + destruct t as [|l t].
        { exists [], [c_backslash], []. repeat split; [constructor|assumption|].
          right; right. exists []. split; [reflexivity|exact I]. }
        destruct (can_unescape_dec l) as [(y & Hy)|Hl].
        * destruct (IH t) as (body & rest & x & -> & Hd & Hr & Hcase); [cbn in Hle; lia|].
          exists (c_backslash :: l :: body), rest, (y :: x). repeat split; [constructor; assumption| |assumption].
          intros (a & b & sx & E & Ha). destruct a as [|a1 a]; [discriminate|].
          injection E as <- E. inversion Ha as [|? ? ? Hne _|l' ? a' ? _ Ha']; subst; [congruence|].
          injection E as -> ->. apply Hr. exists a', b, s. auto.
        * exists [], (c_backslash :: l :: t), []. repeat split; [constructor|assumption|].
          right; right. exists (l :: t). split; [reflexivity|exact Hl].
      + destruct (IH t) as (body & rest & x & -> & Hd & Hr & Hcase); [lia|].
        exists (c :: body), rest, (c :: x). repeat split; [constructor; assumption| |assumption].
        intros (a & b & sx & E & Ha). destruct a as [|a1 a]; [injection E as -> _; congruence|].
        injection E as <- E. inversion Ha as [|? ? ? _ Ha'|]; subst; [|congruence].
        apply Hr. exists a, b, s. auto. }
  destruct Hscan as (body & rest & x & -> & Hd & Hr & [->|[Hq|(r2 & -> & Hbad)]]).
  - exists (c_quote :: body), [], TUnterminatedString. repeat split; [discriminate|].
    eapply tt_bad_string_eof; eassumption.
  - destruct rest as [|c rest].
    + exists (c_quote :: body), [], TUnterminatedString. repeat split; [discriminate|].
      eapply tt_bad_string_eof; eassumption.
    + cbn in Hq; subst c. exists (c_quote :: body ++ [c_quote]), rest, (TString x).
      repeat split; [cbn; rewrite <- app_assoc; reflexivity|discriminate|].
      apply tt_string; assumption.
  - exists (c_quote :: body ++ [c_backslash]), r2, TUnterminatedString.
    repeat split; [cbn; rewrite <- app_assoc; reflexivity|discriminate|].
    eapply tt_bad_string_escape; eassumption.
Qed.

Lemma comment_exists t :
  exists s rest r, c_ ";" :: t = s ++ rest /\ s <> [] /\ token_text r s rest.
Proof.
  destruct (span_exists (fun c => negb (c =? c_lf)) t) as (a & b & -> & Ha & Hb).
  assert (Hn : ~ In c_lf a).
  { intros H. rewrite Forall_forall in Ha. specialize (Ha _ H). discriminate. }
  destruct b as [|c b].
  - exists (t_ ";" ++ a), [], TLineComment. repeat split; [discriminate|].
    apply tt_comment_eof; assumption.
  - cbn in Hb. apply negb_false_iff, N.eqb_eq in Hb; subst c.
    exists (t_ ";" ++ a ++ [c_lf]), b, TLineComment.
    repeat split; [cbn; rewrite <- app_assoc; reflexivity|discriminate|].
    apply tt_comment_line; assumption.
Qed.

Lemma class_exists (f : char -> bool) (P : char -> Prop) c t :
  (forall c, f c = true <-> P c) -> P c ->
  exists s rest, c :: t = s ++ rest /\ s <> [] /\ Forall P s /\ next_char (fun c => ~ P c) rest.
Proof.
  intros Hf Hc. destruct (span_exists f t) as (a & b & -> & Ha & Hb).
  exists (c :: a), b. repeat split; [discriminate| |].
  - constructor; [assumption|]. eapply Forall_impl; [|exact Ha]. intros x; apply Hf.
  - eapply next_char_impl; [|exact Hb]. intros x Hx Hp. apply Hf in Hp. congruence.
Qed.

Lemma token_exists t : t <> [] ->
  exists s rest r, t = s ++ rest /\ s <> [] /\ token_text r s rest.
Proof.
  destruct t as [|c t]; [congruence|]. intros _.
  destruct (is_space c) eqn:Es.
  { apply is_space_spec in Es.
    destruct (class_exists _ _ c t is_space_spec Es) as (s & rest & E & Hne & Hs & Hr).
    exists s, rest, TWhitespaces. repeat split; [assumption|assumption|constructor; assumption]. }
  destruct (is_id_char c) eqn:Ei.
  { apply is_id_char_spec in Ei.
    destruct (class_exists _ _ c t is_id_char_spec Ei) as (s & rest & E & Hne & Hs & Hr).
    exists s, rest, (classify_id s). repeat split; [assumption|assumption|].
    apply tt_word; try assumption. apply classify_spec; reflexivity. }
  destruct (N.eq_dec c (c_ ";")) as [->|Hcom]; [apply comment_exists|].
  destruct (N.eq_dec c c_quote) as [->|Hq]; [apply string_exists|].
  assert (Hsp : ~ space_char c) by (intros H; apply is_space_spec in H; congruence).
  assert (Hid : ~ id_char c) by (intros H; apply is_id_char_spec in H; congruence).
  destruct (N.eq_dec c (c_ "#")) as [->|Hhash].
  { destruct t as [|d t].
    - exists [c_ "#"], [], TUnknownCharacter. repeat split; [discriminate|].
      apply tt_unknown; try assumption; [|intros _; exact I].
      cbn. intros H; repeat (destruct H as [H|H]; [discriminate|]); destruct H.
    - destruct (N.eq_dec d (c_ "t")) as [->|Ht].
      { exists (t_ "#t"), t, TTrue. repeat split; [discriminate|apply tt_true]. }
      destruct (N.eq_dec d (c_ "f")) as [->|Hf].
      { exists (t_ "#f"), t, TFalse. repeat split; [discriminate|apply tt_false]. }
      destruct (N.eq_dec d c_backslash) as [->|Hb].
      { destruct t as [|x t].
        { exists (t_ "#\"), [], TUnterminatedChar. repeat split; [discriminate|apply tt_bad_char_eof]. }
        destruct (N.eq_dec x c_backslash) as [->|Hx].
        - destruct t as [|l t].
          { exists (t_ "#\" ++ [c_backslash]), [], TUnterminatedChar.
            repeat split; [discriminate|apply tt_bad_char_escape; exact I]. }
          destruct (can_unescape_dec l) as [(y & Hy)|Hl].
          + exists (t_ "#\" ++ [c_backslash; l]), t, (TChar y).
            repeat split; [discriminate|apply tt_char_escape; assumption].
          + exists (t_ "#\" ++ [c_backslash]), (l :: t), TUnterminatedChar.
            repeat split; [discriminate|apply tt_bad_char_escape; exact Hl].
        - exists (t_ "#\" ++ [x]), t, (TChar x). repeat split; [discriminate|apply tt_char; assumption]. }
      exists [c_ "#"], (d :: t), TUnknownCharacter. repeat split; [discriminate|].
      apply tt_unknown; try assumption; [|intros _; cbn; auto].
      cbn. intros H; repeat (destruct H as [H|H]; [discriminate|]); destruct H. }
  destruct (existsb (fun d => c =? d) (t_ "()[]{}'`\~,@")) eqn:Ef.
  - apply existsb_in in Ef. cbn in Ef.
    repeat match type of Ef with
           | _ \/ _ => destruct Ef as [<-|Ef]
           | False => destruct Ef
           end;
      try (eexists [_], t, _; (split; [reflexivity|]); (split; [discriminate|]); first [apply tt_lparen|apply tt_rparen|apply tt_lbrack|apply tt_rbrack|apply tt_lbrace|apply tt_rbrace|apply tt_quote|apply tt_backquote|apply tt_backslash|apply tt_tilde|apply tt_at]).
    + destruct t as [|d t].
      * exists (t_ ","), [], TComma. repeat split; [discriminate|apply tt_comma; exact I].
      * destruct (N.eq_dec d (c_ "@")) as [->|Hd].
        -- exists (t_ ",@"), t, TCommaAt. repeat split; [discriminate|apply tt_comma_at].
        -- exists (t_ ","), (d :: t), TComma. repeat split; [discriminate|apply tt_comma; exact Hd].
  - exists [c], t, TUnknownCharacter. repeat split; [discriminate|].
    apply tt_unknown; try assumption; [|intros E; contradiction].
    intros H. change (t_ ";()[]{}'`\~,@") with (c_ ";" :: t_ "()[]{}'`\~,@") in H.
    destruct H as [H|H]; [congruence|]. apply existsb_in in H. congruence.
Qed.

(** ** Whole texts *)

Lemma lex_loop_complete before t toks : tokenised before t toks -> forall fuel,
  (List.length t < fuel)%nat ->
  lex_loop fuel {| input := t; loc := position before |} = Ret toks.
Proof.
  induction 1 as [before|before s rest r toks Hne Ht _ IH]; intros fuel Hf.
  - destruct fuel as [|fuel]; [cbn in Hf; lia|]. reflexivity.
  - destruct fuel as [|fuel]; [lia|]. cbn [lex_loop].
    rewrite (next_complete before r s rest Hne Ht). unfold result. cbn [bind].
    rewrite app_length in Hf. rewrite IH; [reflexivity|].
    destruct s; [congruence|cbn in Hf; lia].
Qed.

Lemma tokenised_exists t : forall before, exists toks, tokenised before t toks.
Proof.
  remember (List.length t) as k eqn:Hk.
  assert (Hle : (List.length t <= k)%nat) by lia. clear Hk. revert t Hle.
  induction k as [|k IH]; intros t Hle before.
  - destruct t; [|cbn in Hle; lia]. exists []. constructor.
  - destruct t as [|c t]; [exists []; constructor|].
    destruct (token_exists (c :: t)) as (s & rest & r & E & Hne & Ht); [discriminate|].
    rewrite E in *. rewrite app_length in Hle.
    destruct (IH rest) with (before := before ++ s) as (toks & Htoks).
    { destruct s; [congruence|cbn in Hle; lia]. }
    eexists. eapply tz_cons; eassumption.
Qed.

Lemma lex_iff t toks : lex t = Ret toks <-> tokenised [] t toks.
Proof.
  assert (Hc : forall ts, tokenised [] t ts -> lex t = Ret ts).
  { intros ts H. unfold lex. change location_new with (position []).
    apply lex_loop_complete; [assumption|lia]. }
  split; [|apply Hc].
  intros H. destruct (tokenised_exists t []) as (ts & Hts). rewrite (Hc _ Hts) in H.
  injection H as <-; assumption.
Qed.

Lemma lex_total t : exists toks, lex t = Ret toks.
Proof. destruct (tokenised_exists t []) as (ts & Hts). exists ts. apply lex_iff; assumption. Qed.

Lemma lex_string_ok s :
  exists t, escape s = Ret t /\
    lex (c_quote :: t ++ [c_quote]) =
    Ret [{| tstart := position []; tend := position (c_quote :: t ++ [c_quote]); trep := TString s |}].
Proof.
  exists (esc s). split; [apply escape_esc|]. apply lex_iff.
  rewrite <- (app_nil_r (c_quote :: esc s ++ [c_quote])) at 1.
  apply (tz_cons [] (c_quote :: esc s ++ [c_quote]) [] (TString s) []); [discriminate| |constructor].
  apply tt_string; [apply denotes_esc|apply esc_no_raw_quote].
Qed.

Lemma lex_char_ok c :
  exists t, escape [c] = Ret t /\
    lex (t_ "#\" ++ t) =
    Ret [{| tstart := position []; tend := position (t_ "#\" ++ t); trep := TChar c |}].
Proof.
  exists (esc [c]). split; [apply escape_esc|]. apply lex_iff.
  rewrite <- (app_nil_r (t_ "#\" ++ esc [c])) at 1.
  apply (tz_cons [] (t_ "#\" ++ esc [c]) [] (TChar c) []); [discriminate| |constructor].
  cbn [esc]. destruct (escape_char c) as [e|] eqn:E.
  - apply escape_char_cases in E as (l & -> & Hin). cbn [app]. apply (tt_char_escape l c []). assumption.
  - apply escape_char_none in E as (Hb & _). apply (tt_char c []). assumption.
Qed.

(** Consequences of [tokenised] for the shape of the token list. *)
Fixpoint pieces (toks : list token) : list (location * location) :=
  match toks with [] => [] | t :: ts => (tstart t, tend t) :: pieces ts end.

Lemma tokenised_tiles before t toks : tokenised before t toks ->
  exists ps : list text, List.concat ps = t /\ Forall (fun p => p <> []) ps /\
    List.length ps = List.length toks /\
    forall i p tok, nth_error ps i = Some p -> nth_error toks i = Some tok ->
      tstart tok = position (before ++ List.concat (firstn i ps)) /\
      tend tok = position (before ++ List.concat (firstn i ps) ++ p).
Proof.
  induction 1 as [before|before s rest r toks Hne Ht _ IH].
  - exists []. split; [reflexivity|]. split; [constructor|]. split; [reflexivity|].
    intros [|i] p tok H; discriminate.
  - destruct IH as (ps & <- & Hps & Hlen & Hn). exists (s :: ps).
    split; [reflexivity|]. split; [constructor; assumption|]. split; [cbn; congruence|].
    intros [|i] p tok H1 H2; cbn in *.
    + injection H1 as <-; injection H2 as <-. cbn. rewrite app_nil_r. auto.
    + destruct (Hn _ _ _ H1 H2) as [-> ->]. rewrite <- !app_assoc; auto.
Qed.

Lemma lex_tiles t :
  exists toks (ps : list text), lex t = Ret toks /\ List.concat ps = t /\ Forall (fun p => p <> []) ps /\
    List.length ps = List.length toks /\
    forall i p tok, nth_error ps i = Some p -> nth_error toks i = Some tok ->
      tstart tok = position (List.concat (firstn i ps)) /\
      tend tok = position (List.concat (firstn i ps) ++ p).
Proof.
  destruct (tokenised_exists t []) as (ts & Hts).
  destruct (tokenised_tiles _ _ _ Hts) as (ps & H1 & H2 & H3 & H4).
  exists ts, ps. split; [apply lex_iff; assumption|]. auto.
Qed.
