(** The parser accepts exactly the grammar. *)
From Verif.Base Require Import BaseFacts.
From Verif.Lexer Require Import Model Spec Proofs.
From Verif.Sexp Require Import Model.
From Verif.Parser Require Import Model Spec ProofsPrim ProofsSound.

Lemma all_ok n :
  (forall fuel, (3 * n + 1 <= fuel)%nat -> sexp_spec (parse_sexp fuel) n) /\
  (forall fuel, (3 * n + 1 <= fuel)%nat -> postfix_spec (parse_postfix fuel) n) /\
  (forall fuel, (3 * n + 2 <= fuel)%nat -> seq_spec (parse_seq fuel) n) /\
  (forall fuel, (3 * n + 3 <= fuel)%nat -> body_spec (parse_body fuel) n).
Proof.
  induction n as [|n (IHs & IHp & IHq & IHb)].
  - assert (Hs : forall fuel, (1 <= fuel)%nat -> sexp_spec (parse_sexp fuel) 0).
    { intros [|fuel] Hf; [lia|]. intros p [|] e errs Hn Hne H; [|cbn in Hn; lia].
      cbn [parse_sexp]. rewrite (next_token_start_st _ _ _ _ H). apply peeked_st in H.
      pose proof (peeked_st _ _ _ _ H) as H2.
      destruct (@error_st srep (t_ "S-expression") _ _ _ _ H2) as (err & E).
      assert (Ec : capture (choose (sexp_alternatives (parse_body fuel) (parse_sexp fuel))
                   (error_expected (t_ "S-expression"))) Sexp (peeked p) = Ret (PErr err, peeked (peeked (peeked p)))).
      { rewrite (capture_eq _ _ _ _ _ _ H). apply pbind_err.
        rewrite choose_norm by apply peeked_norm. rewrite (st_nil_norm _ _ _ H2 (peeked_norm _)). exact E. }
      rewrite (pbind_err _ _ _ _ _ Ec).
      exists (PErr err), (peeked (peeked (peeked p))), [], [], []. split; [reflexivity|]. split; [reflexivity|].
      split; [apply st_errs; apply peeked_st; assumption|]. right; split; [exact I|reflexivity]. }
    assert (Hq : forall fuel, (1 <= fuel)%nat -> seq_spec (parse_seq fuel) 0).
    { intros [|fuel] Hf; [lia|]. intros p [|] e errs r0 Hn Hne H; [|cbn in Hn; lia].
      cbn [parse_seq]. rewrite (should_parse_st _ _ _ _ _ H).
      exists [], (peeked p), [], [], []. rewrite app_nil_r. split; [reflexivity|]. split; [reflexivity|].
      split; [apply st_errs, peeked_st; assumption|]. split; [exact I|]. intros _; constructor. }
    split; [intros fuel Hf; apply Hs; lia|]. split.
    { intros [|fuel] Hf; [lia|]. intros p [|] e errs start s Hn Hne H; [|cbn in Hn; lia].
      rewrite (postfix_none _ _ _ _ _ _ _ H I). exists (POk s), (peeked (peeked (peeked p))), [], [], [].
      split; [reflexivity|]. split; [reflexivity|]. split; [apply st_errs, peeked3; assumption|].
      split; [exact I|]. split; [|auto]. intros _ t pre _ Hg. rewrite app_nil_r; assumption. }
    split; [intros fuel Hf; apply Hq; lia|].
    intros [|fuel] Hf; [lia|]. intros p [|] e errs Hn Hne H; [|cbn in Hn; lia].
    cbn [parse_body].
    destruct (Hq fuel ltac:(lia) _ _ _ _ [] Hn Hne H) as (ss & p1 & used & ts1 & errs1 & E1 & Ets & H1 & Hl & Hg).
    symmetry in Ets. apply app_eq_nil in Ets as [-> ->].
    rewrite (pbind_ok _ _ _ _ _ E1). cbn [app].
    rewrite (pbind_ok _ _ _ _ _ (try_prim_no f_at (t_ "@") p1 [] _ _ H1 I)). apply peeked_st in H1.
    rewrite (pbind_ok _ _ _ _ _ (try_prim_no f_dot (t_ ".") _ [] _ _ H1 I)). apply peeked_st in H1.
    exists (POk (RList ss)), (peeked (peeked p1)), [], [], errs1.
    split; [reflexivity|]. split; [reflexivity|]. split; [assumption|]. intros He; apply g_items; auto.
  - assert (Hp : forall fuel, (3 * S n + 1 <= fuel)%nat -> postfix_spec (parse_postfix fuel) (S n))
      by (apply postfix_step; assumption).
    assert (Hs : forall fuel, (3 * S n + 1 <= fuel)%nat -> sexp_spec (parse_sexp fuel) (S n))
      by (apply sexp_step; assumption).
    assert (Hq : forall fuel, (3 * S n + 2 <= fuel)%nat -> seq_spec (parse_seq fuel) (S n))
      by (apply seq_step; assumption).
    assert (Hb : forall fuel, (3 * S n + 3 <= fuel)%nat -> body_spec (parse_body fuel) (S n))
      by (apply body_step; assumption).
    auto.
Qed.

(** ** Completeness *)

Scheme g_sexp_ind' := Minimality for g_sexp Sort Prop
with g_operand_ind' := Minimality for g_operand Sort Prop
with g_body_ind' := Minimality for g_body Sort Prop
with g_seq_ind' := Minimality for g_seq Sort Prop.
Combined Scheme g_mutind from g_sexp_ind', g_operand_ind', g_body_ind', g_seq_ind'.

Definition starts_ts (ts : list token) : Prop := exists t ts', ts = t :: ts' /\ starts (trep t) = true.

Definition c_sexp (ts : list token) (s : sexp) : Prop :=
  starts_ts ts /\
  forall rest fuel p e errs, st p (ts ++ rest) e errs -> head_not is_postfix rest ->
    (3 * List.length (ts ++ rest) + 1 <= fuel)%nat ->
    exists p', parse_sexp fuel p = Ret (POk s, p') /\ st p' rest (endof ts e) errs.
Definition c_operand (ts : list token) (s : sexp) : Prop :=
  starts_ts ts /\
  forall rest fuel p e errs, st p (ts ++ rest) e errs ->
    (3 * List.length (ts ++ rest) + 1 <= fuel)%nat ->
    exists p' fuel', parse_sexp fuel p = parse_postfix fuel' (start_of ts e) s p' /\
      st p' rest (endof ts e) errs /\ (3 * List.length rest + 1 <= fuel')%nat.
Definition closes (r : tokenrep) : bool := match r with TRParen | TRBrack => true | _ => false end.
Definition c_body (next : location) (ts : list token) (b : srep) : Prop :=
  forall r rest fuel p e errs, st p (ts ++ r :: rest) e errs -> closes (trep r) = true -> tstart r = next ->
    (3 * List.length (ts ++ r :: rest) + 3 <= fuel)%nat ->
    exists p', parse_body fuel p = Ret (POk b, p') /\ st p' (r :: rest) (endof ts e) errs.
Definition c_seq (ts : list token) (ss : list sexp) : Prop :=
  (ts = [] \/ starts_ts ts) /\
  forall rest fuel p e errs r0, st p (ts ++ rest) e errs -> head_not sexp_leading rest ->
    head_not is_postfix rest ->
    (3 * List.length (ts ++ rest) + 2 <= fuel)%nat ->
    exists p', parse_seq fuel r0 p = Ret (POk (r0 ++ ss), p') /\ st p' rest (endof ts e) errs.

Lemma starts_not_postfix ts rest : starts_ts ts -> head_not is_postfix (ts ++ rest).
Proof. intros (t & ts' & -> & H). cbn. destruct (trep t); try discriminate; reflexivity. Qed.

Lemma sexp_unfold fuel p ts e errs b p1 ts1 e1 :
  st p ts e errs ->
  choose (sexp_alternatives (parse_body fuel) (parse_sexp fuel)) (error_expected (t_ "S-expression"))
    (peeked (peeked p)) = Ret (POk b, p1) ->
  st p1 ts1 e1 errs ->
  parse_sexp (S fuel) p = parse_postfix fuel (start_of ts e) (Sexp (start_of ts e, e1) b) p1.
Proof.
  intros H E H1. cbn [parse_sexp]. rewrite (next_token_start_st _ _ _ _ H). apply peeked_st in H.
  fold (start_of ts e).
  match goal with |- pbind (capture ?m ?k) _ _ = _ =>
    assert (Ec : capture m k (peeked p) = Ret (POk (Sexp (start_of ts e, e1) b), p1)) end.
  { rewrite (capture_eq _ _ _ _ _ _ H). rewrite (pbind_ok _ _ _ _ _ E).
    destruct H1 as (_ & -> & _). reflexivity. }
  rewrite (pbind_ok _ _ _ _ _ Ec). reflexivity.
Qed.

Lemma list_between_ok body l r ml mr p t ts x rest e errs b :
  st p (t :: ts ++ x :: rest) e errs -> l (trep t) = Some tt -> r (trep x) = Some tt ->
  (forall p1, st p1 (ts ++ x :: rest) (tend t) errs ->
     exists p2, body p1 = Ret (POk b, p2) /\ st p2 (x :: rest) (endof ts (tend t)) errs) ->
  exists p', list_between body l r ml mr p = Ret (POk b, p') /\ st p' rest (tend x) errs.
Proof.
  intros H Hl Hr Hb. unfold list_between.
  destruct (prim_ok l ml p t _ e errs tt H Hl) as (p1 & E1 & H1). rewrite (pbind_ok _ _ _ _ _ E1).
  destruct (Hb _ H1) as (p2 & E2 & H2). rewrite (pbind_ok _ _ _ _ _ E2).
  destruct (prim_ok r mr p2 x _ _ errs tt H2 Hr) as (p3 & E3 & H3). rewrite (pbind_ok _ _ _ _ _ E3).
  exists p3; split; [reflexivity|assumption].
Qed.

Lemma quoted_complete sx f m sym p t ts rest e errs s :
  st p (t :: ts ++ rest) e errs -> f (trep t) = Some tt ->
  (forall p1, st p1 (ts ++ rest) (tend t) errs ->
     exists p2, sx p1 = Ret (POk s, p2) /\ st p2 rest (endof ts (tend t)) errs) ->
  exists p', quoted sx f m sym p = Ret (POk (RList [Sexp (range [t]) (RSymbol sym); s]), p') /\
    st p' rest (endof ts (tend t)) errs.
Proof.
  intros H Hf Hs. unfold quoted.
  destruct (prim_ok f m _ t (ts ++ rest) e errs tt (peeked_st _ _ _ _ H) Hf) as (p1 & E1 & H1).
  assert (E : capture (_ <- prim f m;; pret (RSymbol sym)) Sexp p =
              Ret (POk (Sexp (range [t]) (RSymbol sym)), p1)).
  { rewrite (capture_eq _ _ _ _ _ _ H). unfold pbind at 1. rewrite (pbind_ok _ _ _ _ _ E1).
    unfold pret. cbn. destruct H1 as (_ & -> & _). reflexivity. }
  rewrite (pbind_ok _ _ _ _ _ E). destruct (Hs _ H1) as (p2 & E2 & H2).
  rewrite (pbind_ok _ _ _ _ _ E2). exists p2; split; [reflexivity|assumption].
Qed.

Lemma starts_leading r : starts r = true -> sexp_leading r = true.
Proof. destruct r; cbn; congruence. Qed.

Lemma range_eq ts e : starts_ts ts -> range ts = (start_of ts e, endof ts e).
Proof. intros (t & ts' & -> & _). apply range_cons. Qed.

Lemma start_of_app a b e : a <> [] -> start_of (a ++ b) e = start_of a e.
Proof. destruct a; [congruence|reflexivity]. Qed.

Lemma starts_nonempty ts : starts_ts ts -> ts <> [].
Proof. intros (t & ts' & -> & _). discriminate. Qed.

Lemma complete :
  (forall ts s, g_sexp ts s -> c_sexp ts s) /\
  (forall ts s, g_operand ts s -> c_operand ts s) /\
  (forall next ts b, g_body next ts b -> c_body next ts b) /\
  (forall ts ss, g_seq ts ss -> c_seq ts ss).
Proof.
  apply g_mutind.
  - (* g_postfixed *)
    intros ts s _ (Hst & IH). split; [assumption|]. intros rest fuel p e errs H Hp Hf.
    destruct (IH rest fuel p e errs H Hf) as (p1 & fuel' & -> & H1 & Hf').
    destruct fuel' as [|fuel']; [lia|]. rewrite (postfix_none _ _ _ _ _ _ _ H1 Hp).
    eexists; split; [reflexivity|apply peeked3; assumption].
  - (* g_prefix *)
    intros q ts sym s Hop _ (Hst & IH). split.
    { exists q, ts. split; [reflexivity|]. inversion Hop; reflexivity. }
    intros rest fuel p e errs H Hp Hf. cbn [app List.length] in *.
    destruct fuel as [|fuel]; [lia|].
    assert (Hsx : forall p1, st p1 (ts ++ rest) (tend q) errs ->
      exists p2, parse_sexp fuel p1 = Ret (POk s, p2) /\ st p2 rest (endof ts (tend q)) errs).
    { intros p1 H1. apply IH; [assumption|assumption|lia]. }
    pose proof (peeked_st _ _ _ _ (peeked_st _ _ _ _ H)) as H2.
    assert (Hbase : exists p', choose (sexp_alternatives (parse_body fuel) (parse_sexp fuel))
      (error_expected (t_ "S-expression")) (peeked (peeked p)) =
      Ret (POk (RList [Sexp (range [q]) (RSymbol sym); s]), p') /\ st p' rest (endof ts (tend q)) errs).
    { rewrite choose_norm by apply peeked_norm. rewrite (st_head_norm _ _ _ _ _ H2 (peeked_norm _)).
      inversion Hop as [E Es|E Es|E Es|E Es|E Es|E Es]; subst sym;
        apply (quoted_complete _ _ _ _ _ q ts rest e errs s H2); try assumption; rewrite <- E; reflexivity. }
    destruct Hbase as (p1 & E1 & H1).
    rewrite (sexp_unfold _ _ _ _ _ _ _ _ _ H E1 H1).
    destruct fuel as [|fuel]; [lia|].
    rewrite (postfix_none _ _ _ _ _ _ _ H1 Hp).
    exists (peeked (peeked (peeked p1))). split; [|apply peeked3; assumption].
    do 3 f_equal. f_equal. rewrite (range_cons q ts e). reflexivity.
  - (* g_atom *)
    intros t r Ha. split.
    { exists t, []. split; [reflexivity|]. inversion Ha; reflexivity. }
    intros rest fuel p e errs H Hf. cbn [app List.length] in *. destruct fuel as [|fuel]; [lia|].
    pose proof (peeked_st _ _ _ _ (peeked_st _ _ _ _ H)) as H2.
    destruct (atom_ok (parse_body fuel) (parse_sexp fuel) (t_ "S-expression") _ t rest e errs r
                (peeked_norm _) H2 Ha) as (p1 & E1 & H1).
    rewrite (sexp_unfold _ _ _ _ _ _ _ _ _ H E1 H1).
    exists p1, fuel. split; [reflexivity|]. split; [assumption|lia].
  - (* g_brackets *)
    intros l ts r body Hbr _ IH. split.
    { exists l, (ts ++ [r]). split; [reflexivity|]. inversion Hbr; reflexivity. }
    intros rest fuel p e errs H Hf. cbn [app] in *. rewrite <- app_assoc in *. cbn [app List.length] in *.
    destruct fuel as [|fuel]; [lia|].
    pose proof (peeked_st _ _ _ _ (peeked_st _ _ _ _ H)) as H2.
    assert (Hbody : forall p1, st p1 (ts ++ r :: rest) (tend l) errs ->
      exists p2, parse_body fuel p1 = Ret (POk body, p2) /\ st p2 (r :: rest) (endof ts (tend l)) errs).
    { intros p1 H1. apply IH; [assumption|inversion Hbr; reflexivity|reflexivity|lia]. }
    assert (Hbase : exists p', choose (sexp_alternatives (parse_body fuel) (parse_sexp fuel))
      (error_expected (t_ "S-expression")) (peeked (peeked p)) = Ret (POk body, p') /\ st p' rest (tend r) errs).
    { rewrite choose_norm by apply peeked_norm. rewrite (st_head_norm _ _ _ _ _ H2 (peeked_norm _)).
      inversion Hbr as [E1 E2|E1 E2];
        apply (list_between_ok _ _ _ _ _ _ l ts r rest e errs body H2); try assumption;
        rewrite <- ?E1, <- ?E2; reflexivity. }
    destruct Hbase as (p1 & E1 & H1).
    rewrite (sexp_unfold _ _ _ _ _ _ _ _ _ H E1 H1).
    exists p1, fuel. split; [|split].
    + f_equal. f_equal. rewrite (range_cons l _ e). cbn [start_of]. f_equal.
      change (l :: ts ++ [r]) with ((l :: ts) ++ [r]). rewrite endof_app. reflexivity.
    + change (l :: ts ++ [r]) with ((l :: ts) ++ [r]). rewrite endof_app. exact H1.
    + rewrite app_length in Hf. cbn in Hf. lia.
  - (* g_postfix *)
    intros ts s op sym _ (Hst & IH) Hop. split.
    { destruct Hst as (t & ts' & -> & Ht). exists t, (ts' ++ [op]). auto. }
    intros rest fuel p e errs H Hf. rewrite <- app_assoc in *. cbn [app] in *.
    destruct (IH (op :: rest) fuel p e errs H Hf) as (p1 & fuel' & -> & H1 & Hf').
    destruct fuel' as [|fuel']; [lia|]. cbn [List.length] in Hf'.
    assert (Hr : range (ts ++ [op]) = (start_of ts e, tend op)).
    { destruct Hst as (t & ts' & -> & _). cbn [app]. rewrite (range_cons t _ e). cbn [start_of]. f_equal.
      change (t :: ts' ++ [op]) with ((t :: ts') ++ [op]). rewrite endof_app. reflexivity. }
    rewrite Hr, endof_app, (start_of_app _ _ _ (starts_nonempty _ Hst)).
    inversion Hop as [E|E]; symmetry in E.
    + destruct (postfix_question fuel' (start_of ts e) s p1 op rest _ _ H1 E) as (p2 & E2 & Hpf).
      exists p2, fuel'. split; [exact E2|]. split; [assumption|lia].
    + destruct (postfix_exclamation fuel' (start_of ts e) s p1 op rest _ _ H1 E) as (p2 & E2 & Hpf).
      exists p2, fuel'. split; [exact E2|]. split; [assumption|lia].
  - (* g_annotate *)
    intros ts s l tss ss r _ (Hst & IH) Hl _ (_ & IHs) Hr. split.
    { destruct Hst as (t & ts' & -> & Ht). exists t, (ts' ++ l :: tss ++ [r]). auto. }
    intros rest fuel p e errs H Hf. rewrite <- app_assoc in *. cbn [app] in *. rewrite <- app_assoc in *.
    cbn [app] in *.
    destruct (IH (l :: tss ++ r :: rest) fuel p e errs H Hf) as (p1 & fuel' & -> & H1 & Hf').
    destruct fuel' as [|fuel']; [lia|]. cbn [List.length] in Hf'.
    destruct (postfix_lbrace fuel' (start_of ts e) s p1 l _ _ _ H1 Hl) as (p2 & E2 & H2).
    destruct (IHs (r :: rest) fuel' p2 _ _ [] H2) as (p3 & E3 & H3);
      [cbn; rewrite Hr; reflexivity|cbn; rewrite Hr; reflexivity|lia|].
    destruct (prim_ok f_rbrace (t_ "}") p3 r rest _ _ tt H3 ltac:(rewrite Hr; reflexivity)) as (p4 & E4 & H4).
    exists p4, fuel'. rewrite app_length in Hf'. cbn in Hf'.
    assert (Hrg : range (ts ++ l :: tss ++ [r]) = (start_of ts e, tend r)).
    { destruct Hst as (t & ts' & -> & _). cbn [app]. rewrite (range_cons t _ e). cbn [start_of]. f_equal.
      change (t :: ts' ++ l :: tss ++ [r]) with ((t :: ts') ++ (l :: tss) ++ [r]). rewrite !endof_app. reflexivity. }
    split; [|split; [|lia]].
    + rewrite E2, (pbind_ok _ _ _ _ _ E3), (pbind_ok _ _ _ _ _ E4). cbn [app].
      rewrite Hrg, (start_of_app _ _ _ (starts_nonempty _ Hst)).
      assert (El : latest_token_end p4 = tend r) by apply H4. rewrite El. reflexivity.
    + change (l :: tss ++ [r]) with ((l :: tss) ++ [r]). rewrite app_assoc, endof_app. exact H4.
  - (* g_items *)
    intros next ts ss _ (_ & IH) r rest fuel p e errs H Hc Hn Hf.
    destruct fuel as [|fuel]; [lia|]. cbn [parse_body].
    destruct (IH (r :: rest) fuel p e errs [] H) as (p1 & E1 & H1);
      [cbn; destruct (trep r); try discriminate; reflexivity|cbn; destruct (trep r); try discriminate; reflexivity|lia|].
    rewrite (pbind_ok _ _ _ _ _ E1). cbn [app].
    rewrite (pbind_ok _ _ _ _ _ (try_prim_no f_at (t_ "@") p1 _ _ _ H1 ltac:(cbn; destruct (trep r); try discriminate; reflexivity))).
    apply peeked_st in H1.
    rewrite (pbind_ok _ _ _ _ _ (try_prim_no f_dot (t_ ".") _ _ _ _ H1 ltac:(cbn; destruct (trep r); try discriminate; reflexivity))).
    apply peeked_st in H1. eexists; split; [reflexivity|assumption].
  - (* g_spread *)
    intros next ts ss at_ bts body _ (_ & IHs) Hat _ IHb r rest fuel p e errs H Hc Hn Hf.
    rewrite <- app_assoc in *. cbn [app] in *.
    destruct fuel as [|fuel]; [lia|]. cbn [parse_body].
    destruct (IHs (at_ :: bts ++ r :: rest) fuel p e errs [] H) as (p1 & E1 & H1);
      [cbn; rewrite Hat; reflexivity|cbn; rewrite Hat; reflexivity|lia|].
    rewrite (pbind_ok _ _ _ _ _ E1). cbn [app].
    destruct (try_prim_ok f_at (t_ "@") p1 at_ _ _ _ tt H1 ltac:(rewrite Hat; reflexivity)) as (p2 & E2 & H2).
    rewrite (pbind_ok _ _ _ _ _ E2).
    rewrite app_length in Hf; cbn in Hf.
    destruct (IHb r rest fuel _ _ _ (peeked_st _ _ _ _ H2) Hc Hn ltac:(lia)) as (p3 & E3 & H3).
    assert (Ec : capture (parse_body fuel) Sexp p2 =
       Ret (POk (Sexp (start_of (bts ++ r :: rest) (tend at_), endof bts (tend at_)) body), p3)).
    { rewrite (capture_eq _ _ _ _ _ _ H2), (pbind_ok _ _ _ _ _ E3).
      destruct H3 as (_ & -> & _). reflexivity. }
    rewrite (pbind_ok _ _ _ _ _ Ec). exists p3. split.
    + unfold pret. do 7 f_equal. destruct bts as [|b bts]; cbn [app start_of].
      * rewrite Hn. reflexivity.
      * rewrite (range_cons b bts (tend at_)). reflexivity.
    + rewrite endof_app. exact H3.
  - (* g_dot *)
    intros next dot ts s Hdot _ (Hst & IH) r rest fuel p e errs H Hc Hn Hf. cbn [app List.length] in *.
    destruct fuel as [|fuel]; [lia|]. cbn [parse_body].
    destruct fuel as [|fuel]; [lia|].
    assert (E0 : parse_seq (S fuel) [] p = Ret (POk [], peeked p)).
    { cbn [parse_seq]. rewrite (should_parse_st _ _ _ _ _ H). rewrite Hdot. reflexivity. }
    rewrite (pbind_ok _ _ _ _ _ E0). apply peeked_st in H.
    rewrite (pbind_ok _ _ _ _ _ (try_prim_no f_at (t_ "@") _ _ _ _ H ltac:(cbn; rewrite Hdot; reflexivity))).
    apply peeked_st in H.
    destruct (try_prim_ok f_dot (t_ ".") _ dot _ _ _ tt H ltac:(rewrite Hdot; reflexivity)) as (p2 & E2 & H2).
    rewrite (pbind_ok _ _ _ _ _ E2).
    destruct (IH (r :: rest) (S fuel) p2 _ _ H2) as (p3 & E3 & H3);
      [cbn; destruct (trep r); try discriminate; reflexivity|lia|].
    rewrite (pbind_ok _ _ _ _ _ E3). exists p3; split; [reflexivity|assumption].
  - (* g_dotted *)
    intros next ts h ss dot lts last b _ (_ & IHs) Hdot _ (Hst & IH) Hd r rest fuel p e errs H Hc Hn Hf.
    rewrite <- app_assoc in *. cbn [app] in *.
    destruct fuel as [|fuel]; [lia|]. cbn [parse_body].
    destruct (IHs (dot :: lts ++ r :: rest) fuel p e errs [] H) as (p1 & E1 & H1);
      [cbn; rewrite Hdot; reflexivity|cbn; rewrite Hdot; reflexivity|lia|].
    rewrite (pbind_ok _ _ _ _ _ E1). cbn [app].
    rewrite (pbind_ok _ _ _ _ _ (try_prim_no f_at (t_ "@") _ _ _ _ H1 ltac:(cbn; rewrite Hdot; reflexivity))).
    apply peeked_st in H1.
    destruct (try_prim_ok f_dot (t_ ".") _ dot _ _ _ tt H1 ltac:(rewrite Hdot; reflexivity)) as (p2 & E2 & H2).
    rewrite (pbind_ok _ _ _ _ _ E2).
    rewrite app_length in Hf; cbn in Hf.
    destruct (IH (r :: rest) fuel p2 _ _ H2) as (p3 & E3 & H3);
      [cbn; destruct (trep r); try discriminate; reflexivity|lia|].
    rewrite (pbind_ok _ _ _ _ _ E3). exists p3. split.
    + unfold pret. do 3 f_equal. unfold rep_list_like.
      destruct Hd as [l ys|l h' ys z|l r' Hn1 Hn2]; cbn [rep]; try reflexivity.
      destruct r' as [| | | | |ys|h' ys z| |]; try reflexivity; [elim (Hn1 ys)|elim (Hn2 h' ys z)]; reflexivity.
    + rewrite endof_app. exact H3.
  - (* g_nil *)
    split; [left; reflexivity|]. intros rest fuel p e errs r0 H Hl Hp Hf. cbn [app] in *.
    destruct fuel as [|fuel]; [lia|]. cbn [parse_seq]. rewrite (should_parse_st _ _ _ _ _ H).
    exists (peeked p). rewrite app_nil_r. split; [|apply peeked_st; assumption].
    destruct rest as [|t rest]; [reflexivity|]. cbn in Hl. rewrite Hl. reflexivity.
  - (* g_cons *)
    intros ts s tss ss _ (Hst & IH) _ (Hst2 & IHs). split.
    { right. destruct Hst as (t & ts' & -> & Ht). exists t, (ts' ++ tss). auto. }
    intros rest fuel p e errs r0 H Hl Hp Hf. rewrite <- app_assoc in *.
    destruct fuel as [|fuel]; [lia|]. cbn [parse_seq]. rewrite (should_parse_st _ _ _ _ _ H).
    assert (El : match ts ++ tss ++ rest with t :: _ => sexp_leading (trep t) | [] => false end = true).
    { destruct Hst as (t & ts' & -> & Ht). cbn. apply starts_leading; assumption. }
    rewrite El. apply peeked_st in H.
    destruct (IH (tss ++ rest) fuel _ _ _ H) as (p1 & E1 & H1); [|lia|].
    { destruct Hst2 as [->|Hst2]; [assumption|apply starts_not_postfix; assumption]. }
    unfold swallow. rewrite E1. cbn [bind].
    rewrite app_length in Hf.
    assert (Hlen : (1 <= List.length ts)%nat) by (destruct Hst as (t & ts' & -> & _); cbn; lia).
    unfold try_parse. unfold pbind at 1. rewrite (should_parse_st _ _ _ _ _ H1).
    apply peeked_st in H1.
    destruct (IHs rest fuel _ _ _ (r0 ++ [s]) H1 Hl Hp ltac:(lia)) as (p2 & E2 & H2).
    rewrite <- app_assoc in E2. cbn [app] in E2.
    rewrite endof_app.
    destruct (tss ++ rest) as [|x xs] eqn:Etr.
    + unfold pret; cbn [bind]. apply app_eq_nil in Etr as [-> ->]. exists (peeked p1).
      destruct fuel as [|fuel]; [lia|]. cbn [parse_seq] in E2. rewrite (should_parse_st _ _ _ _ _ H1) in E2.
      unfold pret in E2. injection E2 as E2 _.
      rewrite E2. split; [reflexivity|assumption].
    + unfold pbind, pret; cbn [bind]. exists p2. split; [assumption|assumption].
Qed.

(** ** Whole files *)

Lemma significant_length ts : (List.length (significant ts) <= List.length ts)%nat.
Proof. unfold significant. induction ts as [|t ts IH]; cbn; [lia|]. destruct (negb (is_ambient (trep t))); cbn; lia. Qed.

Definition initial (tokens : list token) : pstate :=
  {| toks := tokens; latest_token_end := location_new; inner_errors := [] |}.

Lemma initial_st tokens : st (initial tokens) (significant tokens) location_new [].
Proof. repeat split. Qed.

Lemma range_any ts : (start_of ts location_new, endof ts location_new) = range ts.
Proof. destruct ts as [|t ts]; [reflexivity|]. rewrite (range_cons t ts location_new). reflexivity. Qed.

Lemma parse_total tokens : no_eof (significant tokens) ->
  exists r errs, parse tokens = Ret (r, errs) /\
    (forall f, r = POk f -> errs = [] -> g_file tokens f).
Proof.
  intros Hne. unfold parse. fold (initial tokens).
  pose proof (initial_st tokens) as H. unfold parse_ss. rewrite (capture_eq _ _ _ _ _ _ H).
  apply peeked_st in H. pose proof (significant_length tokens) as Hlen.
  destruct (all_ok (List.length (significant tokens))) as (_ & _ & Hq & _).
  destruct (Hq (3 * List.length tokens + 3)%nat ltac:(lia) _ _ _ _ [] (le_n _) Hne H)
    as (ss & p1 & used & ts1 & errs1 & E1 & Ets & H1 & Hl & Hg).
  cbn [app] in *. unfold pbind at 1. rewrite (pbind_ok _ _ _ _ _ E1).
  unfold parse_eof at 1. unfold pbind at 1. rewrite (peek_st _ _ _ _ H1).
  pose proof (peeked_st _ _ _ _ H1) as H2.
  destruct ts1 as [|t ts1]; cbn [hd_error].
  - unfold pret; cbn [bind].
    eexists _, _. split; [reflexivity|]. intros f Hf He. injection Hf as <-.
    unfold g_file. cbn [fst snd].
    destruct H2 as (_ & El & Eerr). rewrite Eerr in He. subst errs1.
    rewrite app_nil_r in Ets. rewrite Ets. split; [auto|]. etransitivity; [|apply range_any]. f_equal; exact El.
  - destruct (@error_st unit (t_ "eof") _ _ _ _ H2) as (err & E). rewrite E. cbn [bind].
    eexists _, _. split; [reflexivity|]. discriminate.
Qed.

Lemma parse_complete tokens f : g_file tokens f -> parse tokens = Ret (POk f, []).
Proof.
  destruct f as [l ss]. intros (Hg & Hl). cbn [fst snd] in *. subst l.
  unfold parse. fold (initial tokens).
  pose proof (initial_st tokens) as H. unfold parse_ss. rewrite (capture_eq _ _ _ _ _ _ H).
  apply peeked_st in H. pose proof (significant_length tokens) as Hlen.
  destruct complete as (_ & _ & _ & Hc). destruct (Hc _ _ Hg) as (_ & Hc'). clear Hc.
  rewrite <- (app_nil_r (significant tokens)) in H.
  destruct (Hc' [] (3 * List.length tokens + 3)%nat _ _ _ [] H I I) as (p1 & E1 & H1).
  { rewrite app_nil_r. lia. }
  cbn [app] in E1. unfold pbind at 1. rewrite (pbind_ok _ _ _ _ _ E1).
  unfold parse_eof at 1. unfold pbind at 1. rewrite (peek_st _ _ _ _ H1).
  pose proof (peeked_st _ _ _ _ H1) as H2. cbn [hd_error]. unfold pret; cbn [bind].
  destruct H2 as (_ & El & Eerr). rewrite El, Eerr. do 3 f_equal. f_equal. apply range_any.
Qed.

Lemma no_eof_significant tokens : no_eof tokens -> no_eof (significant tokens).
Proof.
  unfold no_eof, significant. rewrite !Forall_forall. intros H x Hx. apply filter_In in Hx as [Hx _]. auto.
Qed.

Lemma parse_exact_ok tokens f : no_eof tokens ->
  (parse tokens = Ret (POk f, []) <-> g_file tokens f).
Proof.
  intros Hne. split; [|apply parse_complete]. intros H.
  destruct (parse_total tokens (no_eof_significant _ Hne)) as (r & errs & E & Hg).
  rewrite E in H. injection H as -> ->. auto.
Qed.

Lemma parse_errors tokens : no_eof tokens ->
  (exists r errs, parse tokens = Ret (r, errs) /\
     ((exists e, aggregate_errors (r, errs) = PErr e) <-> ~ exists f, g_file tokens f)).
Proof.
  intros Hne. destruct (parse_total tokens (no_eof_significant _ Hne)) as (r & errs & E & Hg).
  exists r, errs. split; [assumption|]. split.
  - intros (e & He) (f & Hf). apply parse_complete in Hf. rewrite Hf in E. injection E as <- <-. discriminate.
  - intros Hno. destruct r as [f|e]; [destruct errs as [|e errs]|]; cbn; eauto.
    exfalso. apply Hno. exists f. auto.
Qed.

Lemma g_file_functional ts f1 f2 : g_file ts f1 -> g_file ts f2 -> f1 = f2.
Proof. intros H1 H2. apply parse_complete in H1, H2. rewrite H1 in H2. congruence. Qed.

Lemma tokenised_no_eof b t toks : tokenised b t toks -> no_eof toks.
Proof.
  induction 1 as [|b s rest r toks _ Ht _ IH]; constructor; [|assumption]. cbn.
  intros ->. inversion Ht as [| | |? ? ? ? ? ? Hw| | | | | | | | | | | | | | | | | | | | | | |]. inversion Hw.
Qed.

Lemma parse_text_total t : exists toks r errs, lex t = Ret toks /\ parse toks = Ret (r, errs) /\
  (forall f, (r = POk f /\ errs = []) <-> g_file toks f).
Proof.
  destruct (lex_total t) as (toks & E). pose proof E as Ht. apply lex_iff in Ht.
  apply tokenised_no_eof in Ht.
  destruct (parse_total _ (no_eof_significant _ Ht)) as (r & errs & Ep & Hg).
  exists toks, r, errs. split; [assumption|]. split; [assumption|]. intros f. split.
  - intros [-> ->]. auto.
  - intros Hf. apply parse_complete in Hf. rewrite Hf in Ep. injection Ep as <- <-. auto.
Qed.

(** An end-of-file token makes the recovering loop spin. *)
Lemma eof_spins fuel t r0 p e errs : trep t = TEof -> st p [t] e errs ->
  parse_seq fuel r0 p = OutOfFuel.
Proof.
  intros Ht. revert r0 p e errs. induction fuel as [|fuel IH]; intros r0 p e errs H; [reflexivity|].
  cbn [parse_seq]. rewrite (should_parse_st _ _ _ _ _ H). rewrite Ht. cbn [sexp_leading].
  apply peeked_st in H. destruct fuel as [|fuel]; [reflexivity|].
  assert (E : exists err p', parse_sexp (S fuel) (peeked p) = Ret (PErr err, p') /\ st p' [t] e errs).
  { cbn [parse_sexp]. rewrite (next_token_start_st _ _ _ _ H). apply peeked_st in H.
    pose proof (peeked_st _ _ _ _ H) as H2.
    destruct (@error_st srep (t_ "S-expression") _ _ _ _ H2) as (err & E).
    match goal with |- context [capture ?m ?k] =>
      assert (Ec : capture m k (peeked (peeked p)) = Ret (PErr err, peeked (peeked (peeked (peeked p))))) end.
    { rewrite (capture_eq _ _ _ _ _ _ H). apply pbind_err.
      rewrite choose_norm by apply peeked_norm. rewrite (st_head_norm _ _ _ _ _ H2 (peeked_norm _)).
      cbn [fold_right sexp_alternatives]. rewrite Ht. cbn. exact E. }
    rewrite (pbind_err _ _ _ _ _ Ec). eexists _, _. split; [reflexivity|]. apply peeked_st; assumption. }
  destruct E as (err & p' & E & H').
  unfold swallow. rewrite E. cbn [bind].
  destruct H' as (Hs & He & Hr).
  destruct (skip_st (toks p') {| toks := toks p'; latest_token_end := latest_token_end p';
              inner_errors := inner_errors p' ++ [err] |} _ _ eq_refl eq_refl) as (used & ts' & Eu & _ & Hf & H3).
  rewrite Hs in Eu.
  assert (used = []) as ->.
  { destruct used as [|u us]; [reflexivity|]. injection Eu as <- _. inversion Hf as [|? ? Hu _]; subst.
    rewrite Ht in Hu. discriminate. }
  cbn in Eu. subst ts'. cbn [latest_token_end inner_errors toks] in *.
  unfold try_parse. unfold pbind at 1. rewrite (should_parse_st _ _ _ _ _ H3).
  unfold pbind, pret; cbn [bind]. eapply IH. apply peeked_st. exact H3.
Qed.

Lemma eof_diverges fuel t : trep t = TEof -> parse_ss fuel (initial [t]) = OutOfFuel.
Proof.
  intros Ht. assert (H : st (initial [t]) [t] location_new []).
  { unfold st, initial, significant; cbn. rewrite Ht. auto. }
  unfold parse_ss. rewrite (capture_eq _ _ _ _ _ _ H). apply peeked_st in H.
  unfold pbind. rewrite (eof_spins _ _ _ _ _ _ Ht H). reflexivity.
Qed.
