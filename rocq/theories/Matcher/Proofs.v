(** Matching is exact. *)
From Verif.Base Require Import Base BaseFacts.
From Verif.Lexer Require Import Model.
From Verif.Sexp Require Import Model.
From Verif.Matcher Require Import Model Spec.

Definition exact (m : matcher) : Prop := forall s, match match_sexp m s with
  | inl v => forall w, forms m s w <-> w = v
  | inr e => (forall w, ~ forms m s w) /\ exists s', within s' s /\ sloc s' = e_loc e /\ forall w, ~ forms (e_expect e) s' w
  end.

(** The helpers of the model and of the specification, as definitions of their own. *)
Definition slice := match_slice match_sexp.
Definition each := match_each match_sexp.
Definition slice_forms := forms_slice forms.
Definition each_forms := forms_each forms.

Lemma match_tuple ms s : match_sexp (MTuple ms) s = match rep s with
  | RList ss => if Nat.eqb (List.length ss) (List.length ms) then match each ms ss with inl vs => inl (VTuple vs) | inr e => inr e end else failure (MTuple ms) s
  | _ => failure (MTuple ms) s end.
Proof. reflexivity. Qed.
Lemma match_rest ms t s : match_sexp (MTupleRest ms t) s = match rep s with
  | RList ss => if Nat.leb (List.length ms) (List.length ss) then
      match each ms ss with
      | inl vs => match slice t (skipn (List.length ms) ss) with inl v => inl (VTupleRest vs v) | inr e => inr e end
      | inr e => inr e end
    else failure (MTupleRest ms t) s
  | _ => failure (MTupleRest ms t) s end.
Proof. reflexivity. Qed.
Lemma forms_tuple ms s v : forms (MTuple ms) s v <-> exists ss vs, rep s = RList ss /\ v = VTuple vs /\ each_forms ms ss vs.
Proof. reflexivity. Qed.
Lemma forms_rest ms t s v : forms (MTupleRest ms t) s v <-> exists ss ss' vs w, rep s = RList (ss ++ ss') /\ v = VTupleRest vs w /\ each_forms ms ss vs /\ slice_forms t ss' w.
Proof. reflexivity. Qed.

Definition blames (e : error) (ss : list sexp) : Prop := exists x s', In x ss /\ within s' x /\ sloc s' = e_loc e /\ forall w, ~ forms (e_expect e) s' w.

Lemma slice_exact t ss : exact t -> match slice t ss with
  | inl v => forall w, slice_forms t ss w <-> w = v
  | inr e => (forall w, ~ slice_forms t ss w) /\ blames e ss
  end.
Proof.
  intros Ht.
  assert (H : match collect (match_sexp t) ss with
    | inl vs => forall ws, Forall2 (forms t) ss ws <-> ws = vs
    | inr e => (forall ws, ~ Forall2 (forms t) ss ws) /\ blames e ss end).
  { induction ss as [|s ss IH]; cbn [collect].
    - intros ws. split; [intros H; inversion H; reflexivity|intros ->; constructor].
    - specialize (Ht s). destruct (match_sexp t s) as [v|e].
      + destruct (collect (match_sexp t) ss) as [vs|e].
        * intros ws. split; [intros H; inversion H as [|? w ? ws' H1 H2]; subst; apply Ht in H1; apply IH in H2; congruence|]. intros ->. constructor; [apply Ht; reflexivity|apply IH; reflexivity].
        * destruct IH as (IH & x & s' & Hx & H). split; [intros ws H'; inversion H'; subst; eapply IH; eassumption|]. exists x, s'. split; [right; exact Hx|exact H].
      + destruct Ht as (Hn & s' & H). split; [intros ws H'; inversion H'; subst; eapply Hn; eassumption|]. exists s, s'. split; [left; reflexivity|exact H]. }
  unfold slice, match_slice, slice_forms, forms_slice. destruct t; try (destruct (collect _ ss) as [vs|e]; [intros w; split; [intros (ws & -> & Hw); apply H in Hw; congruence|intros ->; exists vs; split; [reflexivity|apply H; reflexivity]]|destruct H as (H & Hb); split; [intros w (ws & _ & Hw); exact (H ws Hw)|exact Hb]]).
  intros w. reflexivity.
Qed.

Lemma each_forms_len ms : forall ss vs, each_forms ms ss vs -> List.length ss = List.length ms.
Proof. induction ms as [|m ms IH]; intros [|s ss] [|v vs] H; cbn in H; try contradiction; [reflexivity|]. cbn. f_equal. eapply IH, H. Qed.

Lemma each_exact ms : Forall exact ms -> forall ss, List.length ms <= List.length ss -> match each ms ss with
  | inl vs => forall ws, each_forms ms (firstn (List.length ms) ss) ws <-> ws = vs
  | inr e => (forall ws, ~ each_forms ms (firstn (List.length ms) ss) ws) /\ blames e ss
  end.
Proof.
  induction 1 as [|m ms Hm Hms IH]; intros ss Hl.
  - cbn. destruct ss; intros [|w ws]; cbn; split; congruence || tauto.
  - destruct ss as [|s ss]; [cbn in Hl; lia|]. cbn in Hl. specialize (IH ss ltac:(lia)). specialize (Hm s). unfold each, each_forms in *. cbn [match_each]. destruct (match_sexp m s) as [v|e].
    + destruct (match_each match_sexp ms ss) as [vs|e].
      * intros ws. destruct ws as [|w ws]; cbn [List.length firstn each_forms forms_each]; [split; [tauto|discriminate]|]. rewrite Hm, IH. split; [intros (-> & ->); reflexivity|intros E; injection E as -> ->; auto].
      * destruct IH as (IH & x & s' & Hx & H). split; [intros [|w ws]; cbn [List.length firstn each_forms forms_each]; [tauto|]; intros (_ & Hw); exact (IH ws Hw)|]. exists x, s'. split; [right; exact Hx|exact H].
    + destruct Hm as (Hn & s' & H). split; [intros [|w ws]; cbn [List.length firstn each_forms forms_each]; [tauto|]; intros (Hw & _); exact (Hn w Hw)|]. exists s, s'. split; [left; reflexivity|exact H].
Qed.

Lemma self_blame m s : (forall w, ~ forms m s w) -> match failure m s with
  | inl v => forall w, forms m s w <-> w = v
  | inr e => (forall w, ~ forms m s w) /\ exists s', within s' s /\ sloc s' = e_loc e /\ forall w, ~ forms (e_expect e) s' w
  end.
Proof. intros H. cbn. split; [exact H|]. exists s. split; [constructor|]. split; [reflexivity|exact H]. Qed.

Lemma part_blame (P : Prop) e l ss : P -> blames e ss -> P /\ exists s', within s' (Sexp l (RList ss)) /\ sloc s' = e_loc e /\ forall w, ~ forms (e_expect e) s' w.
Proof. intros HP (x & s' & Hx & Hw & H). split; [exact HP|]. exists s'. split; [econstructor; eassumption|exact H]. Qed.

(** Induction over matchers, through lists of them. *)
Definition matcher_rect' (P : matcher -> Prop)
  (hany : P MAny) (hsym : P MSymbol) (hstr : P MString) (hnat : P MNative) (hname : P MName) (hlist : forall t, P t -> P (MList t)) (hunit : P MUnit)
  (htuple : forall ms, Forall P ms -> P (MTuple ms)) (hrest : forall ms t, Forall P ms -> P t -> P (MTupleRest ms t))
  (heither : forall l r, P l -> P r -> P (MEither l r)) (hann : forall t s, P t -> P s -> P (MAnnotatable t s)) (hpar : forall t s, P t -> P s -> P (MParameterizable t s)) : forall m, P m :=
  fix go m := let all := fix all ms : Forall P ms := match ms with [] => Forall_nil P | m :: ms => Forall_cons m (go m) (all ms) end in
  match m with
  | MAny => hany | MSymbol => hsym | MString => hstr | MNative => hnat | MName => hname
  | MList t => hlist t (go t) | MUnit => hunit | MTuple ms => htuple ms (all ms) | MTupleRest ms t => hrest ms t (all ms) (go t)
  | MEither l r => heither l r (go l) (go r) | MAnnotatable t s => hann t s (go t) (go s) | MParameterizable t s => hpar t s (go t) (go s)
  end.

Lemma annotated_dec s : (exists l body ann, rep s = RList (Sexp l (RSymbol ANNOTATE) :: body :: ann)) \/ (forall l body ann, rep s <> RList (Sexp l (RSymbol ANNOTATE) :: body :: ann)).
Proof.
  destruct (rep s) as [| | | | |ss| | |]; try (right; intros; discriminate). destruct ss as [|[l [| |h| | | | | |]] [|body ann]]; try (right; intros; discriminate).
  destruct (text_eqb h ANNOTATE) eqn:E; [left; apply text_eqb_eq in E; subst h; eauto|]. right. intros l' b' a' H. injection H as _ -> _ _. rewrite text_eqb_refl in E. discriminate.
Qed.

Lemma match_exact : forall m, exact m.
Proof.
  induction m as [| | | | |t IHt| |ms IHms|ms t IHms IHt|l r IHl IHr|t a IHt IHa|t p IHt IHp] using matcher_rect'; intros s.
  - cbn. reflexivity.
  - cbn [match_sexp]. destruct s as [l []]; cbn [rep]; try (apply self_blame; intros w (t & E & _); discriminate). intros w. cbn. split; [intros (t & E & ->); congruence|intros ->; eauto].
  - cbn [match_sexp]. destruct s as [l []]; cbn [rep]; try (apply self_blame; intros w (t & E & _); discriminate). intros w. cbn. split; [intros (t & E & ->); congruence|intros ->; eauto].
  - cbn [match_sexp]. destruct s as [l []]; cbn [rep]; try (apply self_blame; intros w (t & E & _); discriminate). intros w. cbn. split; [intros (t & E & ->); congruence|intros ->; eauto].
  - cbn [match_sexp]. destruct s as [l []]; cbn [rep]; try (apply self_blame; intros w (t & E & _); discriminate). intros w. cbn. split; [intros (t & E & ->); congruence|intros ->; eauto].
  - change (match_sexp (MList t) s) with (match rep s with RList ss => slice t ss | _ => failure (MList t) s end).
    destruct s as [l r]; destruct r; cbn [rep]; try (apply self_blame; intros w (ss & E & _); discriminate).
    pose proof (slice_exact t l0 IHt) as H. destruct (slice t l0) as [v|e].
    + intros w. rewrite <- H. cbn. change (exists ss, RList l0 = RList ss /\ slice_forms t ss w <-> slice_forms t l0 w) || idtac. split; [intros (ss & E & Hw); injection E as <-; exact Hw|intros Hw; exists l0; split; [reflexivity|exact Hw]].
    + destruct H as (H & Hb). apply part_blame; [|exact Hb]. intros w (ss & E & Hw). cbn in E. injection E as <-. exact (H w Hw).
  - cbn [match_sexp]. destruct s as [l r]; destruct r; cbn [rep]; try (apply self_blame; intros w (E & _); discriminate). destruct l0; [|apply self_blame; intros w (E & _); discriminate]. intros w. cbn. split; [intros (_ & ->); reflexivity|auto].
  - rewrite match_tuple. destruct s as [l r]; destruct r; cbn [rep]; try (apply self_blame; intros w (ss & vs & E & _); discriminate).
    destruct (Nat.eqb_spec (List.length l0) (List.length ms)) as [El|Hl].
    + pose proof (each_exact ms IHms l0 ltac:(lia)) as H. rewrite <- El, firstn_all in H. destruct (each ms l0) as [vs|e].
      * intros w. rewrite forms_tuple. split; [intros (ss & ws & E & -> & Hw); cbn in E; injection E as <-; apply H in Hw; congruence|intros ->; exists l0, vs; split; [reflexivity|split; [reflexivity|apply H; reflexivity]]].
      * destruct H as (H & Hb). apply part_blame; [|exact Hb]. intros w Hw. apply forms_tuple in Hw. destruct Hw as (ss & ws & E & _ & Hw). cbn in E. injection E as <-. exact (H ws Hw).
    + apply self_blame. intros w Hw. apply forms_tuple in Hw. destruct Hw as (ss & ws & E & _ & Hw). cbn in E. injection E as <-. apply each_forms_len in Hw. contradiction.
  - rewrite match_rest. destruct s as [l r]; destruct r; cbn [rep]; try (apply self_blame; intros w (ss & ss' & vs & v0 & E & _); discriminate).
    assert (Hsplit : forall w, forms (MTupleRest ms t) (Sexp l (RList l0)) w <-> List.length ms <= List.length l0 /\ exists vs v, w = VTupleRest vs v /\ each_forms ms (firstn (List.length ms) l0) vs /\ slice_forms t (skipn (List.length ms) l0) v).
    { intros w. rewrite forms_rest. cbn [rep]. split.
      - intros (ss & ss' & vs & v & E & -> & H1 & H2). injection E as ->. pose proof (each_forms_len _ _ _ H1) as El. rewrite <- El, app_length. split; [lia|]. exists vs, v. rewrite firstn_app, skipn_app, firstn_all, skipn_all, Nat.sub_diag. cbn. rewrite app_nil_r. auto.
      - intros (Hl & vs & v & -> & H1 & H2). exists (firstn (List.length ms) l0), (skipn (List.length ms) l0), vs, v. rewrite firstn_skipn. auto. }
    destruct (Nat.leb_spec (List.length ms) (List.length l0)) as [Hl|Hl].
    + pose proof (each_exact ms IHms l0 Hl) as H. destruct (each ms l0) as [vs|e].
      * pose proof (slice_exact t (skipn (List.length ms) l0) IHt) as H2. destruct (slice t _) as [v|e].
        -- intros w. rewrite Hsplit. split; [intros (_ & ws & x & -> & Hw & Hx); apply H in Hw; apply H2 in Hx; congruence|]. intros ->. split; [exact Hl|]. exists vs, v. split; [reflexivity|]. split; [apply H; reflexivity|apply H2; reflexivity].
        -- destruct H2 as (H2 & x & s' & Hx & Hr). apply part_blame.
           ++ intros w Hw. apply Hsplit in Hw. destruct Hw as (_ & ws & v & _ & _ & Hv). exact (H2 v Hv).
           ++ exists x, s'. split; [|exact Hr]. rewrite <- (firstn_skipn (List.length ms) l0). apply in_or_app. right. exact Hx.
      * destruct H as (H & Hb). apply part_blame; [|exact Hb]. intros w Hw. apply Hsplit in Hw. destruct Hw as (_ & ws & v & _ & Hw & _). exact (H ws Hw).
    + apply self_blame. intros w Hw. apply Hsplit in Hw. lia.
  - cbn [match_sexp]. specialize (IHl s). destruct (match_sexp l s) as [v|e].
    + intros w. cbn [forms]. split; [intros [(x & -> & Hx)|(Hn & _)]; [apply IHl in Hx; congruence|destruct (Hn v); apply IHl; reflexivity]|]. intros ->. left. exists v. split; [reflexivity|]. apply IHl. reflexivity.
    + destruct IHl as (Hn & _). specialize (IHr s). destruct (match_sexp r s) as [v|e'].
      * intros w. cbn [forms]. split; [intros [(x & -> & Hx)|(_ & x & -> & Hx)]; [destruct (Hn x Hx)|apply IHr in Hx; congruence]|]. intros ->. right. split; [exact Hn|]. exists v. split; [reflexivity|]. apply IHr. reflexivity.
      * destruct IHr as (Hn' & _). apply self_blame. intros w [(x & _ & Hx)|(_ & x & _ & Hx)]; [exact (Hn x Hx)|exact (Hn' x Hx)].
  - assert (Hf : forall w, forms (MAnnotatable t a) s w <->
      (exists l body ann x y, rep s = RList (Sexp l (RSymbol ANNOTATE) :: body :: ann) /\ w = VAnnotatable x (Some y) /\ forms t body x /\ slice_forms a ann y) \/
      ((forall l body ann, rep s <> RList (Sexp l (RSymbol ANNOTATE) :: body :: ann)) /\ exists x, w = VAnnotatable x None /\ forms t s x)) by (intros w; reflexivity).
    destruct (annotated_dec s) as [(l & body & ann & E)|Hno].
    + replace (match_sexp (MAnnotatable t a) s) with (match match_sexp t body with inl v => match slice a ann with inl w => inl (VAnnotatable v (Some w)) | inr e => inr e end | inr e => inr e end : res)
        by (cbn [match_sexp]; rewrite E, text_eqb_refl; reflexivity).
      assert (Hf' : forall w, forms (MAnnotatable t a) s w <-> exists x y, w = VAnnotatable x (Some y) /\ forms t body x /\ slice_forms a ann y).
      { intros w. rewrite Hf. split.
        - intros [(l' & b' & a' & x & y & E' & H)|(Hno & _)]; [|destruct (Hno _ _ _ E)]. rewrite E in E'. injection E' as _ <- <-. eauto.
        - intros (x & y & H). left. exists l, body, ann, x, y. auto. }
      destruct s as [ls r]. cbn [rep] in E. subst r. pose proof (IHt body) as Hb. destruct (match_sexp t body) as [v|e].
      * pose proof (slice_exact a ann IHa) as Ha. destruct (slice a ann) as [y|e].
        -- intros w. rewrite Hf'. split; [intros (x & z & -> & Hx & Hz); apply Hb in Hx; apply Ha in Hz; congruence|]. intros ->. exists v, y. split; [reflexivity|]. split; [apply Hb; reflexivity|apply Ha; reflexivity].
        -- destruct Ha as (Ha & x & s' & Hx & Hr). apply part_blame; [intros w Hw; apply Hf' in Hw; destruct Hw as (x' & y & _ & _ & Hy); exact (Ha y Hy)|]. exists x, s'. split; [right; right; exact Hx|exact Hr].
      * destruct Hb as (Hb & s' & Hs'). apply part_blame; [intros w Hw; apply Hf' in Hw; destruct Hw as (x & y & _ & Hx & _); exact (Hb x Hx)|]. exists body, s'. split; [right; left; reflexivity|exact Hs'].
    + replace (match_sexp (MAnnotatable t a) s) with (match match_sexp t s with inl v => inl (VAnnotatable v None) | inr _ => failure (MAnnotatable t a) s end).
      2: { cbn [match_sexp]. destruct (rep s) as [| | | | |ss| | |]; try reflexivity. destruct ss as [|[l [| |h| | | | | |]] [|body ann]]; try reflexivity.
           destruct (text_eqb h ANNOTATE) eqn:E; [|reflexivity]. apply text_eqb_eq in E. subst h. destruct (Hno l body ann eq_refl). }
      pose proof (IHt s) as Hs. destruct (match_sexp t s) as [v|e].
      * intros w. rewrite Hf. split; [intros [(l' & b' & a' & x & y & E' & _)|(_ & x & -> & Hx)]; [destruct (Hno _ _ _ E')|apply Hs in Hx; congruence]|]. intros ->. right. split; [exact Hno|]. exists v. split; [reflexivity|]. apply Hs. reflexivity.
      * destruct Hs as (Hs & _). apply self_blame. intros w Hw. apply Hf in Hw. destruct Hw as [(l' & b' & a' & x & y & E' & _)|(_ & x & _ & Hx)]; [destruct (Hno _ _ _ E')|exact (Hs x Hx)].
  - assert (Hf : forall w, forms (MParameterizable t p) s w <->
      (exists x, w = VParameterizable x None /\ forms t s x) \/
      ((forall x, ~ forms t s x) /\ exists callee params x y, rep s = RList (callee :: params) /\ w = VParameterizable x (Some y) /\ forms t callee x /\ slice_forms p params y)) by (intros w; reflexivity).
    replace (match_sexp (MParameterizable t p) s) with (match match_sexp t s with
      | inl v => inl (VParameterizable v None)
      | inr _ => match rep s with
        | RList (callee :: params) => match match_sexp t callee with inl v => match slice p params with inl w => inl (VParameterizable v (Some w)) | inr _ => failure (MParameterizable t p) s end | inr _ => failure (MParameterizable t p) s end
        | _ => failure (MParameterizable t p) s end end) by reflexivity.
    pose proof (IHt s) as Hs. destruct (match_sexp t s) as [v|e].
    + intros w. rewrite Hf. split; [intros [(x & -> & Hx)|(Hn & _)]; [apply Hs in Hx; congruence|destruct (Hn v); apply Hs; reflexivity]|]. intros ->. left. exists v. split; [reflexivity|]. apply Hs. reflexivity.
    + destruct Hs as (Hs & _). destruct (rep s) as [| | | | |ss| | |] eqn:Er;
        try (apply self_blame; intros w Hw; apply Hf in Hw; destruct Hw as [(x & _ & Hx)|(_ & c0 & ps & x & y & E & _)]; [exact (Hs x Hx)|congruence]).
      destruct ss as [|callee params]; [apply self_blame; intros w Hw; apply Hf in Hw; destruct Hw as [(x & _ & Hx)|(_ & c0 & ps & x & y & E & _)]; [exact (Hs x Hx)|congruence]|].
      pose proof (IHt callee) as Hc. destruct (match_sexp t callee) as [v|e'].
      * pose proof (slice_exact p params IHp) as Hp. destruct (slice p params) as [y|e'].
        -- intros w. rewrite Hf. split.
           ++ intros [(x & _ & Hx)|(_ & c0 & ps & x & z & E & -> & Hx & Hz)]; [destruct (Hs x Hx)|]. injection E as <- <-. apply Hc in Hx. apply Hp in Hz. congruence.
           ++ intros ->. right. split; [exact Hs|]. exists callee, params, v, y. split; [reflexivity|]. split; [reflexivity|]. split; [apply Hc; reflexivity|apply Hp; reflexivity].
        -- destruct Hp as (Hp & _). apply self_blame. intros w Hw. apply Hf in Hw. destruct Hw as [(x & _ & Hx)|(_ & c0 & ps & x & y & E & _ & _ & Hy)]; [exact (Hs x Hx)|]. injection E as <- <-. exact (Hp y Hy).
      * destruct Hc as (Hc & _). apply self_blame. intros w Hw. apply Hf in Hw. destruct Hw as [(x & _ & Hx)|(_ & c0 & ps & x & y & E & _ & Hx & _)]; [exact (Hs x Hx)|]. injection E as <- <-. exact (Hc x Hx).
Qed.

Lemma list_like_view l h init last : view (Sexp l (rep_list_like h init last)) = (h :: init ++ fst (view last), snd (view last)) /\ (proper (rep last) -> proper (rep_list_like h init last)).
Proof. unfold view, rep_list_like. destruct last as [l' []]; cbn; rewrite ?app_nil_r; auto. Qed.
Lemma cons_view l car cdr : view (Sexp l (rep_cons car cdr)) = (car :: fst (view cdr), snd (view cdr)) /\ (proper (rep cdr) -> proper (rep_cons car cdr)).
Proof. unfold view, rep_cons, rep_list_like. destruct cdr as [l' []]; cbn; auto. Qed.
