(** Imports and exports bind exactly what they select. *)
From Verif.Base Require Import Base BaseFacts Assoc.
From Verif.Sexp Require Import Model.
From Verif.Scope Require Import Model Spec.

(** * Wildcards *)
Lemma ends_with_true s t : ends_with s t = true <-> exists r, t = r ++ s.
Proof.
  unfold ends_with. rewrite starts_with_true. split.
  - intros (r & E). exists (rev r). rewrite <- (rev_involutive t), E, rev_app_distr, rev_involutive. reflexivity.
  - intros (r & ->). exists (rev r). apply rev_app_distr.
Qed.

Lemma skipn_app_l {A} (p r : list A) : skipn (List.length p) (p ++ r) = r.
Proof. rewrite skipn_app, skipn_all, Nat.sub_diag. reflexivity. Qed.
Lemma firstn_app_l {A} (r s : list A) : firstn (List.length (r ++ s) - List.length s) (r ++ s) = r.
Proof. rewrite app_length, Nat.add_sub, firstn_app, firstn_all, Nat.sub_diag. cbn. apply app_nil_r. Qed.

(** The three shapes of a wildcard. *)
Inductive shape : text -> wildcard -> Prop :=
| sh_all : shape (t_ "_") Everything
| sh_suffix s : s <> [] -> shape (t_ "_" ++ s) (EndsWith s)
| sh_prefix p : ~ (exists q, p = t_ "_" ++ q) -> p <> [] -> shape (p ++ t_ "_") (StartsWith p).

Lemma some_inj {A} (a b : A) : Some a = Some b -> a = b.
Proof. congruence. Qed.

Lemma from_pattern_some p w : from_pattern p = Some w -> shape p w.
Proof.
  unfold from_pattern, strip_prefix, strip_suffix. destruct (text_eqb p WILDCARD) eqn:E1.
  { intros E. apply some_inj in E. subst w. apply text_eqb_eq in E1. subst p. constructor. }
  destruct (starts_with WILDCARD p) eqn:E2.
  - intros E. apply some_inj in E. subst w. apply starts_with_true in E2. destruct E2 as (s & ->). rewrite skipn_app_l. apply sh_suffix. intros ->. rewrite app_nil_r, text_eqb_refl in E1. discriminate.
  - destruct (ends_with WILDCARD p) eqn:E3; [|discriminate]. intros E. apply some_inj in E. subst w. apply ends_with_true in E3. destruct E3 as (q & ->). rewrite firstn_app_l. apply sh_prefix.
    + intros (q' & ->). rewrite <- app_assoc, starts_with_app in E2. discriminate.
    + intros ->. cbn [app] in E1. rewrite text_eqb_refl in E1. discriminate.
Qed.

Lemma from_pattern_none p : from_pattern p = None <-> ~ wild p.
Proof.
  unfold from_pattern, strip_prefix, strip_suffix, wild. destruct (text_eqb p WILDCARD) eqn:E1.
  { apply text_eqb_eq in E1. subst p. split; [discriminate|]. intros H. exfalso. apply H. left. exists []. reflexivity. }
  destruct (starts_with WILDCARD p) eqn:E2.
  { apply starts_with_true in E2. split; [discriminate|]. intros H. exfalso. apply H. left. exact E2. }
  destruct (ends_with WILDCARD p) eqn:E3.
  { apply ends_with_true in E3. split; [discriminate|]. intros H. exfalso. apply H. right. exact E3. }
  split; [|reflexivity]. intros _ [H|H]; [apply starts_with_true in H|apply ends_with_true in H]; unfold WILDCARD in *; congruence.
Qed.

Lemma shape_wild p w : shape p w -> wild p.
Proof. intros [|s _|q _ _]; [left; exists []; reflexivity|left; exists s; reflexivity|right; exists q; reflexivity]. Qed.

Lemma shape_fun p w p' w' : shape p w -> shape p' w' -> p = p' -> w = w'.
Proof.
  intros [|s Hs|q Hq Hq2] [|s' Hs'|q' Hq' Hq2'] E; try reflexivity.
  - exfalso. apply Hs'. injection E. intros <-. reflexivity.
  - exfalso. destruct q' as [|a [|b q']]; [contradiction|discriminate|discriminate].
  - exfalso. apply Hs. injection E. intros ->. reflexivity.
  - f_equal. injection E. auto.
  - exfalso. destruct q' as [|a q']; [contradiction|]. injection E as <- E. apply Hq'. exists q'. reflexivity.
  - exfalso. destruct q as [|a [|b q]]; [contradiction|discriminate|discriminate].
  - exfalso. destruct q as [|a q]; [contradiction|]. injection E as -> E. apply Hq. exists q. reflexivity.
  - f_equal. apply app_inj_tail in E. tauto.
Qed.

Lemma stands_shape p w : shape p w -> forall r x, stands p r x <-> construct_name w r = x.
Proof.
  intros Hsh r x. split.
  - intros H. assert (Hx : exists w', shape p w' /\ construct_name w' r = x).
    { destruct H as [r|s r Hs|q r Hq Hq2]; eexists; (split; [constructor; eassumption|reflexivity]). }
    destruct Hx as (w' & H1 & H2). rewrite (shape_fun _ _ _ _ Hsh H1 eq_refl). exact H2.
  - intros <-. destruct Hsh; constructor; assumption.
Qed.

Lemma deconstruct_shape p w : shape p w -> forall r x, deconstruct w x = Some r <-> stands p r x /\ (r = [] -> p = t_ "_").
Proof.
  intros Hsh r x. rewrite (stands_shape p w Hsh). destruct Hsh as [|s Hs|q Hq Hq2]; cbn [construct_name deconstruct].
  - split; [intros E; injection E as ->; auto|]. intros (-> & _). reflexivity.
  - assert (Hp : t_ "_" ++ s <> t_ "_") by (intros E; apply Hs; injection E as ->; reflexivity).
    destruct (ends_with s x) eqn:E; cbn [andb].
    + apply ends_with_true in E. destruct E as (r' & ->). rewrite firstn_app_l. destruct (Nat.eqb_spec (List.length (r' ++ s)) (List.length s)) as [El|El]; cbn [negb]; rewrite app_length in El.
      * split; [discriminate|]. intros (E & H). apply app_inv_tail in E. subst r'. exfalso. apply Hp, H. destruct r; [reflexivity|cbn in El; lia].
      * split; [intros E; injection E as ->; split; [reflexivity|]; intros ->; cbn in El; lia|]. intros (E & _). apply app_inv_tail in E. subst r'. reflexivity.
    + split; [discriminate|]. intros (<- & _). assert (Et : ends_with s (r ++ s) = true) by (apply ends_with_true; exists r; reflexivity). congruence.
  - assert (Hp : q ++ t_ "_" <> t_ "_") by (intros E; destruct q as [|a [|b q]]; [contradiction|discriminate|discriminate]).
    destruct (starts_with q x) eqn:E; cbn [andb].
    + apply starts_with_true in E. destruct E as (r' & ->). rewrite skipn_app_l. destruct (Nat.eqb_spec (List.length (q ++ r')) (List.length q)) as [El|El]; cbn [negb]; rewrite app_length in El.
      * split; [discriminate|]. intros (E & H). apply app_inv_head in E. subst r'. exfalso. apply Hp, H. destruct r; [reflexivity|cbn in El; lia].
      * split; [intros E; injection E as ->; split; [reflexivity|]; intros ->; cbn in El; lia|]. intros (E & _). apply app_inv_head in E. subst r'. reflexivity.
    + split; [discriminate|]. intros (<- & _). rewrite starts_with_app in E. discriminate.
Qed.

(** * Adding bindings to a table *)
Notation union B B' := (fun n c => B n c \/ B' n c) (only parsing).
Definition nd (t : table) : Prop := NoDup (keys t).

Lemma names_get t n c : nd t -> names_in t n c <-> exists lc, hget n t = Some lc /\ construct lc = c.
Proof. intros H. unfold names_in. split; intros (lc & H1 & H2); exists lc; (split; [apply (hget_in n lc t H); exact H1|exact H2]). Qed.

Lemma nd_consistent t : nd t -> consistent (names_in t).
Proof. intros H n c c' H1 H2. apply (names_get _ _ _ H) in H1, H2. destruct H1 as (lc & E1 & <-), H2 as (lc' & E2 & <-). congruence. Qed.

(** [f] succeeds exactly when [S] holds and the bindings [B] agree with each other and the table; then
    it adds exactly them. *)
Definition adding (f : table -> table * result unit) (S : Prop) (B : text -> N -> Prop) : Prop :=
  forall t, nd t -> nd (fst (f t)) /\
    (snd (f t) = Ok tt <-> S /\ consistent (union (names_in t) B)) /\
    (snd (f t) = Ok tt -> forall n c, names_in (fst (f t)) n c <-> names_in t n c \/ B n c).

Lemma adding_ext f S B S' B' : adding f S B -> (S <-> S') -> (S -> forall n c, B n c <-> B' n c) -> adding f S' B'.
Proof.
  intros H HS HB t Ht. destruct (H t Ht) as (H1 & H2 & H3). split; [exact H1|]. split.
  - rewrite H2, HS. split; intros (Hs & Hc); (split; [exact Hs|]); intros n c c' [Ha|Ha] [Hb|Hb]; apply (Hc n); try (left; assumption); right; apply HB; tauto.
  - intros E n c. rewrite (H3 E). apply H2 in E. destruct E as (Hs & _). rewrite (HB Hs). reflexivity.
Qed.

Lemma adding_nothing : adding (fun t => (t, Ok tt)) True (fun _ _ => False).
Proof.
  intros t Ht. cbn [fst snd]. split; [exact Ht|]. split; [|intros _ n c; tauto]. split; [|reflexivity]. intros _. split; [exact I|].
  intros n c c' [Ha|[]] [Hb|[]]. eapply nd_consistent; eauto.
Qed.

Lemma adding_fail e B : adding (fun t => (t, Err e)) False B.
Proof. intros t Ht. cbn [fst snd]. split; [exact Ht|]. split; [split; [discriminate|intros ([] & _)]|discriminate]. Qed.

Lemma adding_then f g S B S' B' : adding f S B -> adding g S' B' ->
  adding (fun t => match f t with (t, Ok _) => g t | (t, Err e) => (t, Err e) end) (S /\ S') (union B B').
Proof.
  intros Hf Hg t Ht. destruct (Hf t Ht) as (H1 & H2 & H3). destruct (f t) as (t1, [[]|e]); cbn [fst snd] in *.
  - destruct (Hg t1 H1) as (H4 & H5 & H6). specialize (H3 eq_refl). destruct (proj1 H2 eq_refl) as (HS & HC). split; [exact H4|]. split.
    + rewrite H5. split.
      * intros (HS' & HC'). split; [auto|]. intros n c c' Ha Hb. apply (HC' n); rewrite H3; tauto.
      * intros ((_ & HS') & HC'). split; [exact HS'|]. intros n c c' Ha Hb. rewrite H3 in Ha, Hb. apply (HC' n); tauto.
    + intros E n c. rewrite (H6 E), H3. tauto.
  - split; [exact H1|]. split; [|discriminate]. split; [discriminate|]. intros ((HS & _) & HC). assert (Err e = Ok tt) as E; [|discriminate].
    apply H2. split; [exact HS|]. intros n c c' Ha Hb. apply (HC n); tauto.
Qed.

Lemma adding_define name c c0 : construct c = c0 -> adding (top_define name c) True (fun n k => n = name /\ k = c0).
Proof.
  intros Ec t Ht. cbn [top_define fst snd]. split; [apply nodup_hinsert, Ht|].
  assert (Hin : forall n k, names_in (hinsert name c t) n k <-> (n = name /\ k = c0) \/ (n <> name /\ names_in t n k)).
  { intros n k. rewrite names_get by (apply nodup_hinsert, Ht). rewrite hget_insert. destruct (text_eqb n name) eqn:E.
    - apply text_eqb_eq in E. subst n. split; [intros (lc & E & <-); injection E as <-; left; auto|]. intros [(_ & ->)|(Hn & _)]; [exists c; auto|contradiction].
    - assert (Hn : n <> name) by (intros ->; rewrite text_eqb_refl in E; discriminate). rewrite <- names_get by exact Ht. tauto. }
  destruct (hget name t) as [old|] eqn:Eg.
  - assert (Hold : forall k, names_in t name k <-> k = construct old).
    { intros k. rewrite names_get by exact Ht. rewrite Eg. split; [intros (lc & E & <-); injection E as <-; reflexivity|intros ->; exists old; auto]. }
    destruct (N.eqb_spec (construct old) (construct c)) as [E|E].
    + split; [split; [|reflexivity]|].
      * intros _. split; [exact I|]. intros n a b [Ha|(-> & ->)] [Hb|(Hn & ->)]; subst; try rewrite Hold in *; try congruence. eapply nd_consistent; eauto.
      * intros _ n k. rewrite Hin. split; [tauto|]. intros [H|H]; [|tauto]. destruct (text_eqb n name) eqn:En.
        -- apply text_eqb_eq in En. subst n. rewrite Hold in H. left. split; [reflexivity|congruence].
        -- right. split; [intros ->; rewrite text_eqb_refl in En; discriminate|exact H].
    + split; [|discriminate]. split; [discriminate|]. intros (_ & HC). exfalso. apply E. rewrite Ec. apply (HC name); [left; apply Hold; reflexivity|right; auto].
  - assert (Hno : forall k, ~ names_in t name k).
    { intros k. rewrite names_get by exact Ht. rewrite Eg. intros (lc & E & _). discriminate. }
    split; [split; [|reflexivity]|].
    + intros _. split; [exact I|]. intros n a b [Ha|(-> & ->)] [Hb|(Hn & ->)]; subst; try congruence; [eapply nd_consistent; eauto|destruct (Hno _ Ha)|destruct (Hno _ Hb)].
    + intros _ n k. rewrite Hin. split; [tauto|]. intros [H|H]; [|tauto]. right. split; [intros ->; destruct (Hno _ H)|exact H].
Qed.

Lemma export_add_define l m n c t : fst (export_add l m n c t) = fst (top_define n c t) /\ (snd (export_add l m n c t) = Ok tt <-> snd (top_define n c t) = Ok tt).
Proof.
  unfold export_add, exports_add, top_define. destruct (hget n t) as [old|]; cbn [fst snd]; [|tauto].
  destruct (construct old =? construct c)%N; cbn [fst snd]; [tauto|]. split; [reflexivity|split; discriminate].
Qed.

(** * Targets *)
Definition adds (add : srcloc -> text -> text -> located -> table -> table * result unit) : Prop :=
  forall l m n c, adding (add l m n c) True (fun n' k => n' = n /\ k = construct c).

Lemma import_adds : adds import_add.
Proof. intros l m n c. unfold import_add. apply adding_define. reflexivity. Qed.

Lemma export_adds : adds export_add.
Proof.
  intros l m n c t Ht. destruct (export_add_define l m n c t) as (E1 & E2). rewrite E1, E2. apply (adding_define n c (construct c) eq_refl t Ht).
Qed.

Section Targets.
  Variable order : table -> table.
  Hypothesis Horder : forall t, Permutation (order t) t.
  Variable from : table.
  Hypothesis Hfrom : nd from.
  Variable add : srcloc -> text -> text -> located -> table -> table * result unit.
  Hypothesis Hadd : adds add.

  Lemma add_all_ok l src dest es : adding (add_all add l src dest es) True
    (fun n k => exists x lc r, In (x, lc) es /\ deconstruct src x = Some r /\ n = construct_name dest r /\ k = construct lc).
  Proof.
    induction es as [|[x lc] es IH].
    - eapply adding_ext; [apply adding_nothing|reflexivity|]. intros _ n k. split; [intros []|intros (? & ? & ? & [] & _)].
    - cbn [add_all]. destruct (deconstruct src x) as [r|] eqn:E.
      + eapply adding_ext; [apply (adding_then _ _ _ _ _ _ (Hadd l r (construct_name dest r) lc) IH)|tauto|]. intros _ n k. cbn beta. split.
        * intros [(-> & ->)|(y & lc' & r' & Hin & H)]; [exists x, lc, r; cbn; auto|exists y, lc', r'; split; [right; exact Hin|exact H]].
        * intros (y & lc' & r' & [Hin|Hin] & H1 & H2 & H3); [injection Hin as <- <-; left; split; congruence|right; exists y, lc', r'; auto].
      + eapply adding_ext; [exact IH|reflexivity|]. intros _ n k. split.
        * intros (y & lc' & r' & Hin & H). exists y, lc', r'. split; [right; exact Hin|exact H].
        * intros (y & lc' & r' & [Hin|Hin] & H1 & H); [injection Hin as <- <-; congruence|exists y, lc', r'; auto].
  Qed.

  Lemma target_fun s o t o' t' : target_of s o t -> target_of s o' t' -> o = o' /\ t = t'.
  Proof. intros H1 H2. inversion H1; subst; inversion H2; subst; auto. Qed.

  Lemma match_port_spec s : match match_port_target s with
    | Some sel => target_of s (p_name sel) (p_target sel)
    | None => forall o t, ~ target_of s o t end.
  Proof.
    unfold match_port_target. destruct s as [l [| |x| | |[|[l1 [| |n| | | | | |]] [|[l2 [| |x| | | | | |]] [|w ws]]]| | |]]; try (intros o t H; inversion H; fail); constructor.
  Qed.

  Lemma add_target_ok s : adding (add_target order from add s) (servable (known from) s) (fun n k => exists x, selects s x n /\ names_in from x k).
  Proof.
    unfold add_target. pose proof (match_port_spec s) as Hs. destruct (match_port_target s) as [sel|].
    2:{ eapply adding_ext; [apply (adding_fail _ (fun _ _ => False))| |intros []]. split; [intros []|]. intros (o & t & H & _). exact (Hs o t H). }
    set (o := p_name sel) in *. set (t := p_target sel) in *.
    assert (Hsel : forall x n, selects s x n <-> (~ wild t /\ x = t /\ n = new_name o t) \/ (wild t /\ exists r, stands t r x /\ (r = [] -> t = t_ "_") /\ stands (new_name o t) r n)).
    { intros x n. split; [|intros H; exists o, t; auto]. intros (o' & t' & H & H2). destruct (target_fun _ _ _ _ _ Hs H) as (-> & ->). exact H2. }
    assert (Hsv : servable (known from) s <-> (wild t -> wild (new_name o t)) /\ (~ wild t -> known from t)).
    { split; [|intros (H1 & H2); exists o, t; auto]. intros (o' & t' & H & H2). destruct (target_fun _ _ _ _ _ Hs H) as (-> & ->). exact H2. }
    destruct (from_pattern t) as [src|] eqn:Esrc.
    - apply from_pattern_some in Esrc. pose proof (shape_wild _ _ Esrc) as Hw.
      set (dopt := match o with Some name => from_pattern name | None => Some src end).
      assert (Hd : match dopt with Some dest => shape (new_name o t) dest | None => ~ wild (new_name o t) end).
      { unfold dopt. destruct o as [n|]; cbn [new_name]; [|exact Esrc]. destruct (from_pattern n) as [d|] eqn:Ed; [apply from_pattern_some, Ed|apply from_pattern_none, Ed]. }
      destruct dopt as [dest|].
      + eapply adding_ext; [apply add_all_ok| |].
        * rewrite Hsv. split; [|tauto]. intros _. split; [intros _; eapply shape_wild; exact Hd|tauto].
        * intros _ n k. split.
          -- intros (x & lc & r & Hin & H1 & H2 & ->). exists x. split.
             ++ apply Hsel. right. split; [exact Hw|]. exists r. apply (deconstruct_shape _ _ Esrc) in H1. destruct H1 as (H1 & H1'). split; [exact H1|]. split; [exact H1'|]. apply (stands_shape _ _ Hd). symmetry. exact H2.
             ++ exists lc. split; [|reflexivity]. eapply Permutation_in; [apply Horder|exact Hin].
          -- intros (x & Hx & lc & Hin & <-). apply Hsel in Hx. destruct Hx as [(Hnw & _)|(_ & r & H1 & H1' & H2)]; [contradiction|].
             exists x, lc, r. split; [eapply Permutation_in; [apply Permutation_sym, Horder|exact Hin]|]. split; [apply (deconstruct_shape _ _ Esrc); auto|].
             split; [symmetry; apply (stands_shape _ _ Hd); exact H2|reflexivity].
      + eapply adding_ext; [apply (adding_fail _ (fun _ _ => False))| |intros []]. rewrite Hsv. split; [intros []|]. intros (H & _). apply Hd, H, Hw.
    - apply from_pattern_none in Esrc. fold (new_name o t). destruct (hget t from) as [c|] eqn:Eg.
      + apply (hget_in t c from Hfrom) in Eg. eapply adding_ext; [apply Hadd| |].
        * rewrite Hsv. split; [|tauto]. intros _. split; [tauto|]. intros _. exists (construct c), c. auto.
        * intros _ n k. split.
          -- intros (-> & ->). exists t. split; [apply Hsel; left; auto|exists c; auto].
          -- intros (x & Hx & Hin). apply Hsel in Hx. destruct Hx as [(_ & -> & ->)|(Hw & _)]; [|contradiction]. split; [reflexivity|].
             eapply (nd_consistent from Hfrom t); [exact Hin|exists c; auto].
      + eapply adding_ext; [apply (adding_fail _ (fun _ _ => False))| |intros []]. rewrite Hsv. split; [intros []|]. intros (_ & H). destruct (H Esrc) as (c & lc & Hin & _).
        apply (hget_in t lc from Hfrom) in Hin. congruence.
  Qed.

  Lemma add_targets_ok ss : adding (add_targets order from add ss) (forall s, In s ss -> servable (known from) s)
    (fun n k => exists s x, In s ss /\ selects s x n /\ names_in from x k).
  Proof.
    induction ss as [|s ss IH].
    - eapply adding_ext; [apply adding_nothing| |]; [split; [intros _ s []|auto]|]. intros _ n k. split; [intros []|intros (? & ? & [] & _)].
    - cbn [add_targets]. eapply adding_ext; [apply (adding_then _ _ _ _ _ _ (add_target_ok s) IH)| |].
      + split; [intros (H1 & H2) s' [<-|Hs]; auto|]. intros H. split; [apply H; left; reflexivity|intros s' Hs; apply H; right; exact Hs].
      + intros _ n k. cbn beta. split.
        * intros [(x & H1 & H2)|(s' & x & H0 & H)]; [exists s, x; cbn; auto|exists s', x; cbn; tauto].
        * intros (s' & x & [<-|H0] & H); [left; exists x; exact H|right; exists s', x; tauto].
  Qed.
End Targets.

(** * Exports *)
Lemma match_export_spec s : match match_export s with Some ts => export_form s ts | None => forall ts, ~ export_form s ts end.
Proof.
  unfold match_export. destruct s as [l [| | | | |[|[l1 [| |h| | | | | |]] ts]| | |]]; try (intros ts' H; inversion H; fail). destruct (text_eqb h (t_ "export")) eqn:E.
  - apply text_eqb_eq in E. subst h. constructor.
  - intros ts' H. inversion H; subst. rewrite text_eqb_refl in E. discriminate.
Qed.

Lemma export_form_fun s ts ts' : export_form s ts -> export_form s ts' -> ts = ts'.
Proof. intros H1 H2. inversion H1; subst. inversion H2; subst. reflexivity. Qed.

Lemma export_adding order top code : (forall t, Permutation (order t) t) -> nd top ->
  adding (export_run order code top) (exports_servable code top) (exported code top).
Proof.
  intros Ho Ht. induction code as [|s code IH].
  - eapply adding_ext; [apply adding_nothing| |]; [split; [intros _ s ts t []|auto]|]. intros _ n k. split; [intros []|intros (? & ? & ? & ? & [] & _)].
  - cbn [export_run]. pose proof (match_export_spec s) as Hs. destruct (match_export s) as [ts|].
    + eapply adding_ext; [apply (adding_then _ _ _ _ _ _ (add_targets_ok order Ho top Ht export_add export_adds ts) IH)| |].
      * split.
        -- intros (H1 & H2) s' ts' t [<-|Hin] Hf Hti; [rewrite <- (export_form_fun _ _ _ Hs Hf) in Hti; apply H1, Hti|eapply H2; eauto].
        -- intros H. split; [intros t Hti; eapply H; [left; reflexivity|exact Hs|exact Hti]|]. intros s' ts' t Hin. apply H. right. exact Hin.
      * intros _ n k. cbn beta. split.
        -- intros [(t & x & H1 & H)|(s' & ts' & t & x & H1 & H)]; [exists s, ts, t, x; cbn; tauto|exists s', ts', t, x; cbn; tauto].
        -- intros (s' & ts' & t & x & [<-|H1] & Hf & Hti & H); [left; exists t, x; rewrite (export_form_fun _ _ _ Hs Hf); auto|right; exists s', ts', t, x; auto].
    + eapply adding_ext; [exact IH| |].
      * split; intros H s' ts' t Hin Hf; [destruct Hin as [<-|Hin]; [destruct (Hs ts' Hf)|]; eapply H; eauto|eapply H; [right; exact Hin|exact Hf]].
      * intros _ n k. split; [intros (s' & ts' & t & x & H1 & H); exists s', ts', t, x; cbn; tauto|].
        intros (s' & ts' & t & x & [<-|H1] & Hf & H); [destruct (Hs ts' Hf)|exists s', ts', t, x; auto].
Qed.

(** * Imports *)
Lemma match_import_spec s : match match_import s with Some (p, ts) => import_form s p ts | None => forall p ts, ~ import_form s p ts end.
Proof.
  unfold match_import. destruct s as [l [| | | | |[|[l1 [| |h| | | | | |]] [|[l2 [| | |p| | | | |]] ts]]| | |]]; try (intros p' ts' H; inversion H; fail). destruct (text_eqb h (t_ "import")) eqn:E.
  - apply text_eqb_eq in E. subst h. constructor.
  - intros p' ts' H. inversion H; subst. rewrite text_eqb_refl in E. discriminate.
Qed.

Lemma import_form_fun s p ts p' ts' : import_form s p ts -> import_form s p' ts' -> p = p' /\ ts = ts'.
Proof. intros H1 H2. inversion H1; subst. inversion H2; subst. auto. Qed.

Section Import.
  Variable order : table -> table.
  Hypothesis Horder : forall t, Permutation (order t) t.
  Variable find : text -> option module.
  Hypothesis Hfind : forall p id es, find p = Some (id, es) -> nd es.

  Definition reachable (code : list sexp) : Prop := forall s p ts, In s code -> import_form s p ts -> exists m, find p = Some m.

  Lemma import_forms_ok code : reachable code -> forall inits, exists f g, (forall top, import_forms order find code top inits = Ret (fst (f top), g top, snd (f top))) /\
    adding f (imports_servable find code) (imported find code) /\
    (forall top, snd (f top) = Ok tt -> exists ids, import_ids find code ids /\ g top = inits ++ ids).
  Proof.
    induction code as [|s code IH]; intros Hr inits.
    - exists (fun t => (t, Ok tt)), (fun _ => inits). split; [reflexivity|]. split; [|intros top _; exists []; rewrite app_nil_r; split; [constructor|reflexivity]].
      eapply adding_ext; [apply adding_nothing| |]; [split; [intros _ s p ts id es t []|auto]|]. intros _ n k. split; [intros []|intros (? & ? & ? & ? & ? & ? & ? & [] & _)].
    - assert (Hr' : reachable code) by (intros s' p ts Hin; apply Hr; right; exact Hin). cbn [import_forms]. pose proof (match_import_spec s) as Hs. destruct (match_import s) as [(p, ts)|].
      + destruct (Hr s p ts (or_introl eq_refl) Hs) as ((id & es) & Ef). rewrite Ef. destruct (IH Hr' (inits ++ [id])) as (f & g & Hfg & Hf & Hg).
        exists (fun t => match add_targets order es import_add ts t with (t, Ok _) => f t | (t, Err e) => (t, Err e) end).
        exists (fun t => match add_targets order es import_add ts t with (t, Ok _) => g t | (t, Err e) => inits end). split; [|split].
        * intros top. destruct (add_targets order es import_add ts top) as (t1, [[]|e]); [apply Hfg|reflexivity].
        * eapply adding_ext; [apply (adding_then _ _ _ _ _ _ (add_targets_ok order Horder es (Hfind p id es Ef) import_add import_adds ts) Hf)| |].
          -- split.
             ++ intros (H1 & H2) s' p' ts' id' es' t [<-|Hin] Hif Hfi Hti; [|eapply H2; eauto]. destruct (import_form_fun _ _ _ _ _ Hs Hif) as (<- & <-). rewrite Ef in Hfi. injection Hfi as <- <-. apply H1, Hti.
             ++ intros H. split; [intros t Hti; eapply (H s p ts id es); cbn; auto|]. intros s' p' ts' id' es' t Hin. apply H. right. exact Hin.
          -- intros _ n k. cbn beta. split.
             ++ intros [(t & x & H)|(s' & p' & ts' & id' & es' & t & x & H1 & H)]; [exists s, p, ts, id, es, t, x; cbn; tauto|exists s', p', ts', id', es', t, x; cbn; tauto].
             ++ intros (s' & p' & ts' & id' & es' & t & x & [<-|H1] & Hif & Hfi & H); [|right; exists s', p', ts', id', es', t, x; auto]. left.
                destruct (import_form_fun _ _ _ _ _ Hs Hif) as (<- & <-). rewrite Ef in Hfi. injection Hfi as <- <-. exists t, x. exact H.
        * intros top E. destruct (add_targets order es import_add ts top) as (t1, [[]|e]); [|discriminate]. destruct (Hg t1 E) as (ids & H1 & ->).
          exists (id :: ids). split; [eapply ii_import; eauto|]. rewrite <- app_assoc. reflexivity.
      + destruct (IH Hr' inits) as (f & g & Hfg & Hf & Hg). exists f, g. split; [exact Hfg|]. split.
        * eapply adding_ext; [exact Hf| |].
          -- split; intros H s' p' ts' id' es' t Hin Hif; [destruct Hin as [<-|Hin]; [destruct (Hs p' ts' Hif)|]; eapply H; eauto|eapply H; [right; exact Hin|exact Hif]].
          -- intros _ n k. split; [intros (s' & p' & ts' & id' & es' & t & x & H1 & H); exists s', p', ts', id', es', t, x; cbn; tauto|].
             intros (s' & p' & ts' & id' & es' & t & x & [<-|H1] & Hif & H); [destruct (Hs p' ts' Hif)|exists s', p', ts', id', es', t, x; auto].
        * intros top E. destruct (Hg top E) as (ids & H1 & H2). exists ids. split; [constructor; [exact Hs|exact H1]|exact H2].
  Qed.

  Lemma import_std_ok l es : forall top, nd top -> nd es -> exists top', import_std l es top = (top', Ok tt) /\ nd top' /\
    forall n k, names_in top' n k <-> names_in top n k \/ (~ known top n /\ names_in es n k).
  Proof.
    induction es as [|[x lc] es IH]; intros top Ht He.
    - exists top. split; [reflexivity|]. split; [exact Ht|]. intros n k. split; [tauto|]. intros [H|(_ & lc & [] & _)]. exact H.
    - cbn in He. inversion_clear He as [|? ? Hn He']. cbn [import_std]. destruct (hget x top) as [c|] eqn:Eg.
      + destruct (IH top Ht He') as (top' & E & H1 & H2). exists top'. split; [exact E|]. split; [exact H1|]. intros n k. rewrite H2. split.
        * intros [H|(H3 & lc' & H4 & H5)]; [tauto|]. right. split; [exact H3|]. exists lc'. split; [right; exact H4|exact H5].
        * intros [H|(H3 & lc' & [H4|H4] & H5)]; [tauto| |right; split; [exact H3|exists lc'; auto]].
          injection H4 as -> ->. exfalso. apply H3. apply (hget_in n c top Ht) in Eg. exists (construct c), c. auto.
      + destruct (adding_define x (with_loc lc l) (construct lc) eq_refl top Ht) as (H1 & H2 & H3). unfold top_define in *. rewrite Eg in *. cbn [fst snd] in *. specialize (H3 eq_refl).
        destruct (IH _ H1 He') as (top' & E & H4 & H5). exists top'. split; [exact E|]. split; [exact H4|]. intros n k. rewrite H5, H3.
        assert (Hx : ~ known top x) by (intros (c & lc' & Hin & _); apply (hget_in x lc' top Ht) in Hin; congruence).
        assert (Hkn : known (hinsert x (with_loc lc l) top) n <-> known top n \/ n = x).
        { split; [intros (c & H); apply H3 in H; destruct H as [H|(H & _)]; [left; exists c; exact H|right; exact H]|]. intros [(c & H)|E']; [exists c; apply H3; left; exact H|exists (construct lc); apply H3; right; auto]. }
        rewrite Hkn. split.
        * intros [[H|(-> & ->)]|(H6 & lc' & H7 & H8)]; [tauto|right; split; [exact Hx|exists lc; cbn; auto]|]. right. split; [tauto|]. exists lc'. split; [right; exact H7|exact H8].
        * intros [H|(H6 & lc' & [H7|H7] & H8)]; [tauto|injection H7 as -> ->; left; right; auto|]. destruct (text_eqb n x) eqn:En.
          -- apply text_eqb_eq in En. subst n. exfalso. apply Hn. apply (in_map fst) in H7. exact H7.
          -- right. split; [intros [H9|H9]; [tauto|subst; rewrite text_eqb_refl in En; discriminate]|exists lc'; auto].
  Qed.

  Lemma import_ok builtin std l code : reachable code -> (forall id es, std = Some (id, es) -> nd es) ->
    exists top inits r, import_run order find builtin std l code [] = Ret (top, inits, r) /\
    (r = Ok tt <-> imports_servable find code /\ consistent (imported find code)) /\
    (r = Ok tt ->
      nd top /\
      (forall n c, names_in top n c <-> imported find code n c \/
         ((forall c', ~ imported find code n c') /\ exists id es, std = Some (id, es) /\ names_in es n c)) /\
      exists ids, import_ids find code ids /\
        inits = (match builtin with Some id => [id] | None => [] end) ++ ids ++ (match std with Some (id, _) => [id] | None => [] end)).
  Proof.
    intros Hr Hstd. unfold import_run. set (b := match builtin with Some id => [id] | None => [] end). destruct (import_forms_ok code Hr b) as (f & g & Hfg & Hf & Hg). rewrite Hfg. cbn [bind].
    destruct (Hf [] (NoDup_nil _)) as (H1 & H2 & H3). specialize (Hg []). destruct (f []) as (t1, r1). cbn [fst snd] in *.
    assert (Hc : consistent (union (names_in []) (imported find code)) <-> consistent (imported find code)).
    { split; intros H n c c' Ha Hb; [apply (H n); auto|]. destruct Ha as [(lc & [] & _)|Ha], Hb as [(lc & [] & _)|Hb]. apply (H n); auto. }
    rewrite Hc in H2. destruct r1 as [[]|e].
    - specialize (H3 eq_refl). destruct (Hg eq_refl) as (ids & Hids & Eg).
      assert (H3' : forall n c, names_in t1 n c <-> imported find code n c) by (intros n c; rewrite H3; split; [intros [(lc & [] & _)|H]; exact H|tauto]).
      destruct std as [(id & es)|].
      + assert (He : nd (order es)) by (eapply Permutation_NoDup; [apply Permutation_map, Permutation_sym, Horder|exact (Hstd id es eq_refl)]).
        destruct (import_std_ok l (order es) t1 H1 He) as (top' & E & H4 & H5). rewrite E. exists top', (g [] ++ [id]), (Ok tt). split; [reflexivity|]. split; [exact H2|]. intros _. split; [exact H4|].
        split; [|exists ids; split; [exact Hids|rewrite Eg, <- app_assoc; reflexivity]].
        assert (Hes : forall n c, names_in (order es) n c <-> names_in es n c).
        { intros n c. split; intros (lc & Hin & E'); exists lc; (split; [|exact E']); (eapply Permutation_in; [|exact Hin]); [apply Horder|apply Permutation_sym, Horder]. }
        intros n c. rewrite H5, H3', Hes. split.
        * intros [H|(H & H')]; [tauto|]. right. split; [intros c' H6; apply H; exists c'; apply H3'; exact H6|exists id, es; auto].
        * intros [H|(H & id' & es' & E' & H')]; [tauto|]. injection E' as <- <-. right. split; [|exact H']. intros (c' & H6). apply H3' in H6. exact (H c' H6).
      + exists t1, (g []), (Ok tt). split; [reflexivity|]. split; [exact H2|]. intros _. split; [exact H1|]. split; [|exists ids; rewrite app_nil_r; auto].
        intros n c. rewrite H3'. split; [tauto|]. intros [H|(_ & ? & ? & E & _)]; [exact H|discriminate].
    - exists t1, (g []), (Err e). split; [destruct std as [(id & es)|]; reflexivity|]. split; [exact H2|discriminate].
  Qed.
End Import.

Lemma export_ok order code top : (forall t, Permutation (order t) t) -> nd top ->
  exists exports r, export_run order code top [] = (exports, r) /\
    (r = Ok tt <-> exports_servable code top /\ consistent (exported code top)) /\
    (r = Ok tt -> nd exports /\ forall n c, names_in exports n c <-> exported code top n c).
Proof.
  intros Ho Ht. destruct (export_adding order top code Ho Ht [] (NoDup_nil _)) as (H1 & H2 & H3). destruct (export_run order code top []) as (ex, r). exists ex, r. cbn [fst snd] in *.
  split; [reflexivity|]. split.
  - rewrite H2. split; intros (HS & HC); (split; [exact HS|]); intros n c c' Ha Hb; [apply (HC n); auto|]. destruct Ha as [(lc & [] & _)|Ha], Hb as [(lc' & [] & _)|Hb]. apply (HC n); auto.
  - intros E. split; [exact H1|]. intros n c. rewrite (H3 E). split; [intros [(lc & [] & _)|H]; exact H|tauto].
Qed.
