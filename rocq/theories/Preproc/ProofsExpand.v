(** Every form expands as specified. *)
From Verif.Base Require Import Base BaseFacts.
From Verif.Lexer Require Import Model.
From Verif.Sexp Require Import Model Proofs.
From Verif.Preproc Require Import Model Spec Proofs.

(** * Induction over proper subforms *)
Definition child (c s : sexp) : Prop :=
  match s with Sexp _ (RList ss) => In c ss | Sexp _ (RListLike h init tail) => In c (tail :: h :: init) | _ => False end.

Lemma sub_child t s : sub t s -> t = s \/ exists c, child c s /\ sub t c.
Proof. intros H. inversion H; subst; [left; reflexivity|right; eexists; split; eassumption|right; eexists; split; eassumption]. Qed.

Lemma child_sub t c s : child c s -> sub t c -> sub t s.
Proof. destruct s as [l [| | | | |ss|h init tail| |]]; cbn; intros Hc Ht; try destruct Hc; [eapply s_list; eauto|subst; eapply s_dotted; eauto; cbn; auto|eapply s_dotted; eauto; cbn; auto]. Qed.

Lemma sub_trans t s u : sub t s -> sub s u -> sub t u.
Proof. intros H1 H2. induction H2 as [|l ss s' Hin _ IH|l h init tail s' Hin _ IH]; [exact H1|eapply s_list; eauto|eapply s_dotted; eauto]. Qed.

Lemma form_induction (P : sexp -> Prop) : (forall s, (forall c t, child c s -> sub t c -> P t) -> P s) -> forall s, P s.
Proof.
  intros H s. assert (Hall : forall t, sub t s -> P t); [|apply Hall; constructor].
  induction s as [l b v|l x|l x|l x|l c|l xs IH|l h xs z IHh IHxs IHz|l b|l x] using sexp_ind'; intros u Hu; apply sub_child in Hu; destruct Hu as [->|(c' & Hc & Hu)];
    try (cbn in Hc; contradiction); try (apply H; intros c0 u0 Hc0 Hu0; cbn in Hc0; contradiction).
  - apply H. intros c u Hc Hu. rewrite Forall_forall in IH. exact (IH c Hc u Hu).
  - rewrite Forall_forall in IH. exact (IH c' Hc u Hu).
  - apply H. intros c u Hc Hu. rewrite Forall_forall in IHxs. destruct Hc as [<-|[<-|Hc]]; [exact (IHz u Hu)|exact (IHh u Hu)|exact (IHxs c Hc u Hu)].
  - rewrite Forall_forall in IHxs. destruct Hc as [<-|[<-|Hc]]; [exact (IHz u Hu)|exact (IHh u Hu)|exact (IHxs c' Hc u Hu)].
Qed.

Lemma distinct_sub t s : sub t s -> distinct_binders s -> distinct_binders t.
Proof. intros Ht H l l0 d l1 binds body Hs Hd. eapply H; [eapply sub_trans; eassumption|exact Hd]. Qed.

(** * Names *)
Lemma is_meta_dollar s : is_meta s = true <-> dollar s.
Proof. unfold is_meta. apply starts_with_true. Qed.

Lemma metavar_binder s : metavar s = true <-> binder s.
Proof. unfold metavar, binder. rewrite orb_true_iff, is_meta_dollar, text_eqb_eq. reflexivity. Qed.

Definition spelling (d : directive) : text :=
  t_ match d with DSymbol => "$symbol" | DLet => "$let" | DLet1 => "$let1" | DFor => "$for" | DFor1 => "$for1" | DWhen => "$when" | DNot => "$not" | DFeature => "$feature" end.

Lemma directive_some s d : directive_of s = Some d -> s = spelling d.
Proof.
  unfold directive_of. intros H.
  repeat match type of H with (if text_eqb ?a ?b then _ else _) = _ => let E := fresh in destruct (text_eqb a b) eqn:E; [injection H as <-; apply text_eqb_eq in E; exact E|] end. discriminate.
Qed.

Lemma directive_none s : directive_of s = None -> ~ In s directives.
Proof.
  unfold directive_of. intros H.
  repeat match type of H with (if text_eqb ?a ?b then _ else _) = _ => let E := fresh in destruct (text_eqb a b) eqn:E; [discriminate|apply text_eqb_neq in E] end.
  unfold directives. cbn [map]. intros Hin. repeat (destruct Hin as [Hin|Hin]; [congruence|]). destruct Hin.
Qed.

Lemma directive_in d : In (spelling d) directives.
Proof. unfold directives. destruct d; cbn [map In spelling]; auto 20. Qed.

Lemma head_none s0 args : head_directive s0 = None -> ~ directive_form (s0 :: args).
Proof. intros H (l & d & args' & E & Hd). injection E as -> ->. exact (directive_none d H Hd). Qed.

Lemma head_some s0 d : head_directive s0 = Some d -> exists l, s0 = Sexp l (RSymbol (spelling d)).
Proof. destruct s0 as [l [| |x| | | | | |]]; cbn; try discriminate. intros H. apply directive_some in H. subst x. exists l. reflexivity. Qed.

Lemma symbol_name_spec ss name : symbol_name ss = inl name <-> exists ts, Forall2 spelled ss ts /\ List.concat ts = name.
Proof.
  revert name. induction ss as [|[l r] ss IH]; intros name.
  - split; [intros E; injection E as <-; exists []; split; [constructor|reflexivity]|]. intros (ts & H & <-). inversion H. reflexivity.
  - assert (Hcase : forall t, (forall t', spelled (Sexp l r) t' <-> t' = t) -> match symbol_name ss with inl n => inl (t ++ n) | inr l => inr l end = inl name <->
      exists ts, Forall2 spelled (Sexp l r :: ss) ts /\ List.concat ts = name).
    { intros t Ht. split.
      - destruct (symbol_name ss) as [n|]; [|discriminate]. intros E. injection E as <-. destruct (proj1 (IH n) eq_refl) as (ts & H & <-).
        exists (t :: ts). split; [constructor; [apply Ht; reflexivity|exact H]|reflexivity].
      - intros (ts & H & <-). inversion H as [|x t' ss' ts' H1 H2]; subst. apply Ht in H1. subst t'. rewrite (proj2 (IH (List.concat ts'))); [reflexivity|exists ts'; auto]. }
    assert (Hno : (forall t, ~ spelled (Sexp l r) t) -> inr l = inl name <-> exists ts, Forall2 spelled (Sexp l r :: ss) ts /\ List.concat ts = name).
    { intros Hn. split; [discriminate|]. intros (ts & H & _). inversion H; subst. exfalso. eapply Hn. eassumption. }
    destruct r; cbn [symbol_name]; try (apply Hno; intros t Ht; inversion Ht; fail); apply Hcase; intros t'; (split; [intros H; inversion H; reflexivity|intros ->; constructor]).
Qed.

Lemma for_names_spec ss names : for_names ss = Some names <-> names_of ss names.
Proof.
  revert names. induction ss as [|s ss IH]; intros names.
  - split; [intros E; injection E as <-; constructor|]. intros H. inversion H. reflexivity.
  - destruct s as [l r]. assert (Hno : (forall x, r <> RSymbol x) -> @None (list text) = Some names <-> names_of (Sexp l r :: ss) names).
    { intros Hn. split; [discriminate|]. intros H. inversion H as [|? ? ? ? (Hb & l' & E)]; subst. injection E as -> ->. exfalso. eapply Hn. reflexivity. }
    destruct r as [| |x| | | | | |]; cbn [for_names]; try (apply Hno; discriminate). destruct (metavar x) eqn:E.
    + apply metavar_binder in E. destruct (for_names ss) as [ns|]; cbn [option_map].
      * split.
        -- intros H. injection H as <-. constructor; [split; [exact E|eexists; reflexivity]|]. apply IH. reflexivity.
        -- intros H. inversion H as [|? y ? ns' (Hb & l' & E') H2]; subst. injection E' as -> ->. apply IH in H2. injection H2 as ->. reflexivity.
      * split; [discriminate|]. intros H. inversion H as [|? ? ? ? _ H2]; subst. apply IH in H2. discriminate.
    + split; [discriminate|]. intros H. inversion H as [|? y ? ? (Hb & l' & E')]; subst. injection E' as -> ->. apply metavar_binder in Hb. congruence.
Qed.

Lemma for_rows_spec n ss rows : for_rows n ss = Some rows <-> rows_of n ss rows.
Proof.
  revert rows. induction ss as [|s ss IH]; intros rows.
  - split; [intros E; injection E as <-; constructor|]. intros H. inversion H. reflexivity.
  - destruct s as [l r]. assert (Hno : (forall x, r <> RList x) -> @None (list (list sexp)) = Some rows <-> rows_of n (Sexp l r :: ss) rows).
    { intros Hn. split; [discriminate|]. intros H. inversion H as [|? ? ? ? (Hb & l' & E)]; subst. injection E as -> ->. exfalso. eapply Hn. reflexivity. }
    destruct r as [| | | | |x| | |]; cbn [for_rows]; try (apply Hno; discriminate). destruct (Nat.eqb_spec (List.length x) n) as [E|E].
    + destruct (for_rows n ss) as [ns|]; cbn [option_map].
      * split.
        -- intros H. injection H as <-. constructor; [split; [exact E|eexists; reflexivity]|]. apply IH. reflexivity.
        -- intros H. inversion H as [|? y ? ns' (Hb & l' & E') H2]; subst. injection E' as -> ->. apply IH in H2. injection H2 as ->. reflexivity.
      * split; [discriminate|]. intros H. inversion H as [|? ? ? ? _ H2]; subst. apply IH in H2. discriminate.
    + split; [discriminate|]. intros H. inversion H as [|? y ? ? (Hb & l' & E')]; subst. injection E' as -> ->. contradiction.
Qed.

Lemma named_for names xs row : names_of names xs -> List.length row = List.length xs -> named (combine xs row) = flat_map bound_name names.
Proof.
  intros H. revert row. induction H as [|s n ss ns (Hb & l & ->) H IH]; intros row E; [reflexivity|]. destruct row as [|r row]; [discriminate|]. injection E as E.
  unfold named in *. cbn [combine flat_map fst bound_name]. rewrite (IH row E). reflexivity.
Qed.

Lemma named_let features e binds bs : expands_binds features e binds bs -> named bs = flat_map bound_name binds.
Proof. intros H. induction H as [|e l l1 x v s ss bs Hb Hv H IH]; [reflexivity|]. unfold named in *. cbn [flat_map fst bound_name]. rewrite IH. reflexivity. Qed.

Lemma named_one x s : NoDup (named [(x, s)]).
Proof. unfold named. cbn [flat_map fst]. destruct (text_eqb x (t_ "_")); cbn [app]; [constructor|]. constructor; [intros []|constructor]. Qed.

Section Main.
  Variable features : list text.
  Notation expand := (expand features).
  Notation expand_seq := (expand_seq features).
  Notation expand_binds := (expand_binds features).
  Notation expands := (expands features).
  Notation expands_seq := (expands_seq features).
  Notation expands_binds := (expands_binds features).

  Definition fits (s : sexp) : Prop := distinct_binders s -> forall e, good (expand s) (expands e s) e.

  Lemma seq_fits ss : (forall s, In s ss -> fits s) -> (forall s, In s ss -> distinct_binders s) -> forall e, good (expand_seq ss) (expands_seq e ss) e.
  Proof.
    induction ss as [|s ss IH]; intros Hf Hd e.
    - eapply good_ext; [apply good_ret|]. intros a. split; [intros ->; constructor|]. intros H. inversion H. reflexivity.
    - cbn [Model.expand_seq]. eapply good_ext.
      + eapply good_bind; [apply (Hf s (or_introl eq_refl)), Hd; left; reflexivity|]. intros x _. cbn beta.
        eapply good_bind; [apply IH; intros t Ht; [apply Hf|apply Hd]; right; exact Ht|]. intros xs _. apply good_ret.
      + intros a. cbn beta. split; [intros (x & Hx & xs & Hxs & ->); constructor; assumption|]. intros H. inversion H; subst. eexists. split; [eassumption|]. eexists. split; [eassumption|reflexivity].
  Qed.

  Inductive answers (e : env) : list sexp -> option (list (text * sexp)) -> Prop :=
  | an_nil : answers e [] (Some [])
  | an_bad s ss : (forall l l1 x v, binder x -> s <> Sexp l (RList [Sexp l1 (RSymbol x); v])) -> answers e (s :: ss) None
  | an_cons l l1 x v s ss o : binder x -> expands e v [s] -> answers e ss o ->
      answers e (Sexp l (RList [Sexp l1 (RSymbol x); v]) :: ss) (option_map (cons (x, s)) o).

  Lemma answers_some e ss bs : answers e ss (Some bs) <-> expands_binds e ss bs.
  Proof.
    split.
    - revert bs. induction ss as [|s ss IH]; intros bs H; inversion H; subst; [constructor|]. destruct o as [bs'|]; [|discriminate].
      match goal with H : option_map _ _ = _ |- _ => injection H as <- end. constructor; auto.
    - induction 1 as [|e l l1 x v s ss bs Hb Hv H IH]; [constructor|]. change (Some ((x, s) :: bs)) with (option_map (cons (x, s)) (Some bs)). constructor; assumption.
  Qed.

  Lemma binds_fit ss : (forall s t, In s ss -> sub t s -> fits t) -> (forall s, In s ss -> distinct_binders s) -> forall e, good (expand_binds ss) (answers e ss) e.
  Proof.
    induction ss as [|s ss IH]; intros Hf Hd e.
    - eapply good_ext; [apply good_ret|]. intros a. split; [intros ->; constructor|]. intros H. inversion H; reflexivity.
    - assert (Hno : (forall l l1 x v, binder x -> s <> Sexp l (RList [Sexp l1 (RSymbol x); v])) -> good (ret_m None) (answers e (s :: ss)) e).
      { intros Hn. eapply good_ext; [apply good_ret|]. intros o. split; [intros ->; apply an_bad, Hn|]. intros H. inversion H; subst; [reflexivity|]. exfalso. eapply Hn; [eassumption|reflexivity]. }
      destruct s as [l r].
      destruct r as [| | | | |[|[l1 [| |x| | | | | |]] [|v [|w ws]]]| | |]; cbn [Model.expand_binds]; try (apply Hno; discriminate).
      destruct (metavar x) eqn:Ex; [|apply Hno; intros l' l1' y w Hb E; injection E as -> -> -> ->; apply metavar_binder in Hb; congruence].
      apply metavar_binder in Ex.
      assert (Hsub : sub v (Sexp l (RList [Sexp l1 (RSymbol x); v]))) by (eapply s_list; [right; left; reflexivity|constructor]).
      eapply good_ext.
      + eapply good_bind; [apply good_one; apply (Hf _ v (or_introl eq_refl) Hsub); eapply distinct_sub; [exact Hsub|apply Hd; left; reflexivity]|].
        intros s _. cbn beta. eapply good_bind; [apply IH; [intros s' t' Hs'; apply Hf; right; exact Hs'|intros s' Hs'; apply Hd; right; exact Hs']|]. intros o' _. apply good_ret.
      + intros o. cbn beta. split.
        * intros (s & Hs & o' & Ho & ->). constructor; assumption.
        * intros H. inversion H as [|? ? Hn|]; subst; [exfalso; eapply Hn; [exact Ex|reflexivity]|]. eexists. split; [eassumption|]. eexists. split; [eassumption|reflexivity].
  Qed.

  Lemma good_none {A} (m : M A) (R : A -> Prop) e : good m (fun _ => False) e -> (forall a, ~ R a) -> good m R e.
  Proof. intros H HR. eapply good_ext; [exact H|]. intros a. split; [intros []|intros Ha; exact (HR a Ha)]. Qed.

  Ltac no_list := match goal with H : ~ directive_form _ |- _ => exfalso; apply H; do 3 eexists; split; [reflexivity|]; unfold directives; cbn [map In]; auto 20; fail end.
  Ltac inv H := inversion H; subst; try (match goal with Ha : atom _ |- _ => destruct Ha end); try no_list.
  Ltac none := apply good_none; [apply good_fail|let a := fresh "a" in let H := fresh "H" in intros a H; inv H].

  Theorem expand_fits : forall s, fits s.
  Proof.
    apply form_induction. intros s IH Hd e.
    assert (Hatom : atom s -> good (ret_m [s]) (expands e s) e).
    { intros Ha. eapply good_ext; [apply good_ret|]. intros a. split; [intros ->; constructor; exact Ha|]. intros H. destruct s as [l r]. inversion H; subst; cbn in Ha; try reflexivity; try contradiction.
      destruct ss; contradiction. }
    destruct s as [l r]. destruct r as [b v|x|x|x|x|[|s0 args]|h init tail|b|x]; try (exact (Hatom I)).
    - (* symbol *)
      change (expand (Sexp l (RSymbol x))) with (if is_meta x then (fun v : vars => match vars_get x v with Some s => (v, Ok [s]) | None => (v, Err (UndefinedMetaVariable l x)) end) else ret_m [Sexp l (RSymbol x)]).
      destruct (is_meta x) eqn:Em; [|apply Hatom; cbn; rewrite <- is_meta_dollar; congruence].
      apply is_meta_dollar in Em. intros v Hv. rewrite (Hv x). destruct (e x) as [s|] eqn:Ex; (split; [exact Hv|]); intros a; cbn [snd]; split.
      + intros E. injection E as <-. apply x_var; assumption.
      + intros H. inversion H; subst; [contradiction|congruence].
      + discriminate.
      + intros H. inversion H; subst; [contradiction|congruence].
    - (* list *)
      assert (IHargs : forall s, In s (s0 :: args) -> fits s) by (intros s Hs; exact (IH s s Hs (s_here s))).
      assert (Hdargs : forall s, In s (s0 :: args) -> distinct_binders s) by (intros s Hs; eapply distinct_sub; [|exact Hd]; eapply s_list; [exact Hs|constructor]).
      destruct (head_directive s0) as [d|] eqn:Ehd.
      2:{ assert (E : expand (Sexp l (RList (s0 :: args))) = bind_m (expand_seq (s0 :: args)) (fun ss => ret_m [Sexp l (RList ss)])).
          { cbn [Model.expand]. rewrite Ehd. reflexivity. }
          rewrite E. eapply good_ext; [eapply good_bind; [apply seq_fits; assumption|intros x _; apply good_ret]|].
          pose proof (head_none s0 args Ehd) as Hn. intros a. cbn beta. split.
          - intros (x & Hx & ->). apply x_list; [discriminate|exact Hn|exact Hx].
          - intros H. inversion H; subst; try (exfalso; apply Hn; do 3 eexists; split; [reflexivity|]; unfold directives; cbn [map In]; auto 20; fail).
            + destruct H0.
            + eexists. split; [eassumption|reflexivity]. }
      pose proof (head_some s0 d Ehd) as (l0 & ->). clear Ehd.
      assert (Hseq : forall body, (forall s, In s body -> In s args) -> forall e, good (expand_seq body) (expands_seq e body) e).
      { intros body Hb e'. apply seq_fits; intros s Hs; [apply IHargs|apply Hdargs]; right; apply Hb, Hs. }
      assert (Hone : forall s p, In s args -> good (one (expand s) (sloc s) p) (fun x => expands e s [x]) e).
      { intros s p Hs. apply good_one, IHargs; [right; exact Hs|apply Hdargs; right; exact Hs]. }
      destruct d.
      + (* $symbol *)
        change (good (bind_m (expand_seq args) (fun ss => match symbol_name ss with inr l' => fail_m (DirectiveSyntax l' DSymbol) | inl [] => fail_m (EmptySymbol l) | inl name => ret_m [Sexp l (RSymbol name)] end))
          (expands e (Sexp l (RList (Sexp l0 (RSymbol (spelling DSymbol)) :: args)))) e).
        eapply good_ext.
        * eapply (good_bind _ _ _ (fun ss a => exists ts, Forall2 spelled ss ts /\ List.concat ts <> [] /\ a = [Sexp l (RSymbol (List.concat ts))])); [apply Hseq; auto|]. intros ss _.
          destruct (symbol_name ss) as [[|c name]|l'] eqn:En.
          -- apply good_none; [apply good_fail|]. intros a (ts & H1 & H2 & _). apply H2. pose proof (proj2 (symbol_name_spec ss _) (ex_intro _ ts (conj H1 eq_refl))) as E. congruence.
          -- eapply good_ext; [apply good_ret|]. intros a. split.
             ++ intros ->. apply symbol_name_spec in En. destruct En as (ts & H1 & H2). exists ts. rewrite H2. split; [exact H1|]. split; [discriminate|reflexivity].
             ++ intros (ts & H1 & H2 & ->). pose proof (proj2 (symbol_name_spec ss _) (ex_intro _ ts (conj H1 eq_refl))) as E. rewrite En in E. injection E as ->. reflexivity.
          -- apply good_none; [apply good_fail|]. intros a (ts & H1 & H2 & _). pose proof (proj2 (symbol_name_spec ss _) (ex_intro _ ts (conj H1 eq_refl))) as E. congruence.
        * intros a. cbn beta. split; [intros (ss & Hss & ts & H1 & H2 & ->); eapply x_symbol; eassumption|]. intros H. inv H. eexists. split; [eassumption|]. eexists. split; [eassumption|]. split; [assumption|reflexivity].
      + (* $let *)
        destruct args as [|[l1 [| | | | |binds| | |]] body]; try none.
        change (good (bind_m (expand_binds binds) (fun o => match o with Some bs => with_binds bs (expand_seq body) | None => fail_m (DirectiveSyntax l DLet) end))
          (expands e (Sexp l (RList (Sexp l0 (RSymbol (spelling DLet)) :: Sexp l1 (RList binds) :: body)))) e).
        eapply good_ext.
        * eapply (good_bind _ _ _ (fun o a => exists bs, o = Some bs /\ expands_seq (extends e bs) body a)).
          -- apply binds_fit.
             ++ intros s t Hs Ht. eapply (IH (Sexp l1 (RList binds))); [right; left; reflexivity|]. eapply s_list; eassumption.
             ++ intros s Hs. eapply distinct_sub; [|exact Hd]. eapply s_list; [right; left; reflexivity|]. eapply s_list; [exact Hs|constructor].
          -- intros [bs|] Ho; [|apply good_none; [apply good_fail|intros a (bs & E & _); discriminate]]. apply answers_some in Ho.
             eapply good_ext; [apply good_with_binds; [|apply Hseq; intros s Hs; right; exact Hs]|].
             ++ rewrite (named_let _ _ _ _ Ho). eapply Hd; [apply s_here|left; reflexivity].
             ++ intros a. split; [intros H; exists bs; auto|]. intros (bs' & E & H). injection E as ->. exact H.
        * intros a. cbn beta. split; [intros (o & Ho & bs & -> & H); apply answers_some in Ho; eapply x_let; eassumption|]. intros H. inv H.
          eexists. split; [apply answers_some; eassumption|]. eexists. split; [reflexivity|eassumption].
      + (* $let1 *)
        destruct args as [|[l1 [| |x| | | | | |]] [|v body]]; try none.
        change (good (if metavar x then bind_m (one (expand v) (sloc v) PLet1) (fun s => with_binds [(x, s)] (expand_seq body)) else fail_m (DirectiveSyntax l DLet1))
          (expands e (Sexp l (RList (Sexp l0 (RSymbol (spelling DLet1)) :: Sexp l1 (RSymbol x) :: v :: body)))) e).
        destruct (metavar x) eqn:Ex.
        * apply metavar_binder in Ex. eapply good_ext.
          -- eapply good_bind; [apply Hone; right; left; reflexivity|]. intros s _. cbn beta. apply good_with_binds; [apply named_one|]. apply Hseq. intros t Ht. right. right. exact Ht.
          -- intros a. cbn beta. split; [intros (s & Hs & H); eapply x_let1; eassumption|]. intros H. inv H. eexists. split; [eassumption|assumption].
        * apply good_none; [apply good_fail|]. intros a H. inv H. match goal with H : binder _ |- _ => apply metavar_binder in H; congruence end.
      + (* $for *)
        destruct args as [|[l1 [| | | | |names| | |]] [|v body]]; try none.
        change (good (bind_m (one (expand v) (sloc v) PFor) (fun x => match rep x with
            | RList elemss => match for_names names with
              | Some names => match for_rows (List.length names) elemss with Some rows => for_each (map (combine names) rows) (expand_seq body) | None => fail_m (DirectiveSyntax l DFor) end
              | None => fail_m (DirectiveSyntax l DFor) end
            | _ => fail_m (DirectiveSyntax l DFor) end))
          (expands e (Sexp l (RList (Sexp l0 (RSymbol (spelling DFor)) :: Sexp l1 (RList names) :: v :: body)))) e).
        eapply good_ext.
        * eapply (good_bind _ _ _ (fun x a => exists l2 elemss xs rows outs, x = Sexp l2 (RList elemss) /\ names_of names xs /\ rows_of (List.length xs) elemss rows /\
            expands_each features e (map (combine xs) rows) body outs /\ a = List.concat outs)); [apply Hone; right; left; reflexivity|].
          intros [l2 r] _. destruct r as [| | | | |elemss| | |]; cbn [rep]; try (apply good_none; [apply good_fail|intros a (? & ? & ? & ? & ? & E & _); discriminate]).
          destruct (for_names names) as [xs|] eqn:En.
          2:{ apply good_none; [apply good_fail|]. intros a (? & ? & xs & ? & ? & _ & E & _). apply for_names_spec in E. congruence. }
          pose proof (proj1 (for_names_spec _ _) En) as Hxs.
          destruct (for_rows (List.length xs) elemss) as [rows|] eqn:Er.
          2:{ apply good_none; [apply good_fail|]. intros a (? & ? & xs' & ? & ? & E0 & E1 & E2 & _). injection E0 as -> ->. apply for_names_spec in E1. rewrite En in E1. injection E1 as ->. apply for_rows_spec in E2. congruence. }
          pose proof (proj1 (for_rows_spec _ _ _) Er) as Hrows.
          eapply good_ext.
          -- apply (good_for_each features body).
             ++ intros bs Hbs. apply in_map_iff in Hbs. destruct Hbs as (row & <- & Hrow). rewrite (named_for names xs row Hxs); [eapply Hd; [apply s_here|right; reflexivity]|].
                clear - Hrows Hrow. induction Hrows as [|s r ss rs (E & _) H IH]; [destruct Hrow|]. destruct Hrow as [<-|Hrow]; [exact E|exact (IH Hrow)].
             ++ intros bs _. apply Hseq. intros t Ht. right. right. exact Ht.
          -- intros a. cbn beta. split.
             ++ intros (outs & H & ->). exists l2, elemss, xs, rows, outs. auto.
             ++ intros (l2' & elemss' & xs' & rows' & outs & E0 & E1 & E2 & H & ->). injection E0 as -> ->. apply for_names_spec in E1. rewrite En in E1. injection E1 as <-.
                apply for_rows_spec in E2. rewrite Er in E2. injection E2 as <-. exists outs. auto.
        * intros a. cbn beta. split.
          -- intros (x & Hx & l2 & elemss & xs & rows & outs & -> & H1 & H2 & H3 & ->). eapply x_for; eassumption.
          -- intros H. inv H. eexists. split; [eassumption|]. do 5 eexists. split; [reflexivity|]. split; [eassumption|]. split; [eassumption|]. split; [eassumption|reflexivity].
      + (* $for1 *)
        destruct args as [|[l1 [| |x| | | | | |]] [|v body]]; try none.
        change (good (if metavar x then bind_m (one (expand v) (sloc v) PFor1) (fun s => match rep s with RList elems => for_each (map (fun elem => [(x, elem)]) elems) (expand_seq body) | _ => fail_m (DirectiveSyntax l DFor1) end) else fail_m (DirectiveSyntax l DFor1))
          (expands e (Sexp l (RList (Sexp l0 (RSymbol (spelling DFor1)) :: Sexp l1 (RSymbol x) :: v :: body)))) e).
        destruct (metavar x) eqn:Ex.
        * apply metavar_binder in Ex. eapply good_ext.
          -- eapply (good_bind _ _ _ (fun s a => exists l2 elems outs, s = Sexp l2 (RList elems) /\ expands_each features e (map (fun s => [(x, s)]) elems) body outs /\ a = List.concat outs)); [apply Hone; right; left; reflexivity|].
             intros [l2 r] _. destruct r as [| | | | |elems| | |]; cbn [rep]; try (apply good_none; [apply good_fail|intros a (? & ? & ? & E & _); discriminate]).
             eapply good_ext.
             ++ apply (good_for_each features body).
                ** intros bs Hbs. apply in_map_iff in Hbs. destruct Hbs as (s & <- & _). apply named_one.
                ** intros bs _. apply Hseq. intros t Ht. right. right. exact Ht.
             ++ intros a. cbn beta. split; [intros (outs & H & ->); exists l2, elems, outs; auto|]. intros (? & ? & outs & E & H & ->). injection E as -> ->. exists outs. auto.
          -- intros a. cbn beta. split.
             ++ intros (s & Hs & l2 & elems & outs & -> & H & ->). eapply x_for1; eassumption.
             ++ intros H. inv H. eexists. split; [eassumption|]. do 3 eexists. split; [reflexivity|]. split; [eassumption|reflexivity].
        * apply good_none; [apply good_fail|]. intros a H. inv H. match goal with H : binder _ |- _ => apply metavar_binder in H; congruence end.
      + (* $when *)
        destruct args as [|c body]; try none.
        change (good (bind_m (one (expand c) (sloc c) PWhen) (fun x => match rep x with RBool b => if b then expand_seq body else ret_m [] | _ => fail_m (DirectiveSyntax l DWhen) end))
          (expands e (Sexp l (RList (Sexp l0 (RSymbol (spelling DWhen)) :: c :: body)))) e).
        eapply good_ext.
        * eapply (good_bind _ _ _ (fun x a => exists l2 b, x = Sexp l2 (RBool b) /\ if b then expands_seq e body a else a = [])); [apply Hone; left; reflexivity|].
          intros [l2 r] _. destruct r as [| | | | | | |b|]; cbn [rep]; try (apply good_none; [apply good_fail|intros a (? & ? & E & _); discriminate]).
          destruct b; (eapply good_ext; [first [apply Hseq; intros t Ht; right; exact Ht|apply good_ret]|]); intros a; cbn beta; split.
          -- intros H. exists l2, true. auto.
          -- intros (? & b & E & H). injection E as _ <-. exact H.
          -- intros H. exists l2, false. auto.
          -- intros (? & b & E & H). injection E as _ <-. exact H.
        * intros a. cbn beta. split.
          -- intros (x & Hx & l2 & b & -> & H). destruct b; [eapply x_when; eassumption|subst a; eapply x_when_not; eassumption].
          -- intros H. inv H; eexists; (split; [eassumption|]); do 2 eexists; (split; [reflexivity|]); cbn beta iota; [assumption|reflexivity].
      + (* $not *)
        destruct args as [|c [|c' args]]; try none.
        change (good (bind_m (one (expand c) (sloc c) PNot) (fun x => match rep x with RBool b => ret_m [Sexp l (RBool (negb b))] | _ => fail_m (DirectiveSyntax l DNot) end))
          (expands e (Sexp l (RList [Sexp l0 (RSymbol (spelling DNot)); c]))) e).
        eapply good_ext.
        * eapply (good_bind _ _ _ (fun x a => exists l2 b, x = Sexp l2 (RBool b) /\ a = [Sexp l (RBool (negb b))])); [apply Hone; left; reflexivity|].
          intros [l2 r] _. destruct r as [| | | | | | |b|]; cbn [rep]; try (apply good_none; [apply good_fail|intros a (? & ? & E & _); discriminate]).
          eapply good_ext; [apply good_ret|]. intros a. split; [intros ->; exists l2, b; auto|]. intros (? & b' & E & ->). injection E as _ <-. reflexivity.
        * intros a. cbn beta. split.
          -- intros (x & Hx & l2 & b & -> & ->). eapply x_not; eassumption.
          -- intros H. inv H. eexists. split; [eassumption|]. do 2 eexists. split; reflexivity.
      + (* $feature *)
        destruct args as [|c [|c' args]]; try none.
        change (good (bind_m (one (expand c) (sloc c) PFeature) (fun x => match rep x with RString s => ret_m [Sexp l (RBool (existsb (text_eqb s) features))] | _ => fail_m (DirectiveSyntax l DFeature) end))
          (expands e (Sexp l (RList [Sexp l0 (RSymbol (spelling DFeature)); c]))) e).
        eapply good_ext.
        * eapply (good_bind _ _ _ (fun x a => exists l2 s, x = Sexp l2 (RString s) /\ a = [Sexp l (RBool (existsb (text_eqb s) features))])); [apply Hone; left; reflexivity|].
          intros [l2 r] _. destruct r as [| | |s| | | | |]; cbn [rep]; try (apply good_none; [apply good_fail|intros a (? & ? & E & _); discriminate]).
          eapply good_ext; [apply good_ret|]. intros a. split; [intros ->; exists l2, s; auto|]. intros (? & b' & E & ->). injection E as _ <-. reflexivity.
        * assert (Hin : forall s, existsb (text_eqb s) features = true <-> In s features).
          { intros s. rewrite existsb_exists. split; [intros (y & Hy & E); apply text_eqb_eq in E; subst y; exact Hy|]. intros H. exists s. split; [exact H|apply text_eqb_refl]. }
          intros a. cbn beta. split.
          -- intros (x & Hx & l2 & s & -> & ->). specialize (Hin s). destruct (existsb (text_eqb s) features); [eapply x_feature; [eassumption|apply Hin; reflexivity]|].
             eapply x_no_feature; [eassumption|]. rewrite <- Hin. discriminate.
          -- intros H. inv H; eexists; (split; [eassumption|]); do 2 eexists; (split; [reflexivity|]); match goal with f : text |- _ => specialize (Hin f) end.
             ++ rewrite (proj2 Hin) by assumption. reflexivity.
             ++ destruct (existsb (text_eqb f) features); [exfalso; tauto|reflexivity].
    - (* dotted *)
      change (good (bind_m (expand h) (fun x => bind_m (expand_seq init) (fun xs => bind_m (one (expand tail) (sloc tail) PCdr) (fun t => ret_m [fold_right (fun b a => Sexp l (rep_cons b a)) t (x ++ xs)]))))
        (expands e (Sexp l (RListLike h init tail))) e).
      assert (Hf : forall s, In s (tail :: h :: init) -> fits s) by (intros s Hs; exact (IH s s Hs (s_here s))).
      assert (Hds : forall s, In s (tail :: h :: init) -> distinct_binders s) by (intros s Hs; eapply distinct_sub; [|exact Hd]; eapply s_dotted; [exact Hs|constructor]).
      eapply good_ext.
      + eapply good_bind; [apply Hf; [right; left; reflexivity|apply Hds; right; left; reflexivity]|]. intros x _. cbn beta.
        eapply good_bind; [apply seq_fits; intros s Hs; [apply Hf|apply Hds]; right; right; exact Hs|]. intros xs _. cbn beta.
        eapply good_bind; [apply good_one; apply Hf; [left; reflexivity|apply Hds; left; reflexivity]|]. intros t _. apply good_ret.
      + intros a. cbn beta. split.
        * intros (x & Hx & xs & Hxs & t & Ht & ->). apply x_dotted; [constructor; assumption|exact Ht].
        * intros H. inversion H; subst; [destruct H0|]. match goal with H : Spec.expands_seq _ _ (_ :: _) _ |- _ => inversion H; subst end.
          eexists. split; [eassumption|]. eexists. split; [eassumption|]. eexists. split; [eassumption|reflexivity].
  Qed.

  Lemma run_ok ss out : (forall s, In s ss -> distinct_binders s) -> run features ss = Ok out <-> expands_seq no_binds ss out.
  Proof. intros Hd. apply (seq_fits ss (fun s _ => expand_fits s) Hd no_binds). intros x. reflexivity. Qed.
End Main.

(** * Plain forms *)
Lemma plain_directive ss : (forall s, In s ss -> plain s) -> ~ directive_form ss.
Proof.
  intros H (l & d & args & -> & Hd). specialize (H _ (or_introl eq_refl)). inversion H as [s Ha| |]; subst. apply Ha. unfold directives in Hd. cbn [map In] in Hd.
  repeat (destruct Hd as [<-|Hd]; [eexists; reflexivity|]). destruct Hd.
Qed.

Lemma plain_expands features e s : plain s -> expands features e s [s].
Proof.
  assert (Hseq : forall ss, (forall s, In s ss -> expands features e s [s]) -> expands_seq features e ss ss).
  { induction ss as [|x ss IH]; intros H; [constructor|]. apply (xs_cons features e x ss [x] ss); [apply H; left; reflexivity|]. apply IH. intros y Hy. apply H. right. exact Hy. }
  induction 1 as [s Ha|l ss Hp IH|l h init tail Hp IH Ht IHt Hn1 Hn2].
  - constructor. exact Ha.
  - destruct ss as [|s ss]; [apply x_atom; exact I|]. apply x_list; [discriminate|apply plain_directive, Hp|]. apply Hseq, IH.
  - replace (Sexp l (RListLike h init tail)) with (dotted l (h :: init) tail) at 2; [apply x_dotted; [apply Hseq, IH|exact IHt]|].
    clear - Hn1 Hn2. revert h. induction init as [|x init IHi]; intros h.
    + cbn. f_equal. unfold rep_cons, rep_list_like. destruct tail as [l' [| | | | | | | |]]; cbn; try reflexivity; exfalso; [eapply Hn1|eapply Hn2]; reflexivity.
    + cbn [dotted fold_right]. specialize (IHi x). cbn [dotted fold_right] in IHi. rewrite IHi. reflexivity.
Qed.

Lemma plain_no_meta s : plain s -> distinct_binders s.
Proof.
  intros Hp l l0 d l1 binds body Hs Hd. exfalso.
  assert (Hall : forall t, sub t s -> plain t).
  { clear - Hp. induction Hp as [s Ha|l ss Hp IH|l h init tail Hp IH Ht IHt Hn1 Hn2]; intros t Hs.
    - inversion Hs; subst; [constructor; exact Ha| |destruct Ha]. destruct ss; [match goal with H : In _ [] |- _ => destruct H end|destruct Ha].
    - inversion Hs; subst; [apply pl_list; exact Hp|]. eapply IH; eassumption.
    - inversion Hs as [| |? ? ? ? u Hin Hu]; subst; [apply pl_dotted; assumption|]. destruct Hin as [<-|Hin]; [exact (IHt t Hu)|exact (IH u Hin t Hu)]. }
  apply Hall in Hs. inversion Hs as [? Ha|? ss Hss|]; subst; [destruct Ha|]. eapply (plain_directive _ Hss). do 3 eexists. split; [reflexivity|].
  unfold directives. cbn [map In]. destruct Hd as [->| ->]; auto.
Qed.

Lemma plain_ok features ss : (forall s, In s ss -> plain s) -> run features ss = Ok ss.
Proof.
  intros H. apply run_ok; [intros s Hs; apply plain_no_meta, H, Hs|]. induction ss as [|s ss IH]; [constructor|].
  apply (xs_cons features no_binds s ss [s] ss); [apply plain_expands, H; left; reflexivity|]. apply IH. intros t Ht. apply H. right. exact Ht.
Qed.
