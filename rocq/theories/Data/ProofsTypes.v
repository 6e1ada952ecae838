(** * The representation agrees with the definitions added for it *)
From Verif.Base Require Import Base.
From Verif.Ir Require Import Model Spec.
From Verif.Data Require Import Model Spec Proofs.

Definition body_defined (ds : list (nat * def)) (kons : list (list ct)) (b : body) : Prop :=
  match b with
  | BAlias _ _ => True
  | BStruct i id => exists f, nth_error kons i = Some f /\ In (id, DStruct SStandard f) ds
  | BUnion id ids =>
      In (id, DUnion (map CtId ids)) ds /\ Forall2 (fun s f => In (s, DStruct SStandard f) ds) ids kons
  end.

Definition defined (ds : list (nat * def)) (kons : list (list ct)) (x : expansion) : Prop :=
  match x with
  | EUnit | EEnum _ | EAlias _ => True
  | EBoxedStruct id | EStruct id => exists r f, kons = [f] /\ In (id, DStruct r f) ds
  | EBoxedTagged id n b =>
      In (id, DStruct SStandard [enum_ct n; CtPtr (body_ct b)]) ds /\ body_defined ds kons b
  | ETagged id n b =>
      In (id, DStruct SStandard [enum_ct n; body_ct b]) ds /\ body_defined ds kons b
  end.

(** ** Environments *)

Lemma grows_refl e : env_grows e e.
Proof. split; [lia|]. exists []. reflexivity. Qed.

Lemma grows_trans a b c : env_grows a b -> env_grows b c -> env_grows a c.
Proof.
  intros (L1 & n1 & E1) (L2 & n2 & E2). split; [lia|]. exists (n2 ++ n1). now rewrite E2, E1, app_assoc.
Qed.

Lemma grows_in e e' p : env_grows e e' -> In p (defs e) -> In p (defs e').
Proof. intros (_ & n & ->) H. apply in_or_app. now right. Qed.

(** [add_def] keeps environments well formed. *)
Definition fine (e e' : Model.env) : Prop := env_grows e e' /\ (env_wf e -> env_wf e').

Lemma fine_trans a b c : fine a b -> fine b c -> fine a c.
Proof. intros (G1 & W1) (G2 & W2). split; [eapply grows_trans; eauto|auto]. Qed.

Lemma fine_refl e : fine e e.
Proof. split; [apply grows_refl|auto]. Qed.

Lemma add_def_fine e d id e' : add_def e d = (id, e') -> fine e e' /\ In (id, d) (defs e').
Proof.
  unfold add_def. intro H. injection H as <- <-. split; [split|].
  - split; cbn; [lia|]. now exists [(next e, d)].
  - intros (N & B). split; cbn.
    + constructor; [|exact N]. intro I. apply in_map_iff in I. destruct I as ([i d'] & E & I).
      cbn in E. subst i. apply B in I. lia.
    + intros i d' [E|I]; [injection E as <- <-; lia|]. apply B in I. lia.
  - now left.
Qed.

Lemma add_structs_fine kons : forall e ids e', add_structs e kons = (ids, e') ->
  fine e e' /\ Forall2 (fun s f => In (s, DStruct SStandard f) (defs e')) ids kons.
Proof.
  induction kons as [|c kons IH]; cbn [add_structs]; intros e ids e' H.
  - injection H as <- <-. split; [apply fine_refl|constructor].
  - destruct (add_def e (DStruct SStandard c)) as [id e1] eqn:A.
    destruct (add_structs e1 kons) as [ids1 e2] eqn:E. injection H as <- <-.
    destruct (add_def_fine _ _ _ _ A) as [F1 I1]. destruct (IH _ _ _ E) as [F2 I2].
    split; [eapply fine_trans; eauto|]. constructor; [|exact I2]. eapply grows_in; [apply F2|exact I1].
Qed.

Lemma body_defined_grows e e' kons b : env_grows e e' ->
  body_defined (defs e) kons b -> body_defined (defs e') kons b.
Proof.
  intro G. destruct b as [i t|i id|id ids]; cbn; [auto| |].
  - intros (f & N & I). exists f. split; [exact N|]. eapply grows_in; eauto.
  - intros (I & F). split; [eapply grows_in; eauto|]. clear I.
    induction F; constructor; [eapply grows_in; eauto|assumption].
Qed.

Lemma defined_grows e e' kons x : env_grows e e' ->
  defined (defs e) kons x -> defined (defs e') kons x.
Proof.
  intro G. destruct x as [|n|t|id|id|id n b|id n b]; cbn; auto.
  1,2: intros (r & f & E & I); exists r, f; split; [exact E|]; eapply grows_in; eauto.
  all: intros (I & B); split; [eapply grows_in; eauto|eapply body_defined_grows; eauto].
Qed.

Lemma finish_defined repr kons e n b x e' :
  repr <> DC -> body_defined (defs e) kons b ->
  (match repr with DBoxed => boxed_tagged_on e n b | _ => tagged_on e n b end) = (x, e') ->
  fine e e' /\ defined (defs e') kons x.
Proof.
  intros R B H. destruct repr; [| |contradiction];
    [unfold boxed_tagged_on in H|unfold tagged_on in H];
    destruct (add_def e _) as [id e1] eqn:A; injection H as <- <-;
    destruct (add_def_fine _ _ _ _ A) as [F I]; (split; [exact F|]); (split; [exact I|]);
    eapply body_defined_grows; [apply F|exact B|apply F|exact B].
Qed.

Lemma one_defined r f e x e' (mk : nat -> expansion) :
  (mk = EBoxedStruct \/ mk = EStruct) ->
  (let (id, e) := add_def e (DStruct r f) in (mk id, e)) = (x, e') ->
  fine e e' /\ defined (defs e') [f] x.
Proof.
  intros M H. destruct (add_def e _) as [id e1] eqn:A. injection H as <- <-.
  destruct (add_def_fine _ _ _ _ A) as [F I]. split; [exact F|].
  destruct M as [-> | ->]; cbn; eauto.
Qed.

Lemma computed_defined d named e x e' :
  compute_data_expansion d named e = Ret (x, e') -> fine e e' /\ defined (defs e') (d_cons d) x.
Proof.
  unfold compute_data_expansion. destruct d as [repr kons]. cbn [d_cons d_repr]. intro H.
  destruct kons as [|f [|g kons]].
  - injection H as <- <-. split; [apply fine_refl|exact I].
  - unfold boxed_struct_on, struct_on, c_struct_on in H.
    destruct repr, f as [|t [|]], named;
      try (injection H as <- <-; split; [apply fine_refl|exact I]);
      (match type of H with Ret ?a = Ret ?b => assert (K : a = b) by (exact (f_equal (fun o => match o with Ret v => v | _ => a end) H)) end);
      eapply one_defined in K; eauto.
  - set (ks := f :: g :: kons) in *.
    assert (Rd : forall b e1, body_defined (defs e1) ks b -> fine e e1 -> repr <> DC ->
      match repr with DBoxed => Ret (boxed_tagged_on e1 (List.length ks) b)
                    | _ => Ret (tagged_on e1 (List.length ks) b) end = Ret (x, e') ->
      fine e e' /\ defined (defs e') ks x).
    { intros b e1 B F R K.
      assert (K' : (match repr with DBoxed => boxed_tagged_on e1 (List.length ks) b
                       | _ => tagged_on e1 (List.length ks) b end) = (x, e'))
        by (destruct repr; exact (f_equal (fun o => match o with Ret v => v | _ => (x, e') end) K)).
      destruct (finish_defined _ _ _ _ _ _ _ R B K') as [F' D]. split; [eapply fine_trans; eauto|exact D]. }
    destruct repr; [| |discriminate H].
    all: set (c := List.length (filter _ ks)) in *; destruct c as [|[|c']] eqn:C; subst c.
    all: try (injection H as <- <-; split; [apply fine_refl|exact I]).
    all: try (destruct (find_nonempty_spec ks 0 C) as (i & u & E & Hi & Nu & O); rewrite E in H;
      cbn [bind Nat.add] in H; destruct u as [|t [|t2 u]]; [contradiction| |]).
    all: try (refine (Rd _ _ _ (fine_refl e) _ H); [exact I|discriminate]).
    all: try (destruct (add_def e _) as [id e1] eqn:A;
      destruct (add_def_fine _ _ _ _ A) as [F1 I1];
      refine (Rd _ _ _ F1 _ H); [eexists; split; [exact Hi|exact I1]|discriminate]).
    all: unfold union_on in H; destruct (add_structs e ks) as [ids e1] eqn:A;
      destruct (add_def e1 _) as [id e2] eqn:A2;
      destruct (add_structs_fine _ _ _ _ A) as [F1 I1]; destruct (add_def_fine _ _ _ _ A2) as [F2 I2];
      (refine (Rd _ _ _ (fine_trans _ _ _ F1 F2) _ H); [split; [exact I2|]|discriminate]);
      clear - I1 F2; induction I1; constructor; [eapply grows_in; [apply F2|assumption]|assumption].
Qed.

(** ** Agreement *)

Lemma forall2_length {A B} (R : A -> B -> Prop) l m : Forall2 R l m -> List.length l = List.length m.
Proof. induction 1; cbn; auto. Qed.

Lemma forall2_imp {A B} (R S : A -> B -> Prop) l m :
  (forall a b, R a b -> S a b) -> Forall2 R l m -> Forall2 S l m.
Proof. intros H F. induction F; constructor; auto. Qed.

Lemma union_member ds ids kons i s f :
  Forall2 (fun s f => In (s, DStruct SStandard f) ds) ids kons ->
  nth_error ids i = Some s -> nth_error kons i = Some f ->
  In (s, DStruct SStandard f) ds /\ In (CtId s) (map CtId ids).
Proof.
  intros F. revert i. induction F as [|a b l m H F IH]; intros i Hs Hf; [destruct i; discriminate Hs|].
  destruct i as [|i]; cbn in *.
  - injection Hs as <-. injection Hf as <-. split; [exact H|now left].
  - destruct (IH i Hs Hf). split; [assumption|now right].
Qed.

Section Rt.
Variables (ds : list (nat * def)) (field : rt -> ct -> Prop).

Lemma tag_made n i : (i < n)%nat -> made ds field (enum_rt n i) (enum_ct n).
Proof.
  intro H. unfold enum_rt, enum_const, enum_ct. destruct n as [|[|n]]; try apply made_unit.
  apply made_tag. apply index_fits. exact H.
Qed.

Lemma body_made kons b i fi es x :
  body_for kons b -> body_defined ds kons b -> nth_error kons i = Some fi -> Forall2 field es fi ->
  body_rt b i es = Ret x -> made ds field x (body_ct b).
Proof.
  intros B D Hi F. destruct b as [k ty|k id|id ids]; cbn [body_for body_defined body_rt body_ct] in *.
  - destruct (Nat.eqb_spec i k) as [->|Ne]; intro H.
    + destruct B as [Bk _]. rewrite Bk in Hi. injection Hi as <-.
      inversion F as [|e t es' ? Hf Fr]; subst. inversion Fr; subst. injection H as <-. now apply made_field.
    + injection H as <-. apply made_uninit.
  - destruct (Nat.eqb_spec i k) as [->|Ne]; intro H; injection H as <-; [|apply made_uninit].
    destruct D as (f & Hf & I). rewrite Hf in Hi. injection Hi as <-.
    eapply made_struct; [exact I|]. eapply forall2_imp; [|exact F]. intros; now apply made_field.
  - unfold at_index. destruct (nth_error ids i) as [s|] eqn:Es; [|discriminate]. intro H. injection H as <-.
    destruct D as (I & Fd). destruct (union_member _ _ _ _ _ _ Fd Es Hi) as [Is It].
    eapply made_union; [exact I|exact It|]. eapply made_struct; [exact Is|].
    eapply forall2_imp; [|exact F]. intros; now apply made_field.
Qed.

Lemma boxed_made kons b i fi es x :
  body_for kons b -> body_defined ds kons b -> nth_error kons i = Some fi -> Forall2 field es fi ->
  body_rt_boxed b i es = Ret x -> made ds field x (CtPtr (body_ct b)).
Proof.
  intros B D Hi F H. pose proof (body_made kons b i fi es) as M.
  assert (A : forall y, (let* e := body_rt b i es in Ret (RAlloc LHeap e)) = Ret y ->
    made ds field y (CtPtr (body_ct b))).
  { intros y K. destruct (body_rt b i es) as [z| |]; try discriminate K. injection K as <-.
    apply made_alloc. now apply M. }
  destruct b as [k ty|k id|id ids]; [| |now apply A];
    cbn [body_rt_boxed] in H; destruct (i =? k)%nat; cbn [negb] in H;
    [now apply A| |now apply A|]; injection H as <-; apply made_uninit.
Qed.

Lemma expansion_made kons x i fi es y :
  expansion_for kons x -> defined ds kons x -> nth_error kons i = Some fi -> Forall2 field es fi ->
  to_rt x i es = Ret y -> made ds field y (to_ct x).
Proof.
  intros X D Hi F H.
  assert (L : (i < List.length kons)%nat) by (apply nth_error_Some; congruence).
  assert (Fm : Forall2 (made ds field) es fi) by (eapply forall2_imp; [|exact F]; intros; now apply made_field).
  destruct x as [|n|t|id|id|id n b|id n b]; cbn [expansion_for defined to_rt to_ct] in *.
  - injection H as <-. apply made_unit.
  - injection H as <-. destruct X as [-> _]. now apply tag_made.
  - subst kons. destruct i as [|[|]]; try discriminate Hi. injection Hi as <-.
    inversion F as [|e u es' ? Hf Fr]; subst. inversion Fr; subst. injection H as <-. now apply made_field.
  - injection H as <-. destruct D as (r & f & -> & I). destruct i as [|[|]]; try discriminate Hi.
    injection Hi as <-. apply made_alloc. eapply made_struct; eauto.
  - injection H as <-. destruct D as (r & f & -> & I). destruct i as [|[|]]; try discriminate Hi.
    injection Hi as <-. eapply made_struct; eauto.
  - destruct X as [-> B], D as [I Db]. destruct (body_rt_boxed b i es) as [z| |] eqn:E; try discriminate H.
    injection H as <-. eapply made_struct; [exact I|].
    constructor; [now apply tag_made|]. constructor; [|constructor]. eapply boxed_made; eauto.
  - destruct X as [-> B], D as [I Db]. destruct (body_rt b i es) as [z| |] eqn:E; try discriminate H.
    injection H as <-. eapply made_struct; [exact I|].
    constructor; [now apply tag_made|]. constructor; [|constructor]. eapply body_made; eauto.
Qed.
End Rt.

Section Pat.
Variables (ds : list (nat * def)) (field : rtpat -> ct -> Prop).

Lemma tag_fits n i : (i < n)%nat -> fits ds field (enum_pat n i) (enum_ct n).
Proof.
  intro H. unfold enum_pat, enum_const, enum_ct. destruct n as [|[|n]]; try apply fits_unit.
  apply fits_tag. apply index_fits. exact H.
Qed.

Lemma body_fits kons b i fi es x :
  body_for kons b -> body_defined ds kons b -> nth_error kons i = Some fi -> Forall2 field es fi ->
  body_pat b i es = Ret x -> fits ds field x (body_ct b).
Proof.
  intros B D Hi F. destruct b as [k ty|k id|id ids]; cbn [body_for body_defined body_pat body_ct] in *.
  - destruct (Nat.eqb_spec i k) as [->|Ne]; intro H.
    + destruct B as [Bk _]. rewrite Bk in Hi. injection Hi as <-.
      inversion F as [|e t es' ? Hf Fr]; subst. inversion Fr; subst. injection H as <-. now apply fits_field.
    + injection H as <-. apply fits_any.
  - destruct (Nat.eqb_spec i k) as [->|Ne]; intro H; injection H as <-; [|apply fits_any].
    destruct D as (f & Hf & I). rewrite Hf in Hi. injection Hi as <-.
    eapply fits_struct; [exact I|]. eapply forall2_imp; [|exact F]. intros; now apply fits_field.
  - unfold at_index. destruct (nth_error ids i) as [s|] eqn:Es; [|discriminate]. intro H. injection H as <-.
    destruct D as (I & Fd). destruct (union_member _ _ _ _ _ _ Fd Es Hi) as [Is It].
    eapply fits_union; [exact I|exact It|]. eapply fits_struct; [exact Is|].
    eapply forall2_imp; [|exact F]. intros; now apply fits_field.
Qed.

Lemma boxed_fits kons b i fi es x :
  body_for kons b -> body_defined ds kons b -> nth_error kons i = Some fi -> Forall2 field es fi ->
  body_pat_boxed b i es = Ret x -> fits ds field x (CtPtr (body_ct b)).
Proof.
  intros B D Hi F H. pose proof (body_fits kons b i fi es) as M.
  assert (A : forall y, (let* e := body_pat b i es in Ret (PDeref e)) = Ret y ->
    fits ds field y (CtPtr (body_ct b))).
  { intros y K. destruct (body_pat b i es) as [z| |]; try discriminate K. injection K as <-.
    apply fits_deref. now apply M. }
  destruct b as [k ty|k id|id ids]; [| |now apply A];
    cbn [body_pat_boxed] in H; destruct (i =? k)%nat; cbn [negb] in H;
    [now apply A| |now apply A|]; injection H as <-; apply fits_any.
Qed.

Lemma expansion_fits kons x i fi es y :
  expansion_for kons x -> defined ds kons x -> nth_error kons i = Some fi -> Forall2 field es fi ->
  to_rt_pat x i es = Ret y -> fits ds field y (to_ct x).
Proof.
  intros X D Hi F H.
  assert (L : (i < List.length kons)%nat) by (apply nth_error_Some; congruence).
  assert (Fm : Forall2 (fits ds field) es fi) by (eapply forall2_imp; [|exact F]; intros; now apply fits_field).
  destruct x as [|n|t|id|id|id n b|id n b]; cbn [expansion_for defined to_rt_pat to_ct] in *.
  - injection H as <-. apply fits_unit.
  - injection H as <-. destruct X as [-> _]. now apply tag_fits.
  - subst kons. destruct i as [|[|]]; try discriminate Hi. injection Hi as <-.
    inversion F as [|e u es' ? Hf Fr]; subst. inversion Fr; subst. injection H as <-. now apply fits_field.
  - injection H as <-. destruct D as (r & f & -> & I). destruct i as [|[|]]; try discriminate Hi.
    injection Hi as <-. apply fits_deref. eapply fits_struct; eauto.
  - injection H as <-. destruct D as (r & f & -> & I). destruct i as [|[|]]; try discriminate Hi.
    injection Hi as <-. eapply fits_struct; eauto.
  - destruct X as [-> B], D as [I Db]. destruct (body_pat_boxed b i es) as [z| |] eqn:E; try discriminate H.
    injection H as <-. eapply fits_struct; [exact I|].
    constructor; [now apply tag_fits|]. constructor; [|constructor]. eapply boxed_fits; eauto.
  - destruct X as [-> B], D as [I Db]. destruct (body_pat b i es) as [z| |] eqn:E; try discriminate H.
    injection H as <-. eapply fits_struct; [exact I|].
    constructor; [now apply tag_fits|]. constructor; [|constructor]. eapply body_fits; eauto.
Qed.
End Pat.
