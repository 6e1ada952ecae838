From Verif.Base Require Import Base.
From Verif.Ir Require Import Model.
From Verif.Closure Require Import Model Spec ProofsSim ProofsScope ProofsGroup.
From Verif.Inline Require Import Model Spec.

(** ** Expressions that differ in the ids of variables *)
Fixpoint erase (p : rtpat) : rtpat :=
  match p with
  | PVar _ ty None => PVar 0 ty None
  | PVar _ ty (Some p) => PVar 0 ty (Some (erase p))
  | PWildcard _ | PNull _ | PConst _ => p
  | PDeref p => PDeref (erase p)
  | PNonNull p => PNonNull (erase p)
  | PReinterpret ty p => PReinterpret ty (erase p)
  | PSyntax p => PSyntax (erase p)
  | PData ty i ps => PData ty i (map erase ps)
  | PStruct ty ps => PStruct ty (map erase ps)
  end.

Definition apart (r : list (nat * nat)) (P Q : list nat) : Prop :=
  NoDup P /\ NoDup Q /\ List.length P = List.length Q /\ (forall u, In u P -> ~ In u (map fst r)) /\ (forall u, In u Q -> ~ In u (map snd r)).

Inductive rn : list (nat * nat) -> expr -> expr -> Prop :=
| rn_var r u u' t t' : In (u, u') r -> rn r (EVar u t) (EVar u' t')
| rn_op r o es es' : Forall2 (rn r) es es' -> rn r (EOp o es) (EOp o es')
| rn_call r f f' es es' : rn r f f' -> Forall2 (rn r) es es' -> rn r (ECall f es) (ECall f' es')
| rn_seq r es es' x x' : Forall2 (rn r) es es' -> rn r x x' -> rn r (ESeq es x) (ESeq es' x')
| rn_if r a b c a' b' c' : rn r a a' -> rn r b b' -> rn r c c' -> rn r (EIf a b c) (EIf a' b' c')
| rn_while r a b a' b' : rn r a a' -> rn r b b' -> rn r (EWhile a b) (EWhile a' b')
| rn_and r a b a' b' : rn r a a' -> rn r b b' -> rn r (EAnd a b) (EAnd a' b')
| rn_or r a b a' b' : rn r a a' -> rn r b b' -> rn r (EOr a b) (EOr a' b')
| rn_match r a a' cs cs' : rn r a a' ->
    Forall2 (fun c c' => erase (fst c) = erase (fst c') /\ apart r (pat_defs (fst c)) (pat_defs (fst c')) /\
      rn (combine (pat_defs (fst c)) (pat_defs (fst c')) ++ r) (snd c) (snd c')) cs cs' -> rn r (EMatch a cs) (EMatch a' cs')
| rn_never r : rn r ENever ENever
| rn_let_nil r b b' : rn r b b' -> rn r (ELetVar [] b) (ELetVar [] b')
| rn_let r id id' t x x' l l' b b' : rn r x x' -> apart r [id] [id'] -> rn ((id, id') :: r) (ELetVar l b) (ELetVar l' b') ->
    rn r (ELetVar ((id, t, x) :: l) b) (ELetVar ((id', t, x') :: l') b').

Definition flip (r : list (nat * nat)) : list (nat * nat) := map (fun p => (snd p, fst p)) r.
Lemma flip_fst : forall r, map fst (flip r) = map snd r.
Proof. intro r. unfold flip. rewrite map_map. reflexivity. Qed.
Lemma flip_snd : forall r, map snd (flip r) = map fst r.
Proof. intro r. unfold flip. rewrite map_map. reflexivity. Qed.
Lemma flip_combine : forall P Q r, flip (combine P Q ++ r) = combine Q P ++ flip r.
Proof. intros P Q r. unfold flip. rewrite map_app. f_equal. revert Q. induction P as [|p P IH]; intros [|q Q]; cbn; try reflexivity. f_equal. apply IH. Qed.
Lemma flip_in : forall u u' r, In (u, u') r -> In (u', u) (flip r).
Proof. intros u u' r I. apply in_map_iff. exists (u, u'). auto. Qed.
Lemma flip_apart : forall r P Q, apart r P Q -> apart (flip r) Q P.
Proof. intros r P Q (H1 & H2 & H3 & H4 & H5). unfold apart. rewrite flip_fst, flip_snd. auto. Qed.

Lemma Forall2_flip_size : forall (x : expr) r es es', (forall y, (size y < size x)%nat -> forall r y', rn r y y' -> rn (flip r) y' y) ->
  (forall a, In a es -> (size a < size x)%nat) -> Forall2 (rn r) es es' -> Forall2 (rn (flip r)) es' es.
Proof.
  intros x r es es' IH HS H. induction H as [|a b es es' H1 H IHl]; constructor; [apply IH; [apply HS; left; reflexivity|exact H1]|]. apply IHl. intros c I. apply HS. right. exact I.
Qed.
Lemma rn_flip : forall x r y, rn r x y -> rn (flip r) y x.
Proof.
  intro x. induction x as [x IH] using expr_size_ind. intros r y H.
  pose proof (Forall2_flip_size x) as FF.
  destruct H; cbn [size] in *.
  - constructor. apply flip_in. assumption.
  - constructor. eapply FF; [exact IH| |eassumption]. intros a I. pose proof (size_in size _ a I). lia.
  - constructor; [apply IH; [lia|assumption]|]. eapply FF; [exact IH| |eassumption]. intros a I. pose proof (size_in size _ a I). lia.
  - constructor; [|apply IH; [lia|assumption]]. eapply FF; [exact IH| |eassumption]. intros a I. pose proof (size_in size _ a I). lia.
  - constructor; (apply IH; [lia|assumption]).
  - constructor; (apply IH; [lia|assumption]).
  - constructor; (apply IH; [lia|assumption]).
  - constructor; (apply IH; [lia|assumption]).
  - constructor; [apply IH; [lia|assumption]|]. 
    match goal with X : Forall2 _ cs cs' |- _ => rename X into HC end.
    assert (HS : forall c, In c cs -> (size (snd c) < S (size a + fold_right (fun x n => size (snd x) + n) 0 cs))%nat) by (intros c I; pose proof (size_in (fun c => size (snd c)) _ c I); cbn in *; lia).
    assert (IH' : forall c, In c cs -> forall r y', rn r (snd c) y' -> rn (flip r) y' (snd c)) by (intros c I; apply IH; apply HS in I; cbn in *; lia).
    clear - HC IH'. induction HC as [|c c' cs cs' (H1 & H2 & H3) HC IHl]; constructor.
    + split; [auto|]. split; [apply flip_apart, H2|]. rewrite <- flip_combine. apply IH'; [left; reflexivity|exact H3].
    + apply IHl. intros d I. apply IH'. right. exact I.
  - constructor.
  - constructor. apply IH; [lia|assumption].
  - constructor; [apply IH; [cbn; lia|assumption]|apply flip_apart; assumption|]. change ((id', id) :: flip r) with (flip ((id, id') :: r)). apply IH; [cbn; lia|assumption].
Qed.

(** ** They mean the same *)
Section Same.
Variables (prim : strict -> heap -> list value -> option (heap * res)) (equals : const -> value -> option bool) (FS : nat -> option function).

Definition same_match (p q : rtpat) (a b : matched) : Prop :=
  match a, b with
  | MYes x, MYes y => map fst x = pat_defs p /\ map fst y = pat_defs q /\ map snd x = map snd y
  | MNo, MNo | MUndefined, MUndefined => True
  | _, _ => False
  end.

Lemma erase_match : forall h p q v, erase p = erase q -> same_match p q (pmatch equals h p v) (pmatch equals h q v).
Proof.
  intros h p. induction p as [p IH] using pat_ind. intros q v E.
  assert (LS : forall ps, Forall (fun p => forall q v, erase p = erase q -> same_match p q (pmatch equals h p v) (pmatch equals h q v)) ps ->
    forall qs vs, map erase ps = map erase qs ->
    match pmatch_fields (pmatch equals h) ps vs, pmatch_fields (pmatch equals h) qs vs with
    | MYes x, MYes y => map fst x = flat_map pat_defs ps /\ map fst y = flat_map pat_defs qs /\ map snd x = map snd y
    | MNo, MNo | MUndefined, MUndefined => True
    | _, _ => False
    end).
  { intros ps H. induction H as [|p0 ps H0 H IHl]; intros [|q0 qs] vs EQ; try discriminate EQ; cbn; [auto|]. injection EQ as E0 EQ. destruct vs as [|w vs]; [exact I|].
    specialize (H0 q0 w E0). specialize (IHl qs vs EQ). unfold same_match in H0. destruct (pmatch equals h p0 w), (pmatch equals h q0 w); cbn; try contradiction; auto.
    destruct (pmatch_fields (pmatch equals h) ps vs), (pmatch_fields (pmatch equals h) qs vs); cbn; try contradiction; auto.
    destruct H0 as (A1 & A2 & A3), IHl as (B1 & B2 & B3). rewrite !map_app, A1, A2, A3, B1, B2, B3. auto. }
  destruct p as [id t [p|]|t|p|p|t|t i ps|t ps|t p|p|c]; destruct q as [id' t' [q|]|t'|q|q|t'|t' i' qs|t' qs|t' q|q|c']; try discriminate E; cbn in *;
    try (injection E as E); subst; auto.
  - specialize (IH q v ltac:(assumption)). unfold same_match in *. destruct (pmatch equals h p v), (pmatch equals h q v); cbn; try contradiction; auto.
    destruct IH as (A1 & A2 & A3). rewrite A1, A2, A3. auto.
  - destruct v; cbn; auto. destruct (load h a) as [w|]; [|exact I]. exact (IH q w ltac:(assumption)).
  - destruct v as [[]| | | | | | |]; cbn; auto. destruct (load h a) as [w|]; [|exact I]. exact (IH q w ltac:(assumption)).
  - destruct v as [[]| | | | | | |]; cbn; auto.
  - destruct v as [a|a|j vs|t vs|w|vs|f w|fs f e]; cbn; auto. destruct (Nat.eqb i' j); [|exact I]. exact (LS ps IH qs vs ltac:(assumption)).
  - destruct v as [a|a|j vs|t vs|w|vs|f w|fs f e]; cbn; auto. exact (LS ps IH qs vs ltac:(assumption)).
  - destruct v as [a|a|j vs|t vs|w|vs|f w|fs f e]; cbn; auto. exact (IH q w ltac:(assumption)).
  - destruct (equals c' v) as [[]|]; cbn; auto.
Qed.

Definition env_ok (r : list (nat * nat)) (e e' : env) : Prop := forall u u', In (u, u') r -> lookup e u = lookup e' u'.

Lemma assoc_app_not : forall {A} (x e : list (nat * A)) u, ~ In u (map fst x) -> assoc u (x ++ e) = assoc u e.
Proof.
  intros A x e u. induction x as [|[k v] x IH]; intro N; [reflexivity|]. cbn in *. destruct (Nat.eqb_spec u k) as [->|NE]; [exfalso; apply N; left; reflexivity|]. apply IH. intro I. apply N. right. exact I.
Qed.
Lemma assoc_pair : forall {A} (x y : list (nat * A)) e e' u u', NoDup (map fst x) -> NoDup (map fst y) -> map snd x = map snd y ->
  In (u, u') (combine (map fst x) (map fst y)) -> assoc u (x ++ e) = assoc u' (y ++ e').
Proof.
  intros A x. induction x as [|[k v] x IH]; intros [|[k' v'] y] e e' u u' N1 N2 E I; try discriminate E; [destruct I|]. cbn in *. injection E as -> E. inversion N1; inversion N2; subst.
  destruct I as [I|I].
  - injection I as -> ->. rewrite !Nat.eqb_refl. reflexivity.
  - destruct (Nat.eqb_spec u k) as [->|NE]; [exfalso; apply in_combine_l in I; contradiction|].
    destruct (Nat.eqb_spec u' k') as [->|NE']; [exfalso; apply in_combine_r in I; contradiction|]. apply IH; assumption.
Qed.
Lemma env_ok_ext : forall r e e' x y P Q, env_ok r e e' -> apart r P Q -> map fst x = P -> map fst y = Q -> map snd x = map snd y ->
  env_ok (combine P Q ++ r) (x ++ e) (y ++ e').
Proof.
  intros r e e' x y P Q H (N1 & N2 & _ & D1 & D2) <- <- E u u' I. apply in_app_iff in I. destruct I as [I|I].
  - apply assoc_pair; assumption.
  - unfold lookup. rewrite !assoc_app_not; [apply H, I| |]; intro J; [apply (D2 u' J)|apply (D1 u J)]; apply in_map_iff; exists (u, u'); auto.
Qed.

Lemma rn_first : forall h v r cs cs' b x, 
  Forall2 (fun c c' => erase (fst c) = erase (fst c') /\ apart r (pat_defs (fst c)) (pat_defs (fst c')) /\
      rn (combine (pat_defs (fst c)) (pat_defs (fst c')) ++ r) (snd c) (snd c')) cs cs' ->
  first_match equals h v cs = Some (b, x) -> exists b' x' P Q, first_match equals h v cs' = Some (b', x') /\
    map fst b = P /\ map fst b' = Q /\ map snd b = map snd b' /\ apart r P Q /\ rn (combine P Q ++ r) x x'.
Proof.
  intros h v r cs cs' b x H. induction H as [|[p y] [p' y'] cs cs' (E & A & R) H IH]; cbn; intro F; [discriminate F|].
  pose proof (erase_match h p p' v E) as M. unfold same_match in M. destruct (pmatch equals h p v), (pmatch equals h p' v); try contradiction; try discriminate F; auto.
  injection F as <- <-. destruct M as (M1 & M2 & M3). do 4 eexists. split; [reflexivity|]. split; [reflexivity|]. split; [reflexivity|]. split; [exact M3|]. rewrite M1, M2. auto.
Qed.

Lemma rn_ev :
  (forall h e x h1 q, ev prim equals FS h e x h1 q -> forall r y e', rn r x y -> env_ok r e e' -> ev prim equals FS h e' y h1 q) /\
  (forall h e xs h1 q, evs prim equals FS h e xs h1 q -> forall r ys e', Forall2 (rn r) xs ys -> env_ok r e e' -> evs prim equals FS h e' ys h1 q).
Proof.
  apply (ev_evs_ind prim equals FS
    (fun h e x h1 q _ => forall r y e', rn r x y -> env_ok r e e' -> ev prim equals FS h e' y h1 q)
    (fun h e xs h1 q _ => forall r ys e', Forall2 (rn r) xs ys -> env_ok r e e' -> evs prim equals FS h e' ys h1 q));
    intros; match goal with K : rn _ _ _ |- _ => inversion K; subst | K : Forall2 (rn _) _ _ |- _ => inversion K; subst end;
    try solve [econstructor; eauto].
  - constructor. match goal with K : env_ok _ _ _, I : In _ _ |- _ => rewrite <- (K _ _ I) end. assumption.
  - eapply ev_if; [eauto|]. destruct b; eauto.
  - match goal with K : first_match _ _ _ _ = Some _, H : Forall2 _ _ _ |- _ => destruct (rn_first _ _ _ _ _ _ _ H K) as (b' & x' & P & Q & F & E1 & E2 & E3 & A & R) end.
    eapply ev_match; [eauto|exact F|]. match goal with K : forall r y e', rn r body y -> _ |- _ => apply (K _ _ _ R) end. apply env_ok_ext; assumption.
  - eapply ev_let; [eauto|]. match goal with K : forall r y e', rn r (ELetVar _ _) y -> _ |- _ => eapply K; [eassumption|] end.
    match goal with A : apart _ [?i] [?j], K : env_ok _ _ _ |- env_ok _ ((_, ?v) :: _) _ => exact (env_ok_ext _ _ _ [(i, v)] [(j, v)] _ _ K A eq_refl eq_refl eq_refl) end.
Qed.
End Same.
