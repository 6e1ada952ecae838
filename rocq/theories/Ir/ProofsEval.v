(** Evaluation has one result, and expressions without a type have no value. *)
From Verif.Base Require Import Base.
From Verif.Ir Require Import Model Spec Proofs.

Section Eval.
Variable scoped : bool.
Variable round32 : fp -> fp.
Variable prim : prim_op -> heap -> list val -> option (heap * val).
Variable funs : nat -> option (list nat * list nat * rt).
Notation ev := (ev scoped round32 prim funs).
Notation evs := (evs scoped round32 prim funs).

Ltac step :=
  match goal with
  | H : Some _ = Some _ |- _ => inv H
  | H : RsVal _ = RsVal _ |- _ => inv H
  | H : inl _ = inl _ |- _ => inv H
  | H : inr _ = inr _ |- _ => inv H
  | H : RsJump _ _ = RsJump _ _ |- _ => inv H
  | H : abrupt (RsVal _) |- _ => destruct H
  | A : ?x = Some _, B : ?x = Some _ |- _ => rewrite A in B
  | IH : forall h2 r2, ev ?h ?e ?x h2 r2 -> _, H : ev ?h ?e ?x _ _ |- _ =>
      let E1 := fresh "E" in let E2 := fresh "E" in
      destruct (IH _ _ H) as [E1 E2]; clear H; try subst
  | IH : forall h2 r2, evs ?h ?e ?x h2 r2 -> _, H : evs ?h ?e ?x _ _ |- _ =>
      let E1 := fresh "E" in let E2 := fresh "E" in
      destruct (IH _ _ H) as [E1 E2]; clear H; try subst
  | H : v_bool ?a = v_bool ?b |- _ => apply v_bool_inj in H; subst
  | H : v_true = v_false |- _ => discriminate H
  | H : v_false = v_true |- _ => discriminate H
  | H : forall vs, RsJump ?i ?ws <> RsJump ?i vs |- _ => exfalso; exact (H ws eq_refl)
  end.

Lemma deterministic :
  (forall h e x h1 r1, ev h e x h1 r1 -> forall h2 r2, ev h e x h2 r2 -> h1 = h2 /\ r1 = r2) /\
  (forall h e xs h1 r1, evs h e xs h1 r1 -> forall h2 r2, evs h e xs h2 r2 -> h1 = h2 /\ r1 = r2).
Proof.
  apply (ev_evs_ind scoped round32 prim funs
    (fun h e x h1 r1 => forall h2 r2, ev h e x h2 r2 -> h1 = h2 /\ r1 = r2)
    (fun h e xs h1 r1 => forall h2 r2, evs h e xs h2 r2 -> h1 = h2 /\ r1 = r2)); intros.
  all: match goal with
       | H : ev _ _ _ ?h ?r |- _ = ?h /\ _ = ?r => inversion H; subst; clear H
       | H : evs _ _ _ ?h ?r |- _ = ?h /\ _ = ?r => inversion H; subst; clear H
       end; no_op; try discriminate.
  all: repeat step; try discriminate; try (split; congruence).
Qed.

Theorem ev_deterministic h e x h1 r1 h2 r2 :
  ev h e x h1 r1 -> ev h e x h2 r2 -> h1 = h2 /\ r1 = r2.
Proof. intros A B. exact (proj1 deterministic _ _ _ _ _ A _ _ B). Qed.

(** ** Expressions without a type *)

Lemma unary_none o a : unary_ty o a = Ret None -> o = UPanic \/ a = Ret None.
Proof.
  unfold unary_ty, on_ty, some_ty.
  destruct o; try discriminate; auto; destruct a as [[t|]| |]; cbn; auto; try discriminate;
    intros H; exfalso; revert H;
    [destruct (ptr_elem t)|destruct (syntax_body t)|destruct (array_elem t)]; discriminate.
Qed.

Lemma binary_none o a b : binary_ty o a b = Ret None -> a = Ret None \/ b = Ret None.
Proof.
  unfold binary_ty, on_ty, some_ty.
  destruct o; try discriminate; auto.
  - destruct a as [[t|]| |]; cbn; auto; try discriminate. destruct (ptr_elem t); discriminate.
  - destruct b as [[t|]| |]; cbn; auto; try discriminate. destruct (array_elem t); discriminate.
Qed.

Lemma on_none x f : on_ty x f = Ret None -> x = Ret None.
Proof.
  unfold on_ty. destruct x as [[t|]| |]; cbn; auto; try discriminate.
  destruct (f t); discriminate.
Qed.

Lemma first_match_in h v clauses binds body :
  first_match round32 h v clauses = Some (binds, body) -> exists p, In (p, body) clauses.
Proof.
  induction clauses as [|[p b] cs IH]; cbn; [discriminate|].
  destruct (pmatch round32 h p v); try discriminate.
  - intros H; inv H. eauto.
  - intros H. destruct (IH H) as [q Q]. eauto.
Qed.

Lemma match_none t cs p b : rt_ty (RMatch t cs) = Ret None -> In (p, b) cs -> rt_ty b = Ret None.
Proof.
  cbn. induction cs as [|[q c] cs IH]; intros E I; [destruct I|].
  destruct (rt_ty c) as [[t'|]| |] eqn:C; cbn in E; try discriminate.
  destruct I as [I|I]; [inv I; exact C|auto].
Qed.

Ltac bools := repeat match goal with
  | H : _ && _ = true |- _ => apply andb_prop in H; destruct H
  end.

Lemma untyped :
  (forall h e x h1 r, ev h e x h1 r -> cont_free x = true -> rt_ty x = Ret None -> abrupt r) /\
  (forall h e xs h1 r, evs h e xs h1 r ->
     (forall r', r = inr r' -> abrupt r') /\
     (forall x, In x xs -> cont_free x = true -> rt_ty x = Ret None -> exists r', r = inr r')).
Proof.
  apply (ev_evs_ind scoped round32 prim funs
    (fun h e x h1 r => cont_free x = true -> rt_ty x = Ret None -> abrupt r)
    (fun h e xs h1 r => (forall r', r = inr r' -> abrupt r') /\
       (forall x, In x xs -> cont_free x = true -> rt_ty x = Ret None -> exists r', r = inr r'))).
  - intros h e id t v _ _ X. discriminate X.
  - intros h e x o es h1 vs h2 r OP EV [_ IH] PF CF TY.
    assert (NO : forall a, In a es -> cont_free a = true -> rt_ty a = Ret None -> abrupt r).
    { intros a Ia Ca Ta. destruct (IH a Ia Ca Ta) as [r' X]. discriminate X. }
    destruct x; cbn [operation] in OP; try discriminate OP;
      try (cbn [rt_ty] in TY; unfold some_ty in TY; discriminate TY).
    + inv OP. cbn [perform] in PF. inv PF. exact I.
    + inv OP. cbn [rt_ty] in TY. cbn [cont_free] in CF. destruct (unary_none _ _ TY) as [->|T].
      * cbn in PF. destruct vs as [|[] [|]]; try discriminate PF. inv PF. exact I.
      * eapply NO; [left; reflexivity|exact CF|exact T].
    + inv OP. cbn [rt_ty] in TY. cbn [cont_free] in CF. bools. destruct (binary_none _ _ _ TY) as [T|T].
      * eapply NO; [left; reflexivity|assumption|exact T].
      * eapply NO; [right; left; reflexivity|assumption|exact T].
    + inv OP. cbn [rt_ty cont_free] in *. apply on_none in TY. eapply NO; [left; reflexivity|exact CF|exact TY].
    + inv OP. cbn [rt_ty cont_free] in *. apply on_none in TY. eapply NO; [left; reflexivity|exact CF|exact TY].
    + inv OP. cbn in PF. destruct vs as [|v [|]]; try discriminate PF. inv PF. exact I.
  - intros h e x o es h1 r OP EV [IH _] CF TY. exact (IH r eq_refl).
  - intros h e f args h1 g cenv vs params captured body e' r h3 r' EV [_ IH] F C B _ R CF TY.
    cbn [rt_ty cont_free] in *. apply on_none in TY. bools.
    destruct (IH f (or_introl eq_refl)) as [r1 X]; [assumption|exact TY|discriminate X].
  - intros h e f args h1 r EV [IH _] CF TY. exact (IH r eq_refl).
  - intros h e x h' r EV IH CF TY. cbn in *. exact (IH CF TY).
  - intros h e s ss x h1 v h2 r E1 I1 E2 I2 CF TY. apply I2; [|exact TY]. cbn in *. bools.
    rewrite !andb_true_iff. auto.
  - intros; assumption.
  - intros h e c t f h1 b h2 r E1 I1 E2 I2 CF TY. cbn in CF, TY. bools.
    destruct (rt_ty t) as [[t'|]| |] eqn:T; cbn in TY; try discriminate TY.
    apply I2; destruct b; assumption.
  - intros; assumption.
  - intros h e c b h1 _ _ _ X. discriminate X.
  - intros h e c b h1 h2 v h3 r _ _ _ _ _ _ _ X. discriminate X.
  - intros; assumption.
  - intros; assumption.
  - intros h e a b h1 h2 r _ _ _ _ _ X. discriminate X.
  - intros h e a b h1 _ _ _ X. discriminate X.
  - intros; assumption.
  - intros h e a b h1 _ _ _ X. discriminate X.
  - intros h e a b h1 h2 r _ _ _ _ _ X. discriminate X.
  - intros; assumption.
  - intros h e target clauses h1 v binds body h2 r E1 I1 FM E2 I2 CF TY.
    destruct (first_match_in _ _ _ _ _ FM) as [p Ip].
    apply I2; [|exact (match_none _ _ _ _ TY Ip)].
    cbn in CF. bools. match goal with H : forallb _ _ = true |- _ => rewrite forallb_forall in H; exact (H _ Ip) end.
  - intros; assumption.
  - intros h e x h' r EV IH CF TY. cbn in *. exact (IH CF TY).
  - intros h e id t init vars x h1 v h2 r E1 I1 E2 I2 CF TY. apply I2; [|exact TY]. cbn in *. bools.
    rewrite !andb_true_iff. auto.
  - intros; assumption.
  - intros h e x h' r EV IH CF TY. discriminate CF.
  - intros h e id params body conts x h1 vs h2 r _ _ _ _ _ X. discriminate X.
  - intros h e id params body conts x h1 r _ _ _ X. discriminate X.
  - intros h e. split; [discriminate|]. intros x [].
  - intros h e x xs h1 v h2 vs E1 I1 E2 [_ I2]. split; [discriminate|].
    intros y [->|Iy] CF TY; [destruct (I1 CF TY)|].
    destruct (I2 y Iy CF TY) as [r' X]. discriminate X.
  - intros h e x xs h1 r E1 _ A. split; [intros r' X; inv X; exact A|]. eauto.
  - intros h e x xs h1 v h2 r E1 _ E2 [I2 _]. split; [intros r' X; inv X; exact (I2 _ eq_refl)|]. eauto.
Qed.

End Eval.
