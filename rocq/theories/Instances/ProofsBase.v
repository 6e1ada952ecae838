From Verif.Base Require Import Base BaseFacts VecFacts.
From Verif.Types Require Import Model Spec Proofs ProofsUnify ProofsMain ProofsApi ProofsReach.
From Verif.Instances Require Import Model Spec.

(** * Closed terms and replacement *)
Definition nameless (g : gty) : Prop := forall n k lv, ~ In (TName n k lv) (leaves g).

(** No application to nothing. *)
Fixpoint solid (g : gty) : Prop :=
  match g with
  | TApp callee args => solid callee /\ args <> [] /\ (fix go l := match l with [] => True | a :: l => solid a /\ go l end) args
  | _ => True
  end.

Lemma solid_app callee args : solid (TApp callee args) <-> solid callee /\ args <> [] /\ Forall solid args.
Proof.
  cbn [solid]. assert (H : forall l, (fix go l := match l with [] => True | a :: l => solid a /\ go l end) l <-> Forall solid l).
  { induction l as [|a l IH]; [split; [constructor|auto]|]. rewrite IH. split; [intros (H1 & H2); constructor; auto|intros H; split; [exact (Forall_inv H)|exact (Forall_inv_tail H)]]. }
  rewrite H. reflexivity.
Qed.

Lemma gapp_ne callee args : args <> [] -> gapp callee args = TApp callee args.
Proof. destruct args; [contradiction|reflexivity]. Qed.

Lemma nameless_app callee args : nameless (TApp callee args) -> nameless callee /\ forall a, In a args -> nameless a.
Proof.
  intros H. split; [intros n k lv Hi; apply (H n k lv); cbn [leaves]; apply in_or_app; left; exact Hi|].
  intros a Ha n k lv Hi. apply (H n k lv). cbn [leaves]. apply in_or_app. right. apply in_flat_map. eauto.
Qed.

Lemma gsubst_replace s M g : nameless g -> gsubst s (replace_gens M g) = replace_gens (fun x => option_map (gsubst s) (M x)) g.
Proof.
  induction g as [n k lv|c|callee args IHc IHa|x lv] using gty_ind'; intros Hn; cbn [replace_gens gsubst]; try reflexivity.
  - exfalso. apply (Hn n k lv). left. reflexivity.
  - apply nameless_app in Hn. destruct Hn as (Hc & Ha). rewrite <- (IHc Hc). clear IHc.
    assert (E : map (replace_gens (fun x => option_map (gsubst s) (M x))) args = map (gsubst s) (map (replace_gens M) args)).
    { rewrite map_map. apply map_ext_in. intros a Hin. symmetry. rewrite Forall_forall in IHa. apply IHa; auto. }
    rewrite E. destruct (map (replace_gens M) args); reflexivity.
  - destruct (M x); reflexivity.
Qed.

Lemma replace_none M g : solid g -> (forall x lv, In (TGen x lv) (leaves g) -> M x = None) -> replace_gens M g = g.
Proof.
  induction g as [n k lv|c|callee args IHc IHa|x lv] using gty_ind'; intros Hs Hx; cbn [replace_gens]; try reflexivity.
  - apply solid_app in Hs. destruct Hs as (H1 & H2 & H3). rewrite IHc; [|exact H1|intros x lv Hi; apply (Hx x lv); cbn [leaves]; apply in_or_app; auto].
    rewrite gapp_ne by (destruct args; [contradiction|discriminate]). f_equal. rewrite <- (map_id args) at 2. apply map_ext_in. intros a Ha.
    rewrite Forall_forall in IHa, H3. apply IHa; auto. intros x lv Hi. apply (Hx x lv). cbn [leaves]. apply in_or_app. right. apply in_flat_map. eauto.
  - rewrite (Hx x lv); [reflexivity|left; reflexivity].
Qed.

Lemma replace_agree M M' g : (forall x lv, In (TGen x lv) (leaves g) -> M x = M' x) -> replace_gens M g = replace_gens M' g.
Proof.
  induction g as [n k lv|c|callee args IHc IHa|x lv] using gty_ind'; intros Hx; cbn [replace_gens]; try reflexivity.
  - rewrite IHc by (intros x lv Hi; apply (Hx x lv); cbn [leaves]; apply in_or_app; auto). f_equal. apply map_ext_in. intros a Ha.
    rewrite Forall_forall in IHa. apply IHa; auto. intros x lv Hi. apply (Hx x lv). cbn [leaves]. apply in_or_app. right. apply in_flat_map. eauto.
  - rewrite (Hx x lv); [reflexivity|left; reflexivity].
Qed.

Lemma closed_nameless ps g : closed_over ps g -> nameless g.
Proof. intros H n k lv Hi. exact (H _ Hi). Qed.

(** * Lookup *)
Lemma find_none_notin (ps : list gen) (l : list gty) g : ~ In g ps -> find (fun x => (fst x =? g)%N) (combine ps l) = None.
Proof.
  revert l. induction ps as [|p ps IH]; intros [|t l] H; try reflexivity. cbn [combine find fst].
  destruct (N.eqb_spec p g) as [->|_]; [exfalso; apply H; left; reflexivity|]. apply IH. intros Hi. apply H. right. exact Hi.
Qed.

Lemma lookup_given f ps tys g : NoDup ps -> option_map f (lookup ps tys g) = given ps (map f tys) g.
Proof.
  unfold given. revert tys. induction ps as [|p ps IH]; intros [|t tys] H; try reflexivity. cbn [lookup map combine find fst].
  specialize (IH tys (proj2 (proj1 (NoDup_cons_iff _ _) H))). destruct (N.eqb_spec p g) as [->|Hne].
  - rewrite find_none_notin in IH by (apply NoDup_cons_iff in H; tauto). destruct (lookup ps tys g); [discriminate|reflexivity].
  - rewrite <- IH. destruct (lookup ps tys g); reflexivity.
Qed.

Lemma lookup_in ps tys g u : lookup ps tys g = Some u -> In (g, u) (combine ps tys).
Proof.
  revert tys. induction ps as [|p ps IH]; intros [|t tys]; try discriminate. cbn [lookup combine].
  destruct (lookup ps tys g) as [w|] eqn:E.
  - intros H. injection H as ->. right. apply IH, E.
  - destruct (N.eqb_spec p g) as [->|]; [|discriminate]. intros H. injection H as ->. left. reflexivity.
Qed.

Lemma Forall2_combine {A B} (R : A -> B -> Prop) l l' : Forall2 R l l' -> forall x y, In (x, y) (combine l l') -> R x y.
Proof. induction 1 as [|x y l l' H _ IH]; intros a b; [intros []|]. intros [E|Hi]; [injection E as <- <-; exact H|apply IH, Hi]. Qed.

Lemma Forall2_len {A B} (R : A -> B -> Prop) l l' : Forall2 R l l' -> List.length l = List.length l'.
Proof. induction 1; cbn; congruence. Qed.

Lemma Forall2_imp {A B} (R S : A -> B -> Prop) l l' : (forall x y, R x y -> S x y) -> Forall2 R l l' -> Forall2 S l l'.
Proof. intros H. induction 1; constructor; auto. Qed.

Lemma Forall2_flip {A B} (R : A -> B -> Prop) l l' : Forall2 R l l' -> Forall2 (fun y x => R x y) l' l.
Proof. induction 1; constructor; auto. Qed.

(** * Contexts *)
Section Ctx.
  Variable env : kind_env.
  Notation wf := (wf env).
  Notation hask := (hask env).

  Definition later (kap : var -> ast_kind) (p : context) (kap' : var -> ast_kind) (p' : context) : Prop :=
    (len p <= len p')%nat /\ wf kap' p' /\ (forall i, (i < len p)%nat -> kap' i = kap i) /\
    (forall s, equations p' s -> equations p s).

  (** Nothing was bound. *)
  Definition calm (kap : var -> ast_kind) (p : context) (kap' : var -> ast_kind) (p' : context) : Prop :=
    later kap p kap' p' /\ (forall v k lv, unresolved p v k lv -> unresolved p' v k lv).

  Lemma later_refl kap p : wf kap p -> later kap p kap p.
  Proof. intros H. split; [reflexivity|]. split; [exact H|]. split; auto. Qed.

  Lemma later_trans k1 p k2 q k3 r : later k1 p k2 q -> later k2 q k3 r -> later k1 p k3 r.
  Proof.
    intros (H1 & H2 & H3 & H4) (G1 & G2 & G3 & G4). split; [lia|]. split; [exact G2|]. split; [|auto].
    intros i Hi. rewrite G3 by lia. apply H3, Hi.
  Qed.

  Lemma calm_refl kap p : wf kap p -> calm kap p kap p.
  Proof. intros H. split; [apply later_refl, H|auto]. Qed.

  Lemma calm_trans k1 p k2 q k3 r : calm k1 p k2 q -> calm k2 q k3 r -> calm k1 p k3 r.
  Proof. intros (H1 & H2) (G1 & G2). split; [eapply later_trans; eauto|auto]. Qed.

  Lemma grows_calm kap p kap' p' : grows env kap p kap' p' -> calm kap p kap' p'.
  Proof. intros (H1 & H2 & H3 & H4 & _ & H6). split; [split; auto|]. intros v k lv. apply H6. Qed.

  Lemma extends_later kap p p' : extends env kap p p' -> later kap p kap p'.
  Proof. intros (H1 & H2 & _ & H4 & _). split; [lia|]. split; [exact H2|]. split; auto. Qed.

  Lemma same_later kap p p' : same env kap p p' -> calm kap p kap p'.
  Proof. intros H. split; [apply extends_later, same_extends, H|]. intros v k lv. apply H. Qed.

  Definition ok (kap : var -> ast_kind) (p : context) (t : ty) (k : ast_kind) : Prop := tbound (len p) t /\ hask kap t k.

  Lemma later_ok kap p kap' p' t k : later kap p kap' p' -> ok kap p t k -> ok kap' p' t k.
  Proof.
    intros (H1 & H2 & H3 & H4) (Hb & Hk). split; [intros j Hj; pose proof (Hb j Hj); lia|]. apply (hask_ext env kap kap' (len p)); auto.
  Qed.

  Lemma ok_typed kap p t k : ok kap p t k -> typed env kap p t.
  Proof. intros (H1 & H2). split; eauto. Qed.

  (** Assignments of the right kinds. *)
  Definition ksol (p : context) (s : var -> gty) : Prop :=
    equations p s /\ forall v k lv, unresolved p v k lv -> kind_of env (s v) = Some k.

  Lemma ksol_kinds kap p s : wf kap p -> ksol p s -> forall i, (i < len p)%nat -> kind_of env (s i) = Some (kap i).
  Proof. intros H (H1 & H2). apply (kind_of_solution env kap p s H H1 H2). Qed.

  Lemma ksol_ok kap p s t k : wf kap p -> ksol p s -> ok kap p t k -> kind_of env (interp s t) = Some k.
  Proof. intros H Hs (Hb & Hk). apply (kind_of_interp env kap); [|exact Hk]. intros j Hj. apply (ksol_kinds kap p); auto. Qed.

  Lemma ksol_later kap p kap' p' s : wf kap p -> later kap p kap' p' -> ksol p' s -> ksol p s.
  Proof.
    intros Hwf L Hs. pose proof L as (L1 & L2 & L3 & L4). split; [apply L4, Hs|]. intros v k lv Hu.
    assert (Hv : (v < len p)%nat) by (apply nth_error_Some; unfold unresolved in Hu; congruence).
    rewrite (ksol_kinds kap' p' s L2 Hs) by lia. rewrite L3 by exact Hv. f_equal.
    destruct (proj2 Hwf v _ Hu) as (_ & H). exact (H k lv eq_refl).
  Qed.

  Lemma solution_ksol p s : solution env p s -> ksol p s.
  Proof. intros (H1 & H2). split; [exact H1|]. intros v k lv Hu. apply (H2 v k lv Hu). Qed.

  (** Terms of well-formed contexts apply to something. *)
  Lemma solid_canonical kap p s : wf kap p -> canonical p s -> forall i, (i < len p)%nat -> solid (s i).
  Proof.
    intros ((Hb & Ha) & Hk) (Hs & Hu) i. induction (Ha i) as [i _ IH]. intros Hi.
    destruct (nth_error p i) as [t|] eqn:Ht; [|apply nth_error_None in Ht; lia].
    destruct (Hk i t Ht) as (Hh & _). destruct (is_self t i) eqn:Ek.
    - apply is_self_true in Ek. destruct Ek as (k & lv & ->). rewrite (Hu i k lv Ht). exact I.
    - rewrite (Hs i t Ht). assert (IH' : forall j, tchild t j -> solid (s j)).
      { intros j Hj. apply IH; [exists t; auto|exact (Hb i t Ht j Hj)]. }
      destruct t as [v k lv|c|callee args|g lv]; cbn [interp]; try exact I; [apply IH'; reflexivity|].
      destruct Hh as (ks & _ & Hne). apply solid_app. split; [apply IH'; left; reflexivity|].
      split; [destruct (vars_iter args); [contradiction|discriminate]|]. apply Forall_forall. intros x Hx. apply in_map_iff in Hx.
      destruct Hx as (j & <- & Hj). apply IH'. right. exact Hj.
  Qed.

  Lemma solid_term kap p s t k : wf kap p -> canonical p s -> ok kap p t k -> solid (interp s t).
  Proof.
    intros Hwf Hc (Hb & Hk). assert (IH' : forall j, tchild t j -> solid (s j)).
    { intros j Hj. apply (solid_canonical kap p s Hwf Hc), Hb, Hj. }
    destruct t as [v k' lv|c|callee args|g lv]; cbn [interp]; try exact I; [apply IH'; reflexivity|].
    destruct Hk as (ks & _ & Hne). apply solid_app. split; [apply IH'; left; reflexivity|].
    split; [destruct (vars_iter args); [contradiction|discriminate]|]. apply Forall_forall. intros x Hx. apply in_map_iff in Hx.
    destruct Hx as (j & <- & Hj). apply IH'. right. exact Hj.
  Qed.

  (** * One substitution *)
  Definition stands (p : context) (t : ty) (g : gty) : Prop := forall s, equations p s -> interp s t = g.

  Lemma stands_solid kap p t k g : wf kap p -> ok kap p t k -> stands p t g -> solid g.
  Proof.
    intros Hwf Hok Hg. destruct (canonical_exists p (proj1 Hwf)) as (s0 & Hs0). rewrite <- (Hg s0 (proj1 Hs0)). eapply solid_term; eauto.
  Qed.

  Lemma subst_closed m kap p t K g : wf kap p -> map_fits env kap p m -> ok kap p t K -> stands p t g -> nameless g ->
    exists t' kap' p', conv (fun n => subst n p m t) (t', p') /\ calm kap p kap' p' /\ ok kap' p' t' K /\
      forall s, equations p' s -> interp s t' = replace_gens (fun x => option_map (interp s) (m x)) g.
  Proof.
    intros Hwf Hm (Hb & Hk) Hg Hn. destruct (canonical_exists p (proj1 Hwf)) as (s0 & Hs0).
    destruct (subst_ok env m (S (size (interp s0 t))) kap p s0 t K Hwf Hs0 Hm Hb Hk ltac:(lia))
      as (t' & kap' & p' & s' & H1 & G & B & HK & H5 & H6 & H7).
    exists t', kap', p'. split; [exact H1|]. split; [apply grows_calm, G|]. split; [split; auto|].
    intros s Hs. rewrite (canonical_gsubst_t p' s' s t' (proj1 (proj1 (proj2 G))) H5 Hs B), H7, (Hg s0 (proj1 Hs0)), (gsubst_replace _ _ _ Hn).
    apply replace_ext. intros x. destruct (m x) as [u|] eqn:E; cbn [option_map]; [|reflexivity]. f_equal.
    destruct (Hm x u E) as (Hub & _). symmetry. apply (canonical_gsubst_t p s0 s u (proj1 Hwf) Hs0); [apply G, Hs|exact Hub].
  Qed.

  (** * Mapping over a list *)
  Section MapCtx.
    Context {A B : Type}.
    Variable R : (var -> ast_kind) -> context -> (var -> ast_kind) -> context -> Prop.
    Variable f : nat -> context -> A -> outcome (B * context).
    Variable Pre : (var -> ast_kind) -> context -> A -> Prop.
    Variable Q : (var -> ast_kind) -> context -> A -> B -> Prop.
    Hypothesis R_wf : forall kap p kap' p', R kap p kap' p' -> wf kap' p'.
    Hypothesis R_refl : forall kap p, wf kap p -> R kap p kap p.
    Hypothesis R_trans : forall k1 p k2 q k3 r, R k1 p k2 q -> R k2 q k3 r -> R k1 p k3 r.
    Hypothesis Pre_mono : forall kap p kap' p' x, R kap p kap' p' -> Pre kap p x -> Pre kap' p' x.
    Hypothesis Q_mono : forall kap p kap' p' x y, R kap p kap' p' -> Q kap p x y -> Q kap' p' x y.
    Hypothesis step_ok : forall kap p x, wf kap p -> Pre kap p x ->
      exists y kap' p', conv (fun n => f n p x) (y, p') /\ R kap p kap' p' /\ Q kap' p' x y.

    Lemma map_ctx_ok l : forall kap p, wf kap p -> Forall (Pre kap p) l ->
      exists ys kap' p', conv (fun n => map_ctx (f n) p l) (ys, p') /\ R kap p kap' p' /\ Forall2 (Q kap' p') l ys.
    Proof.
      induction l as [|x l IH]; intros kap p Hwf HP.
      - exists [], kap, p. split; [apply conv_ret|]. split; [apply R_refl, Hwf|constructor].
      - destruct (step_ok kap p x Hwf (Forall_inv HP)) as (y & k1 & p1 & H1 & R1 & Q1).
        destruct (IH k1 p1 (R_wf _ _ _ _ R1)) as (ys & k2 & p2 & H2 & R2 & Q2).
        { eapply Forall_impl; [|exact (Forall_inv_tail HP)]. intros a. apply (Pre_mono _ _ _ _ _ R1). }
        exists (y :: ys), k2, p2. split; [|split; [eapply R_trans; eauto|constructor; [eapply Q_mono; eauto|exact Q2]]].
        cbn [map_ctx]. eapply (conv_bind (fun n => f n p x)); [exact H1|]. cbn beta iota.
        eapply (conv_bind (fun n => map_ctx (f n) p1 l)); [exact H2|]. apply conv_ret.
    Qed.
  End MapCtx.
End Ctx.
