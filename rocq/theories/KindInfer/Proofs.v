From Verif.Base Require Import Base BaseFacts Vec VecFacts.
From Verif.Kind Require Import Model Spec Proofs ProofsUnify ProofsApi.
From Verif.KindInfer Require Import Model Spec.

Notation len := (@List.length kind).

Lemma conv_try_ok {A B} (f : nat -> outcome (kerror + A)) (g : nat -> A -> outcome (kerror + B)) a r :
  conv f (inr a) -> conv (fun n => g n a) r -> conv (fun n => try_ (f n) (g n)) r.
Proof.
  intros H1 H2. unfold try_.
  apply (conv_bind f (fun x n => match x with inl e => Ret (inl e) | inr a => g n a end) (inr a) r H1 H2).
Qed.

Lemma conv_try_err {A B} (f : nat -> outcome (kerror + A)) (g : nat -> A -> outcome (kerror + B)) e :
  conv f (inl e) -> conv (fun n => try_ (f n) (g n)) (inl e).
Proof.
  intros H1. unfold try_.
  apply (conv_bind f (fun x n => match x with inl e => Ret (inl e) | inr a => g n a end) (inl e) (inl e) H1 (conv_ret _)).
Qed.

Lemma conv_bind' {A B} (f : nat -> outcome A) (g : nat -> A -> outcome B) a r :
  conv f a -> conv (fun n => g n a) r -> conv (fun n => bind (f n) (g n)) r.
Proof. intros H1 H2. exact (conv_bind f (fun a n => g n a) a r H1 H2). Qed.

Lemma ty_ind' (P : ty -> Prop) : (forall c, P (TCon c)) -> (forall c, P (TGen c)) ->
  (forall f args, P f -> Forall P args -> P (TApp f args)) -> forall t, P t.
Proof.
  intros H1 H2 H3. fix IH 1. intros [c|c|f args]; [apply H1|apply H2|]. apply H3; [apply IH|].
  induction args as [|a args IHa]; constructor; [apply IH|exact IHa].
Qed.

(** * Terms *)
Definition env := nat -> gkind.

Inductive gh (K : env) : ty -> gkind -> Prop :=
| gh_con c : gh K (TCon c) (K c)
| gh_gen c : gh K (TGen c) (K c)
| gh_app f args ks r : gh K f (gfun ks r) -> Forall2 (gh K) args ks -> gh K (TApp f args) r.

Definition gcheck (K : env) (c : check) : Prop :=
  match c with
  | CType t => gh K t GType
  | CClass c => exists ks, Forall2 (gh K) (class_args c) ks /\ K (class c) = gfun ks GConstraint
  end.

Definition sort_g (s : sort) : gkind :=
  match s with SType => GType | SConstraint => GConstraint | SSatisfaction => GSatisfaction | SValue => GValue end.

Definition gparam (K : env) (t : tparam) : Prop := forall a, ann t = Some a -> K (tp t) = term_of a.

Definition ggeneric (K : env) (g : generic) : Prop :=
  Forall (gparam K) (generic_types g) /\
  K (construct g) = gfun (map (fun t => K (tp t)) (generic_types g) ++ repeat GSatisfaction (generic_constraints g)) (sort_g (makes g)).

Definition ggroup (K : env) (g : group) : Prop := Forall (ggeneric K) (generics g) /\ Forall (gcheck K) (checks g).

Section Infer.
Context (mods : modules).
Hypothesis Hknown : known mods.

Definition ext (K : env) : Prop :=
  forall c k, is_local mods c = false -> recorded mods c = Some k -> K c = term_of k.

Definition agrees (st : state) (s : var -> gkind) (K : env) : Prop :=
  forall c k, assoc c (u_kinds st) = Some k -> interp s k = K c.

Definition okst (st : state) : Prop :=
  wf (pool st) /\ based (pool st) /\
  (forall c k, assoc c (u_kinds st) = Some k -> kbound (len (pool st)) k) /\
  (forall c k a, assoc c (u_kinds st) = Some k -> is_local mods c = false -> recorded mods c = Some a ->
     forall s, solution (pool st) s -> interp s k = term_of a).

Definition same_below (n : nat) (s s' : var -> gkind) : Prop := forall i, (i < n)%nat -> s' i = s i.

Definition step {B} (st st' : state) (v : (var -> gkind) -> B) (Q : env -> B -> Prop) : Prop :=
  okst st' /\ (len (pool st) <= len (pool st'))%nat /\
  (forall c k, assoc c (u_kinds st) = Some k -> assoc c (u_kinds st') = Some k) /\
  inferred st' = inferred st /\
  (forall s s', same_below (len (pool st')) s s' -> v s' = v s) /\
  (forall s, solution (pool st') s -> solution (pool st) s) /\
  (forall s K, ext K -> solution (pool st') s -> agrees st' s K -> Q K (v s)) /\
  (forall s K b, ext K -> solution (pool st) s -> agrees st s K -> Q K b ->
     exists s', solution (pool st') s' /\ agrees st' s' K /\ v s' = b /\ same_below (len (pool st)) s s').

Definition stuck {B} (st : state) (Q : env -> B -> Prop) : Prop :=
  forall s K b, ext K -> solution (pool st) s -> agrees st s K -> Q K b -> False.

Lemma same_below_interp n s s' k : same_below n s s' -> kbound n k -> interp s' k = interp s k.
Proof. intros H Hk. apply interp_ext. intros j Hj. apply H, Hk, Hj. Qed.

Lemma same_below_le n m s s' : (m <= n)%nat -> same_below n s s' -> same_below m s s'.
Proof. intros H H1 i Hi. apply H1. lia. Qed.

Lemma same_below_trans n s s1 s2 : same_below n s s1 -> same_below n s1 s2 -> same_below n s s2.
Proof. intros H1 H2 i Hi. rewrite H2, H1; auto. Qed.

Lemma agrees_below st s s' K : okst st -> same_below (len (pool st)) s s' -> agrees st s K -> agrees st s' K.
Proof. intros (_ & _ & H & _) Hb Ha c k Hk. rewrite <- (Ha c k Hk). eapply same_below_interp; eauto. Qed.

Lemma step_refl {B} st (v : (var -> gkind) -> B) (Q : env -> B -> Prop) : okst st ->
  (forall s s', same_below (len (pool st)) s s' -> v s' = v s) ->
  (forall s K b, ext K -> solution (pool st) s -> agrees st s K -> (Q K b <-> v s = b)) -> step st st v Q.
Proof.
  intros Hst Hv HQ. split; [exact Hst|]. split; [lia|]. split; [auto|]. split; [auto|]. split; [exact Hv|]. split; [auto|]. split.
  - intros s K He Hs Ha. apply (HQ s K); auto.
  - intros s K b He Hs Ha Hb. exists s. split; [exact Hs|]. split; [exact Ha|]. split; [apply (HQ s K); auto|]. intros i Hi. reflexivity.
Qed.

Lemma step_trans {B C} st st1 st2 (v1 : (var -> gkind) -> B) (v2 : (var -> gkind) -> C) Q1 Q2 :
  step st st1 v1 Q1 -> step st1 st2 v2 Q2 ->
  step st st2 (fun s => (v1 s, v2 s)) (fun K b => Q1 K (fst b) /\ Q2 K (snd b)).
Proof.
  intros (A1 & A2 & A3 & A4 & A5 & A6 & A7 & A8) (B1 & B2 & B3 & B4 & B5 & B6 & B7 & B8).
  split; [exact B1|]. split; [lia|]. split; [auto|]. split; [congruence|]. split; [|split; [auto|split]].
  - intros s s' H. f_equal; [apply A5; eapply same_below_le; eauto|apply B5, H].
  - intros s K He Hs Ha. split; cbn; [|apply B7; auto]. apply A7; auto. intros c k Hk. apply Ha, B3, Hk.
  - intros s K (b, c) He Hs Ha (Hb & Hc). cbn in *. destruct (A8 s K b He Hs Ha Hb) as (s1 & C1 & C2 & C3 & C4).
    destruct (B8 s1 K c He C1 C2 Hc) as (s2 & D1 & D2 & D3 & D4). exists s2. split; [exact D1|]. split; [exact D2|]. split.
    + rewrite D3, <- C3, (A5 _ _ D4). reflexivity.
    + eapply same_below_trans; [exact C4|]. eapply same_below_le; eauto.
Qed.

Lemma step_stuck {B C} st st1 (v1 : (var -> gkind) -> B) Q1 (Q2 : env -> C -> Prop) :
  step st st1 v1 Q1 -> stuck st1 Q2 -> stuck st (fun K b => Q1 K (fst b) /\ Q2 K (snd b)).
Proof.
  intros (_ & _ & _ & _ & _ & _ & _ & A8) H s K (b, c) He Hs Ha (Hb & Hc). cbn in *.
  destruct (A8 s K b He Hs Ha Hb) as (s1 & C1 & C2 & _ & _). exact (H s1 K c He C1 C2 Hc).
Qed.

Lemma stuck_left {B C} st (Q1 : env -> B -> Prop) (Q2 : env -> C -> Prop) :
  stuck st Q1 -> stuck st (fun K b => Q1 K (fst b) /\ Q2 K (snd b)).
Proof. intros H s K (b, c) He Hs Ha (Hb & _). exact (H s K b He Hs Ha Hb). Qed.

Lemma step_map {B C} (f : B -> C) st st' (v : (var -> gkind) -> B) (v' : (var -> gkind) -> C) (Q : env -> B -> Prop) (Q' : env -> C -> Prop) :
  step st st' v Q -> (forall s, v' s = f (v s)) -> (forall K b, Q K b -> Q' K (f b)) ->
  (forall K c, Q' K c -> exists b, c = f b /\ Q K b) -> step st st' v' Q'.
Proof.
  intros (A1 & A2 & A3 & A4 & A5 & A6 & A7 & A8) Hf H1 H2.
  split; [exact A1|]. split; [exact A2|]. split; [exact A3|]. split; [exact A4|]. split; [|split; [exact A6|split]].
  - intros s s' H. rewrite !Hf, (A5 _ _ H). reflexivity.
  - intros s K He Hs Ha. rewrite Hf. apply H1, A7; auto.
  - intros s K c He Hs Ha Hc. destruct (H2 K c Hc) as (b & -> & Hb). destruct (A8 s K b He Hs Ha Hb) as (s' & C1 & C2 & C3 & C4).
    exists s'. split; [exact C1|]. split; [exact C2|]. split; [rewrite Hf, C3; reflexivity|exact C4].
Qed.

Lemma stuck_map {B C} (f : B -> C) st (Q : env -> B -> Prop) (Q' : env -> C -> Prop) :
  stuck st Q -> (forall K c, Q' K c -> exists b, c = f b /\ Q K b) -> stuck st Q'.
Proof. intros H H2 s K c He Hs Ha Hc. destruct (H2 K c Hc) as (b & _ & Hb). exact (H s K b He Hs Ha Hb). Qed.

(** * Operations on the pool *)
Lemma okst_grows st p : okst st -> grows (pool st) p -> okst (with_pool st p).
Proof.
  intros (H1 & H2 & H3 & H4) G. split; [apply G|]. split; [eapply grows_based; eauto|]. split; cbn.
  - intros c k Hk. eapply grows_kbound; eauto.
  - intros c k a Hk Hl Ha s Hs. eapply H4; eauto. apply G, Hs.
Qed.

Lemma step_grow {B} st p (v : (var -> gkind) -> B) (Q : env -> B -> Prop) : okst st -> grows (pool st) p ->
  (forall s s', same_below (len p) s s' -> v s' = v s) ->
  (forall s K, ext K -> solution p s -> Q K (v s)) ->
  (forall s K b, ext K -> solution (pool st) s -> Q K b -> exists s', solution p s' /\ v s' = b /\ same_below (len (pool st)) s s') ->
  step st (with_pool st p) v Q.
Proof.
  intros Hst G Hv H1 H2. split; [apply okst_grows; auto|]. split; [apply G|]. split; [auto|]. split; [reflexivity|]. split; [exact Hv|].
  split; [apply G|]. split; [intros s K He Hs _; apply H1; auto|].
  intros s K b He Hs Ha Hb. destruct (H2 s K b He Hs Hb) as (s' & C1 & C2 & C3). exists s'. split; [exact C1|]. split; [|auto].
  change (agrees st s' K). eapply agrees_below; eauto.
Qed.

Lemma step_var st k p : okst st -> new_var (pool st) = (k, p) ->
  step st (with_pool st p) (fun s => interp s k) (fun _ _ => True) /\ kbound (len p) k.
Proof.
  intros Hst E. unfold new_var, alloc_var in E. injection E as <- <-. pose proof Hst as (Hwf & _).
  destruct (grows_var (pool st) Hwf) as (G & Hu). assert (B : kbound (len (pool st ++ [KVar (len (pool st))])) (KVar (len (pool st)))).
  { intros j ->. rewrite app_length. cbn. lia. }
  split; [|exact B]. apply step_grow; auto.
  - intros s s' H. eapply same_below_interp; eauto.
  - intros s K g _ Hs _. exists (fun i => if Nat.eqb i (len (pool st)) then g else s i). split; [|split].
    + intros i k Hk. apply nth_error_app_case in Hk. destruct Hk as [(Hi & Hk)|(Hle & Hk)].
      * assert ((i =? len (pool st))%nat = false) as -> by (apply Nat.eqb_neq; lia). rewrite (Hs i k Hk). symmetry. apply interp_ext. intros j Hj.
        pose proof (proj1 Hwf i k Hk j Hj). assert ((j =? len (pool st))%nat = false) as -> by (apply Nat.eqb_neq; lia). reflexivity.
      * destruct (i - len (pool st))%nat as [|x] eqn:E; cbn in Hk; [|destruct x; discriminate]. injection Hk as <-. cbn.
        assert (i = len (pool st)) as -> by lia. rewrite Nat.eqb_refl. reflexivity.
    + cbn. rewrite Nat.eqb_refl. reflexivity.
    + intros i Hi. assert ((i =? len (pool st))%nat = false) as -> by (apply Nat.eqb_neq; lia). reflexivity.
Qed.

Lemma step_import st a : okst st -> proper a -> exists k p, import (pool st) a = Ret (k, p) /\
  step st (with_pool st p) (fun s => interp s k) (fun _ b => b = term_of a) /\ kbound (len p) k /\
  (forall s, solution p s -> interp s k = term_of a).
Proof.
  intros Hst Ha. pose proof Hst as (Hwf & Hb & _). destruct (import_ok a Ha (pool st) Hwf Hb) as (k & p & E & G & B & S).
  exists k, p. split; [exact E|]. split; [|split; [exact B|exact S]]. apply step_grow; auto.
  - intros s s' H. eapply same_below_interp; eauto.
  - intros s K b _ Hs ->. destruct G as (_ & _ & _ & G & _). destruct (G s Hs) as (s' & Hs' & E'). exists s'. split; [exact Hs'|]. split; [apply S, Hs'|exact E'].
Qed.

(** * Kinds of constructs *)
Lemma kind_of_step st c : okst st -> exists k st', kind_of mods st c = Ret (k, st') /\
  step st st' (fun s => interp s k) (fun K b => b = K c) /\ kbound (len (pool st')) k /\ assoc c (u_kinds st') = Some k.
Proof.
  intros Hst. unfold kind_of. destruct (assoc c (u_kinds st)) as [k|] eqn:E.
  - exists k, st. split; [reflexivity|]. pose proof Hst as (_ & _ & Hb & _). split; [|split; [eapply Hb; eauto|exact E]]. apply step_refl; auto.
    + intros s s' H. eapply same_below_interp; eauto.
    + intros s K b He Hs Ha. rewrite (Ha c k E). split; congruence.
  - assert (Hnew : forall k p, step st (with_pool st p) (fun s => interp s k) (fun K b => is_local mods c = true \/ b = K c) -> kbound (len p) k ->
              (is_local mods c = false -> forall a s, recorded mods c = Some a -> solution p s -> interp s k = term_of a) ->
              step st {| pool := p; u_kinds := (c, k) :: u_kinds st; inferred := inferred st |} (fun s => interp s k) (fun K b => b = K c)).
    { intros k p (A1 & A2 & A3 & A4 & A5 & A6 & A7 & A8) Hk Hext. destruct A1 as (H1 & H2 & H3 & H4). split.
      { split; [exact H1|]. split; [exact H2|]. cbn. split.
        - intros c' k' Hk'. destruct (Nat.eqb_spec c' c); [injection Hk' as <-; exact Hk|eapply H3; eauto].
        - intros c' k' a Hk' Hl Ha s Hs. destruct (Nat.eqb_spec c' c) as [->|]; [injection Hk' as <-; eapply Hext; eauto|eapply H4; eauto]. }
      split; [exact A2|]. split; [|split; [reflexivity|split; [exact A5|split; [exact A6|split]]]].
      - cbn. intros c' k' Hk'. destruct (Nat.eqb_spec c' c) as [->|]; [congruence|exact Hk'].
      - intros s K He Hs Ha. apply Ha. cbn. rewrite Nat.eqb_refl. reflexivity.
      - intros s K b He Hs Ha ->. destruct (A8 s K (K c) He Hs Ha (or_intror eq_refl)) as (s' & C1 & C2 & C3 & C4). exists s'.
        split; [exact C1|]. split; [|auto]. intros c' k'. cbn. destruct (Nat.eqb_spec c' c) as [->|]; [intros [= <-]; exact C3|apply C2]. }
    destruct (is_local mods c) eqn:El.
    + destruct (new_var (pool st)) as (k, p) eqn:En. destruct (step_var st k p Hst En) as (S & B). exists k. eexists. split; [reflexivity|].
      split; [|split; [exact B|cbn; rewrite Nat.eqb_refl; reflexivity]]. apply Hnew; [|exact B|discriminate].
      eapply (step_map (fun x => x)); [exact S|reflexivity|auto|]. intros K b _. exists b. auto.
    + destruct (Hknown c El) as (a & Ea & Hp & _). rewrite Ea. destruct (step_import st a Hst Hp) as (k & p & E' & S & B & Hi).
      rewrite E'. exists k. eexists. split; [reflexivity|]. split; [|split; [exact B|cbn; rewrite Nat.eqb_refl; reflexivity]].
      apply Hnew; [|exact B|intros _ a' s Ha' Hs; rewrite Hi by exact Hs; congruence].
      destruct S as (A1 & A2 & A3 & A4 & A5 & A6 & A7 & A8). split; [exact A1|]. split; [exact A2|]. split; [exact A3|]. split; [exact A4|]. split; [exact A5|]. split; [exact A6|]. split.
      * intros s K He Hs Ha. right. rewrite Hi by exact Hs. symmetry. apply He; auto.
      * intros s K b He Hs Ha [|Hb]; [discriminate|]. apply (A8 s K b); auto. rewrite Hb. apply He; auto.
Qed.

(** * Unification *)
Lemma unify_kinds_ok st a b : okst st -> kbound (len (pool st)) a -> kbound (len (pool st)) b ->
  exists r, conv (fun n => unify_kinds n st a b) r /\
    match r with
    | inl _ => forall s, solution (pool st) s -> interp s a <> interp s b
    | inr st' => okst st' /\ len (pool st') = len (pool st) /\ u_kinds st' = u_kinds st /\ inferred st' = inferred st /\
        forall s, solution (pool st') s <-> solution (pool st) s /\ interp s a = interp s b
    end.
Proof.
  intros Hst Ha Hb. pose proof Hst as (Hwf & Hbs & H3 & H4). destruct (unify_ok (pool st) a b Hwf Ha Hb) as (p & r & Hc & He & Hx). destruct r as [|e].
  - cbn in Hx. exists (inr (with_pool st p)). split; [|split; [|split; [apply He|split; [reflexivity|split; [reflexivity|exact Hx]]]]].
    + unfold unify_kinds. eapply conv_bind'; [exact Hc|]. apply conv_ret.
    + split; [apply He|]. split; [eapply extends_based; eauto|]. cbn. split.
      * intros c k Hk. eapply extends_kbound; eauto.
      * intros c k x Hk Hl Hr s Hs. eapply H4; eauto. apply He, Hs.
  - pose proof (extends_kbound _ _ _ He Ha) as Ha'. pose proof (extends_kbound _ _ _ He Hb) as Hb'.
    destruct (canonical_exists p) as (s0 & Hs0); [apply He|].
    destruct (export_exact p s0 a) as (p1 & E1 & Hsm1); [apply He|exact Hs0|exact Ha'|].
    assert (Hs1 : canonical p1 s0). { destruct Hsm1 as (_ & _ & S1 & S2), Hs0 as (Hs0 & Hu). split; [apply S1, Hs0|]. intros v Hv. apply Hu, S2, Hv. }
    destruct (export_exact p1 s0 b) as (p2 & E2 & Hsm2); [apply Hsm1|exact Hs1|eapply extends_kbound; [apply same_extends, Hsm1|exact Hb']|].
    eexists (inl _). split.
    + unfold unify_kinds. eapply conv_bind'; [exact Hc|]. cbn. eapply conv_bind'; [exact E1|]. eapply conv_bind'; [exact E2|]. apply conv_ret.
    + exact Hx.
Qed.

(** A construct [ka], applied to [ks], makes [kr]. *)
Lemma link st st1 ka ks kr kf p (Q : env -> (gkind * list gkind) * gkind -> Prop) x y :
  okst st -> step st st1 (fun s => ((interp s ka, map (interp s) ks), interp s kr)) Q ->
  kbound (len (pool st1)) ka -> Forall (kbound (len (pool st1))) ks -> kbound (len (pool st1)) kr ->
  new_fun (pool st1) ks kr = (kf, p) -> (x = ka /\ y = kf) \/ (x = kf /\ y = ka) ->
  exists r, conv (fun n => unify_kinds n (with_pool st1 p) x y) r /\
    match r with
    | inl _ => stuck st (fun K r => exists l, Q K ((gfun l r, l), r))
    | inr st' => step st st' (fun s => interp s kr) (fun K r => exists l, Q K ((gfun l r, l), r)) /\ kbound (len (pool st')) kr
    end.
Proof.
  intros Hst (A1 & A2 & A3 & A4 & A5 & A6 & A7 & A8) Ba Bs Br E Hxy. pose proof A1 as (Hwf & Hbs & _).
  destruct (new_fun_ok (pool st1) ks kr kf p Hwf Hbs Bs Br E) as (G & Bf & Sf).
  pose proof (grows_kbound _ _ _ G Ba) as Ba'. pose proof (grows_kbound _ _ _ G Br) as Br'.
  destruct (unify_kinds_ok (with_pool st1 p) x y) as (r & Hc & Hr);
    [apply okst_grows; auto|destruct Hxy as [(-> & ->)|(-> & ->)]; auto|destruct Hxy as [(-> & ->)|(-> & ->)]; auto|].
  assert (Hcmp : forall s K r l, ext K -> solution (pool st) s -> agrees st s K -> Q K ((gfun l r, l), r) ->
            exists s', solution p s' /\ agrees st1 s' K /\ interp s' kr = r /\ interp s' x = interp s' y /\ same_below (len (pool st)) s s').
  { intros s K r' l He Hs Ha HQ. destruct (A8 s K _ He Hs Ha HQ) as (s1 & C1 & C2 & C3 & C4). injection C3 as C3 C5 C6.
    pose proof G as (Gl & _ & _ & G4 & _). destruct (G4 s1 C1) as (s2 & D1 & D2). exists s2.
    assert (I : forall k, kbound (len (pool st1)) k -> interp s2 k = interp s1 k) by (intros k Hk; eapply same_below_interp; [exact D2|exact Hk]).
    assert (Eq : interp s2 ka = interp s2 kf).
    { rewrite (Sf s2 D1), !I by auto. rewrite C3. f_equal; [|congruence]. rewrite <- C5. apply map_ext_in. intros k Hk. symmetry. apply I.
      rewrite Forall_forall in Bs. auto. }
    split; [exact D1|]. split; [eapply agrees_below; eauto|]. split; [rewrite I by auto; exact C6|]. split.
    - destruct Hxy as [(-> & ->)|(-> & ->)]; congruence.
    - eapply same_below_trans; [exact C4|]. eapply same_below_le; eauto. }
  exists r. split; [exact Hc|]. destruct r as [e|st'].
  - cbn [with_pool pool] in Hr. intros s K r He Hs Ha (l & HQ). destruct (Hcmp s K r l He Hs Ha HQ) as (s' & C1 & _ & _ & C4 & _). exact (Hr s' C1 C4).
  - cbn [with_pool pool u_kinds inferred] in Hr. destruct Hr as (R1 & R2 & R3 & R4 & R5). split; [|rewrite R2; exact Br'].
    split; [exact R1|]. split; [rewrite R2; destruct G; lia|]. split; [rewrite R3; exact A3|]. split; [congruence|]. split; [|split; [|split]].
    + intros s s' H. rewrite R2 in H. eapply same_below_interp; eauto.
    + intros s Hs. apply R5 in Hs. apply A6, G, Hs.
    + intros s K He Hs Ha. apply R5 in Hs. destruct Hs as (Hs & Heq). exists (map (interp s) ks).
      assert (Ha1 : agrees st1 s K) by (intros c k Hk; apply Ha; rewrite R3; exact Hk).
      pose proof (A7 s K He (proj1 (proj2 (proj2 G)) s Hs) Ha1) as HQ.
      assert (Eq : interp s ka = gfun (map (interp s) ks) (interp s kr)) by (rewrite <- (Sf s Hs); destruct Hxy as [(-> & ->)|(-> & ->)]; congruence).
      rewrite <- Eq. exact HQ.
    + intros s K r He Hs Ha (l & HQ). destruct (Hcmp s K r l He Hs Ha HQ) as (s' & C1 & C2 & C3 & C4 & C5). exists s'.
      split; [apply R5; auto|]. split; [intros c k Hk; apply C2; rewrite <- R3; exact Hk|auto].
Qed.
End Infer.
