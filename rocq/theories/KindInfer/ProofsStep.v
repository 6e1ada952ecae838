From Verif.Base Require Import Base BaseFacts Vec VecFacts.
From Verif.Kind Require Import Model Spec Proofs ProofsUnify ProofsApi.
From Verif.KindInfer Require Import Model Spec Proofs.

Section Infer.
Context (mods : modules).
Hypothesis Hknown : known mods.
Notation step := (step mods).
Notation stuck := (stuck mods).
Notation okst := (okst mods).

Lemma step_okst {B} st st' (v : _ -> B) Q : step st st' v Q -> okst st'.
Proof. intros H. apply H. Qed.

Lemma step_kbound {B} st st' (v : _ -> B) Q k : step st st' v Q -> kbound (len (pool st)) k -> kbound (len (pool st')) k.
Proof. intros (_ & H & _) Hk j Hj. pose proof (Hk j Hj). lia. Qed.

(** What a computation of a kind has to do. *)
Definition kind_done (f : nat -> outcome (kerror + kind * state)) (st : state) (Q : env -> gkind -> Prop) : Prop :=
  exists r, conv f r /\
    match r with
    | inl _ => stuck st Q
    | inr (k, st') => step st st' (fun s => interp s k) Q /\ kbound (len (pool st')) k
    end.

Definition kinds_done (f : nat -> outcome (kerror + list kind * state)) (st : state) (Q : env -> list gkind -> Prop) : Prop :=
  exists r, conv f r /\
    match r with
    | inl _ => stuck st Q
    | inr (ks, st') => step st st' (fun s => map (interp s) ks) Q /\ Forall (kbound (len (pool st'))) ks
    end.

Definition done (f : nat -> outcome (kerror + state)) (st : state) (Q : env -> Prop) : Prop :=
  exists r, conv f r /\
    match r with
    | inl _ => stuck st (fun K (_ : unit) => Q K)
    | inr st' => step st st' (fun _ => tt) (fun K _ => Q K)
    end.

Lemma kind_done_ext f st (Q Q' : env -> gkind -> Prop) : (forall K b, Q K b <-> Q' K b) -> kind_done f st Q -> kind_done f st Q'.
Proof.
  intros H (r & Hc & Hr). exists r. split; [exact Hc|]. destruct r as [e|(k, st')].
  - eapply (stuck_map mods (fun x => x)); [exact Hr|]. intros K c Hk. exists c. split; [reflexivity|]. apply H, Hk.
  - destruct Hr as (Hr & Hb). split; [|exact Hb]. eapply (step_map mods (fun x => x)); [exact Hr|reflexivity|intros K b; apply H|]. intros K c Hk. exists c. split; [reflexivity|]. apply H, Hk.
Qed.

Lemma kind_of_done st c : okst st -> kind_done (fun _ => let* (k, st) := kind_of mods st c in Ret (inr (k, st))) st (fun K b => b = K c).
Proof.
  intros Hst. destruct (kind_of_step mods Hknown st c Hst) as (k & st' & E & S & B & _). exists (inr (k, st')). split; [|auto].
  rewrite E. apply conv_ret.
Qed.

Lemma kinds_cons st f g Q1 Q2 : kind_done f st Q1 ->
  (forall st1 k, okst st1 -> step st st1 (fun s => interp s k) Q1 -> kinds_done (fun n => g n st1) st1 Q2) ->
  kinds_done (fun n => let? (k, st) := f n in let? (ks, st) := g n st in Ret (inr (k :: ks, st))) st
    (fun K l => match l with b :: l => Q1 K b /\ Q2 K l | [] => False end).
Proof.
  intros (r & Hc & Hr) Hg. destruct r as [e|(k, st1)].
  - exists (inl e). split; [eapply conv_try_err; exact Hc|]. intros s K [|b l] He Hs Ha HQ; [exact HQ|]. exact (Hr s K b He Hs Ha (proj1 HQ)).
  - destruct Hr as (S1 & B1). destruct (Hg st1 k (step_okst _ _ _ _ S1) S1) as (r & Hc2 & Hr). destruct r as [e|(ks, st2)].
    + exists (inl e). split; [eapply conv_try_ok; [exact Hc|]; eapply conv_try_err; exact Hc2|].
      intros s K [|b l] He Hs Ha HQ; [exact HQ|]. exact (step_stuck mods _ _ _ _ _ S1 Hr s K (b, l) He Hs Ha HQ).
    + destruct Hr as (S2 & B2). exists (inr (k :: ks, st2)). split; [eapply conv_try_ok; [exact Hc|]; eapply conv_try_ok; [exact Hc2|]; apply conv_ret|].
      split; [|constructor; [eapply step_kbound; eauto|exact B2]].
      eapply (step_map mods (fun x => fst x :: snd x)); [exact (step_trans mods _ _ _ _ _ _ _ S1 S2)|reflexivity|auto|].
      intros K [|b l] HQ; [contradiction|]. exists (b, l). auto.
Qed.

Lemma kinds_ext f st (Q Q' : env -> list gkind -> Prop) : (forall K b, Q K b <-> Q' K b) -> kinds_done f st Q -> kinds_done f st Q'.
Proof.
  intros H (r & Hc & Hr). exists r. split; [exact Hc|]. destruct r as [e|(k, st')].
  - eapply (stuck_map mods (fun x => x)); [exact Hr|]. intros K c Hk. exists c. split; [reflexivity|]. apply H, Hk.
  - destruct Hr as (Hr & Hb). split; [|exact Hb]. eapply (step_map mods (fun x => x)); [exact Hr|reflexivity|intros K b; apply H|]. intros K c Hk. exists c. split; [reflexivity|]. apply H, Hk.
Qed.

Lemma kinds_nil st : okst st -> kinds_done (fun _ => Ret (inr ([], st))) st (fun _ l => l = []).
Proof.
  intros Hst. exists (inr ([], st)). split; [apply conv_ret|]. split; [|constructor]. apply step_refl; [exact Hst|reflexivity|].
  intros s K b _ _ _. cbn. split; congruence.
Qed.

Lemma done_ext f st (Q Q' : env -> Prop) : (forall K, Q K <-> Q' K) -> done f st Q -> done f st Q'.
Proof.
  intros H (r & Hc & Hr). exists r. split; [exact Hc|]. destruct r as [e|st'].
  - eapply (stuck_map mods (fun x => x)); [exact Hr|]. intros K c Hk. exists c. split; [reflexivity|]. apply H, Hk.
  - eapply (step_map mods (fun x => x)); [exact Hr|reflexivity|intros K b; apply H|]. intros K c Hk. exists c. split; [reflexivity|]. apply H, Hk.
Qed.

(** [infer_types] is the inner recursion of [infer_type]. *)
Lemma infer_type_app n st f args : infer_type mods n st (TApp f args) =
  let? (callee, st) := infer_type mods n st f in
  let? (args, st) := infer_types mods n st args in
  let '(ret, p) := new_var (pool st) in
  let '(fun_, p) := new_fun p args ret in
  let? st := unify_kinds n (with_pool st p) callee fun_ in
  Ret (inr (ret, st)).
Proof.
  cbn [infer_type]. destruct (infer_type mods n st f) as [[e|(k, st1)]| |]; cbn [try_ bind]; try reflexivity.
  match goal with |- try_ ?x _ = _ => assert (x = infer_types mods n st1 args) as E; [|rewrite E; reflexivity] end.
  revert st1. induction args as [|a args IH]; intros st1; [reflexivity|]. cbn [infer_types].
  destruct (infer_type mods n st1 a) as [[e|(k1, st2)]| |]; cbn [try_ bind]; try reflexivity. rewrite IH. reflexivity.
Qed.

Lemma infer_types_done ts : Forall (fun t => forall st, okst st -> kind_done (fun n => infer_type mods n st t) st (fun K b => gh K t b)) ts ->
  forall st, okst st -> kinds_done (fun n => infer_types mods n st ts) st (fun K l => Forall2 (gh K) ts l).
Proof.
  induction 1 as [|t ts Ht Hts IH]; intros st Hst; cbn [infer_types].
  - eapply kinds_ext; [|apply kinds_nil, Hst]. intros K l. split; [intros ->; constructor|intros H; inversion H; reflexivity].
  - eapply kinds_ext; [|apply (kinds_cons st (fun n => infer_type mods n st t) (fun n st => infer_types mods n st ts)); [apply Ht, Hst|]].
    2: { intros st1 k H1 _. apply IH, H1. }
    intros K [|b l]; cbn; split; intros H; try contradiction; try (inversion H; fail).
    + constructor; apply H.
    + inversion H; auto.
Qed.

Lemma infer_type_done t : forall st, okst st -> kind_done (fun n => infer_type mods n st t) st (fun K b => gh K t b).
Proof.
  induction t as [c|c|f args IHf IHargs] using ty_ind'; intros st Hst.
  - eapply kind_done_ext; [|apply kind_of_done, Hst]. intros K b. split; [intros ->; constructor|intros H; inversion H; reflexivity].
  - eapply kind_done_ext; [|apply kind_of_done, Hst]. intros K b. split; [intros ->; constructor|intros H; inversion H; reflexivity].
  - assert (HQ : forall K b, (exists l, (gh K f (gfun l b) /\ Forall2 (gh K) args l) /\ True) <-> gh K (TApp f args) b).
    { intros K b. split; [intros (l & (H1 & H2) & _); econstructor; eauto|intros H; inversion H; subst; eauto]. }
    eapply kind_done_ext; [exact HQ|]. destruct (IHf st Hst) as (r & Hc & Hr). destruct r as [e|(kc, st1)].
    { exists (inl e). split; [eapply conv_ext; [intros n; apply infer_type_app|]; eapply conv_try_err; exact Hc|].
      intros s K b He Hs Ha (l & (H1 & _) & _). exact (Hr s K _ He Hs Ha H1). }
    destruct Hr as (S1 & B1). destruct (infer_types_done args IHargs st1 (step_okst _ _ _ _ S1)) as (r & Hc2 & Hr). destruct r as [e|(ks, st2)].
    { exists (inl e). split; [eapply conv_ext; [intros n; apply infer_type_app|]; eapply conv_try_ok; [exact Hc|]; eapply conv_try_err; exact Hc2|].
      intros s K b He Hs Ha (l & (H1 & H2) & _). exact (step_stuck mods _ _ _ _ _ S1 Hr s K (gfun l b, l) He Hs Ha (conj H1 H2)). }
    destruct Hr as (S2 & B2). destruct (new_var (pool st2)) as (kr, p) eqn:Ev.
    destruct (step_var mods st2 kr p (step_okst _ _ _ _ S2) Ev) as (S3 & B3).
    pose proof (step_trans mods _ _ _ _ _ _ _ (step_trans mods _ _ _ _ _ _ _ S1 S2) S3) as S. cbn beta in S.
    destruct (new_fun p ks kr) as (kf, p') eqn:Ef.
    destruct (link mods st (with_pool st2 p) kc ks kr kf p' _ kc kf Hst S) as (r & Hc3 & Hr).
    { eapply step_kbound; [exact S3|]. eapply step_kbound; [exact S2|exact B1]. }
    { eapply Forall_impl; [|exact B2]. intros k Hk. eapply step_kbound; [exact S3|exact Hk]. }
    { exact B3. }
    { exact Ef. }
    { left. auto. }
    cbn [fst snd] in Hr. destruct r as [e|st'].
    + exists (inl e). split; [|exact Hr]. eapply conv_ext; [intros n; apply infer_type_app|]. eapply conv_try_ok; [exact Hc|]. eapply conv_try_ok; [exact Hc2|].
      cbn beta iota. rewrite Ev, Ef. eapply conv_try_err. exact Hc3.
    + exists (inr (kr, st')). split; [|exact Hr]. eapply conv_ext; [intros n; apply infer_type_app|]. eapply conv_try_ok; [exact Hc|]. eapply conv_try_ok; [exact Hc2|].
      cbn beta iota. rewrite Ev, Ef. eapply conv_try_ok; [exact Hc3|]. apply conv_ret.
Qed.

(** An atom as the result of a function. *)
Lemma with_atom {B} st st1 (v : _ -> B) Q k g : step st st1 v Q -> (forall s, interp s k = g) ->
  step st st1 (fun s => (v s, interp s k)) (fun K b => Q K (fst b) /\ snd b = g).
Proof.
  intros H Hk. eapply (step_map mods (fun b => (b, g))); [exact H|intros s; rewrite Hk; reflexivity|auto|].
  intros K (b, x) (HQ & E). exists b. cbn in *. subst. auto.
Qed.

Lemma sort_interp so s : interp s (sort_kind so) = sort_g so.
Proof. destruct so; reflexivity. Qed.

Lemma sort_kbound so n : kbound n (sort_kind so).
Proof. destruct so; intros j []. Qed.

Lemma link_done st st1 ka ks kr kf p (Q : env -> (gkind * list gkind) * gkind -> Prop) g x y (Q' : env -> Prop) :
  okst st -> step st st1 (fun s => ((interp s ka, map (interp s) ks), interp s kr)) Q ->
  (forall K b, Q K b -> snd b = g) ->
  kbound (len (pool st1)) ka -> Forall (kbound (len (pool st1))) ks -> kbound (len (pool st1)) kr ->
  new_fun (pool st1) ks kr = (kf, p) -> (x = ka /\ y = kf) \/ (x = kf /\ y = ka) ->
  (forall K, (exists l, Q K ((gfun l g, l), g)) <-> Q' K) ->
  done (fun n => unify_kinds n (with_pool st1 p) x y) st Q'.
Proof.
  intros Hst S Hg Ba Bs Br E Hxy HQ. destruct (link mods st st1 ka ks kr kf p Q x y Hst S Ba Bs Br E Hxy) as (r & Hc & Hr).
  exists r. split; [exact Hc|]. destruct r as [e|st'].
  - intros s K [] He Hs Ha HK. apply HQ in HK. exact (Hr s K g He Hs Ha HK).
  - destruct Hr as (Hr & _). eapply (step_map mods (fun _ => tt)); [exact Hr|reflexivity| |].
    + intros K b (l & Hl). apply HQ. pose proof (Hg K _ Hl) as E'. cbn in E'. subst b. exists l. exact Hl.
    + intros K [] HK. apply HQ in HK. exists g. auto.
Qed.

Lemma try_kind f g st Q1 (Q : env -> Prop) : kind_done f st Q1 ->
  (forall K, Q K -> exists b, Q1 K b) ->
  (forall st1 k, step st st1 (fun s => interp s k) Q1 -> kbound (len (pool st1)) k -> done (fun n => g n (k, st1)) st Q) ->
  done (fun n => try_ (f n) (g n)) st Q.
Proof.
  intros (r & Hc & Hr) HQ Hg. destruct r as [e|(k, st1)].
  - exists (inl e). split; [eapply conv_try_err; exact Hc|]. intros s K [] He Hs Ha HK. destruct (HQ K HK) as (b & Hb). exact (Hr s K b He Hs Ha Hb).
  - destruct Hr as (S & B). destruct (Hg st1 k S B) as (r & Hc2 & Hr). exists r. split; [|exact Hr]. eapply conv_try_ok; eauto.
Qed.

Lemma infer_annotation_done t st : okst st -> done (fun n => infer_annotation mods n st t) st (fun K => gh K t GType).
Proof.
  intros Hst. unfold infer_annotation. eapply (try_kind (fun n => infer_type mods n st t) (fun n '(k, st) => unify_kinds n st k KType)); [apply infer_type_done, Hst|eauto|].
  intros st1 k S B. replace st1 with (with_pool st1 (pool st1)) at 1 by (destruct st1; reflexivity).
  eapply (link_done st st1 k [] KType KType (pool st1)); [exact Hst| | |exact B|constructor|apply (sort_kbound SType)|reflexivity|left; auto|].
  - eapply with_atom with (g := GType); [|reflexivity]. eapply (step_map mods (fun b => (b, []))) with (Q' := fun K b => gh K t (fst b) /\ snd b = []); [exact S|reflexivity|auto|].
    intros K (b, l) (H1 & H2). exists b. cbn in *. subst. auto.
  - intros K b (_ & H). exact H.
  - intros K. cbn. split; [intros (l & (H1 & ->) & _); exact H1|]. intros H. exists []. auto.
Qed.

Lemma infer_constraint_done c st : okst st ->
  done (fun n => infer_constraint mods n st c) st (fun K => exists ks, Forall2 (gh K) (class_args c) ks /\ K (class c) = gfun ks GConstraint).
Proof.
  intros Hst. unfold infer_constraint. destruct (kind_of_step mods Hknown st (class c) Hst) as (kc & st1 & E & S1 & B1 & _). rewrite E. cbn [bind].
  destruct (infer_types_done (class_args c)) with (st := st1) as (r & Hc & Hr); [apply Forall_forall; intros t _; apply infer_type_done|apply (step_okst _ _ _ _ S1)|].
  destruct r as [e|(ks, st2)].
  - exists (inl e). split; [eapply conv_try_err; exact Hc|]. intros s K [] He Hs Ha (l & H1 & H2).
    exact (step_stuck mods _ _ _ _ _ S1 Hr s K (K (class c), l) He Hs Ha (conj eq_refl H1)).
  - destruct Hr as (S2 & B2). destruct (new_fun (pool st2) ks KConstraint) as (kf, p) eqn:Ef.
    destruct (link_done st st2 kc ks KConstraint kf p
      (fun K b => (fst (fst b) = K (class c) /\ Forall2 (gh K) (class_args c) (snd (fst b))) /\ snd b = GConstraint) GConstraint kf kc
      (fun K => exists ks, Forall2 (gh K) (class_args c) ks /\ K (class c) = gfun ks GConstraint) Hst) as (r & Hc2 & Hr).
    + exact (with_atom _ _ _ _ KConstraint GConstraint (step_trans mods _ _ _ _ _ _ _ S1 S2) (fun _ => eq_refl)).
    + intros K b (_ & H). exact H.
    + eapply step_kbound; [exact S2|exact B1].
    + exact B2.
    + apply (sort_kbound SConstraint).
    + exact Ef.
    + right. auto.
    + intros K. cbn. split.
      * intros (l & (H1 & H2) & _). eauto.
      * intros (l & H1 & H2). exists l. auto.
    + exists r. split; [|exact Hr]. eapply conv_try_ok; [exact Hc|]. cbn beta iota. rewrite Ef. exact Hc2.
Qed.

Lemma infer_check_done c st : okst st -> done (fun n => infer_check mods n st c) st (fun K => gcheck K c).
Proof. destruct c as [t|c]; intros Hst; [apply infer_annotation_done, Hst|apply infer_constraint_done, Hst]. Qed.

(** * Setting up *)
Lemma then_step {B C} st st1 st2 (v1 : _ -> B) (v2 : _ -> C) Q1 Q2 :
  step st st1 v1 Q1 -> step st1 st2 v2 Q2 -> step st st2 (fun s => (v1 s, v2 s)) (fun K b => Q1 K (fst b) /\ Q2 K (snd b)).
Proof. apply step_trans. Qed.

Lemma setup_params_done tps : Forall (fun t => forall a, ann t = Some a -> proper a) tps -> forall st, okst st ->
  kinds_done (fun n => setup_params mods n st tps) st (fun K l => l = map (fun t => K (tp t)) tps /\ Forall (gparam K) tps).
Proof.
  induction 1 as [|t tps Ht Htps IH]; intros st Hst; cbn [setup_params].
  - eapply kinds_ext; [|apply kinds_nil, Hst]. intros K l. split; [intros ->; split; [reflexivity|constructor]|intros (-> & _); reflexivity].
  - destruct (kind_of_step mods Hknown st (tp t) Hst) as (k & st1 & E & S1 & B1 & _).
    assert (HA : done (fun n => match ann t with
                                | Some a => let* (ka, p) := import (pool st1) a in unify_kinds n (with_pool st1 p) k ka
                                | None => Ret (inr st1)
                                end) st1 (fun K => gparam K t)).
    { unfold gparam. destruct (ann t) as [a|].
      - destruct (step_import mods st1 a) as (ka & p & E2 & S2 & B2 & _); [apply (step_okst _ _ _ _ S1)|apply Ht; reflexivity|]. rewrite E2. cbn [bind].
        assert (S1' : step st1 st1 (fun s => interp s k) (fun K b => b = K (tp t))).
        { destruct (kind_of_step mods Hknown st1 (tp t) (step_okst _ _ _ _ S1)) as (k' & st1' & E' & S' & _ & Ha').
          assert (k' = k /\ st1' = st1) as (-> & ->).
          { unfold kind_of in E. destruct (assoc (tp t) (u_kinds st)) as [k0|] eqn:E0.
            - injection E as <- <-. unfold kind_of in E'. rewrite E0 in E'. injection E' as <- <-. auto.
            - unfold kind_of in E'. destruct (assoc (tp t) (u_kinds st1)) as [k1|] eqn:E1.
              + injection E' as <- <-. split; [|reflexivity]. destruct (if is_local mods (tp t) then Ret (new_var (pool st)) else _) as [(k2, p2)| |]; try discriminate.
                cbn in E. injection E as <- <-. cbn in E1. rewrite Nat.eqb_refl in E1. congruence.
              + exfalso. destruct (if is_local mods (tp t) then Ret (new_var (pool st)) else _) as [(k2, p2)| |]; try discriminate.
                cbn in E. injection E as <- <-. cbn in E1. rewrite Nat.eqb_refl in E1. discriminate. }
          exact S'. }
        change (with_pool st1 p) with (with_pool (with_pool st1 p) (pool (with_pool st1 p))).
        eapply (link_done st1 (with_pool st1 p) k [] ka ka p
          (fun K b => (fst (fst b) = K (tp t) /\ snd (fst b) = []) /\ snd b = term_of a) (term_of a)); [apply (step_okst _ _ _ _ S1)| | | |constructor|exact B2|reflexivity|left; auto|].
        + eapply (step_map mods (fun b => ((fst b, []), snd b))); [exact (step_trans mods _ _ _ _ _ _ _ S1' S2)|reflexivity|cbn; tauto|].
          intros K ((b, l), r) ((H1 & H2) & H3). exists (b, r). cbn in *. subst. auto.
        + intros K b (_ & H). exact H.
        + eapply step_kbound; [exact S2|exact B1].
        + intros K. cbn. split.
          * intros (l & (H1 & ->) & _) a' [= <-]. symmetry. exact H1.
          * intros H. exists []. rewrite (H a eq_refl). auto.
      - exists (inr st1). split; [apply conv_ret|]. apply step_refl; [apply (step_okst _ _ _ _ S1)|reflexivity|].
        intros s K [] _ _ _. split; [reflexivity|]. intros _ a. discriminate. }
    rewrite E. cbn [bind]. destruct HA as (r & Hc & Hr). destruct r as [e|st2].
    { exists (inl e). split; [eapply conv_try_err; exact Hc|]. intros s K l He Hs Ha (-> & HF).
      exact (step_stuck mods _ _ _ _ _ S1 Hr s K (K (tp t), tt) He Hs Ha (conj eq_refl (Forall_inv HF))). }
    destruct (IH st2 (step_okst _ _ _ _ Hr)) as (r & Hc2 & Hr2). pose proof (step_trans mods _ _ _ _ _ _ _ S1 Hr) as S12. destruct r as [e|(ks, st3)].
    { exists (inl e). split; [eapply conv_try_ok; [exact Hc|]; eapply conv_try_err; exact Hc2|]. intros s K l He Hs Ha (-> & HF).
      refine (step_stuck mods _ _ _ _ _ S12 Hr2 s K ((K (tp t), tt), _) He Hs Ha (conj (conj eq_refl (Forall_inv HF)) (conj eq_refl (Forall_inv_tail HF)))). }
    destruct Hr2 as (S3 & B3). exists (inr (k :: ks, st3)). split; [eapply conv_try_ok; [exact Hc|]; eapply conv_try_ok; [exact Hc2|]; apply conv_ret|].
    split; [|constructor; [eapply step_kbound; [exact S3|]; eapply step_kbound; [exact Hr|exact B1]|exact B3]].
    eapply (step_map mods (fun b => fst (fst b) :: snd b)); [exact (step_trans mods _ _ _ _ _ _ _ S12 S3)|reflexivity| |].
    + intros K ((b, u), l) ((H1 & H2) & H3 & H4). cbn in *. subst. split; [reflexivity|constructor; auto].
    + intros K l (-> & HF). exists ((K (tp t), tt), map (fun t => K (tp t)) tps). cbn. split; [reflexivity|]. pose proof (Forall_inv HF). pose proof (Forall_inv_tail HF). auto.
Qed.

Lemma setup_generic_done g st : Forall (fun t => forall a, ann t = Some a -> proper a) (generic_types g) -> okst st ->
  done (fun n => setup_generic mods n st g) st (fun K => ggeneric K g).
Proof.
  intros Hp Hst. unfold setup_generic. destruct (kind_of_step mods Hknown st (construct g) Hst) as (ka & st1 & E & S1 & B1 & _). rewrite E. cbn [bind].
  destruct (is_monomorphic g) eqn:Em.
  - assert (generic_types g = [] /\ generic_constraints g = 0%nat) as (E1 & E2).
    { unfold is_monomorphic in Em. destruct (generic_types g); [|discriminate]. apply Nat.eqb_eq in Em. auto. }
    assert (D : done (fun n => unify_kinds n (with_pool st1 (pool st1)) ka (sort_kind (makes g))) st (fun K => ggeneric K g)).
    { eapply (link_done st st1 ka [] (sort_kind (makes g)) (sort_kind (makes g)) (pool st1)
        (fun K b => (fst (fst b) = K (construct g) /\ snd (fst b) = []) /\ snd b = sort_g (makes g)) (sort_g (makes g)));
        [exact Hst| | |exact B1|constructor|apply sort_kbound|reflexivity|left; auto|].
      - refine (with_atom _ _ _ (fun K b => fst b = K (construct g) /\ snd b = []) (sort_kind (makes g)) _ _ (sort_interp _)).
        eapply (step_map mods (fun b => (b, []))) with (Q' := fun K b => fst b = K (construct g) /\ snd b = []); [exact S1|reflexivity|auto|].
        intros K (b, l) (H1 & H2). exists b. cbn in *. subst. auto.
      - intros K b (_ & H). exact H.
      - intros K. unfold ggeneric. rewrite E1, E2. cbn. split.
        + intros (l & (H1 & ->) & _). split; [constructor|]. symmetry. exact H1.
        + intros (_ & H). exists []. rewrite H. auto. }
    destruct D as (r & Hc & Hr). exists r. split; [|exact Hr]. eapply conv_try_ok; [apply conv_ret|]. cbn beta iota. destruct st1; exact Hc.
  - destruct (setup_params_done (generic_types g) Hp st1 (step_okst _ _ _ _ S1)) as (r & Hc & Hr). destruct r as [e|(ks, st2)].
    + exists (inl e). split; [eapply conv_try_err; eapply conv_try_err; exact Hc|]. intros s K [] He Hs Ha (H1 & H2).
      refine (step_stuck mods _ _ _ _ _ S1 Hr s K (K (construct g), _) He Hs Ha (conj eq_refl (conj eq_refl H1))).
    + destruct Hr as (S2 & B2). set (ks' := ks ++ repeat KSatisfaction (generic_constraints g)).
      destruct (new_fun (pool st2) ks' (sort_kind (makes g))) as (kf, p) eqn:Ef.
      destruct (link_done st st2 ka ks' (sort_kind (makes g)) kf p
        (fun K b => (fst (fst b) = K (construct g) /\
           snd (fst b) = map (fun t => K (tp t)) (generic_types g) ++ repeat GSatisfaction (generic_constraints g) /\ Forall (gparam K) (generic_types g))
           /\ snd b = sort_g (makes g)) (sort_g (makes g)) ka kf (fun K => ggeneric K g) Hst) as (r & Hc2 & Hr).
      * refine (with_atom _ _ _ (fun K b => fst b = K (construct g) /\
           snd b = map (fun t => K (tp t)) (generic_types g) ++ repeat GSatisfaction (generic_constraints g) /\ Forall (gparam K) (generic_types g))
           (sort_kind (makes g)) _ _ (sort_interp _)).
        eapply (step_map mods (fun b => (fst b, snd b ++ repeat GSatisfaction (generic_constraints g))))
          with (Q' := fun K b => fst b = K (construct g) /\ snd b = map (fun t => K (tp t)) (generic_types g) ++ repeat GSatisfaction (generic_constraints g) /\ Forall (gparam K) (generic_types g));
          [exact (step_trans mods _ _ _ _ _ _ _ S1 S2)| | |].
        -- intros s. cbn. unfold ks'. rewrite map_app. do 2 f_equal. generalize (generic_constraints g). induction n as [|n IHn]; cbn; congruence.
        -- intros K (b, l) (H1 & H2 & H3). cbn in *. subst. auto.
        -- intros K (b, l) (H1 & H2 & H3). cbn in *. subst. exists (K (construct g), map (fun t => K (tp t)) (generic_types g)). auto.
      * intros K b (_ & H). exact H.
      * eapply step_kbound; [exact S2|exact B1].
      * apply Forall_app. split; [exact B2|]. apply Forall_forall. intros k Hk. apply repeat_spec in Hk. subst. apply (sort_kbound SSatisfaction).
      * apply sort_kbound.
      * exact Ef.
      * left. auto.
      * intros K. unfold ggeneric. cbn. split.
        -- intros (l & (H1 & H2 & H3) & _). subst l. auto.
        -- intros (H1 & H2). eexists. split; [|reflexivity]. split; [|split; [reflexivity|exact H1]]. symmetry. exact H2.
      * exists r. split; [|exact Hr]. eapply conv_try_ok with (a := (kf, with_pool st2 p)); [|exact Hc2]. eapply conv_try_ok; [exact Hc|]. cbn beta iota. fold ks'. rewrite Ef. apply conv_ret.
Qed.

Lemma each_done {A} (f : nat -> state -> A -> outcome (kerror + state)) (Q : env -> A -> Prop) l :
  (forall x st, In x l -> okst st -> done (fun n => f n st x) st (fun K => Q K x)) ->
  forall st, okst st -> done (fun n => each (f n) st l) st (fun K => Forall (Q K) l).
Proof.
  induction l as [|x l IH]; intros Hf st Hst; cbn [each].
  - exists (inr st). split; [apply conv_ret|]. apply step_refl; [exact Hst|reflexivity|]. intros s K [] _ _ _. split; [reflexivity|constructor].
  - destruct (Hf x st (or_introl eq_refl) Hst) as (r & Hc & Hr). destruct r as [e|st1].
    + exists (inl e). split; [eapply conv_try_err; exact Hc|]. intros s K [] He Hs Ha HF. exact (Hr s K tt He Hs Ha (Forall_inv HF)).
    + destruct (IH (fun y st' Hy => Hf y st' (or_intror Hy)) st1 (step_okst _ _ _ _ Hr)) as (r & Hc2 & Hr2). destruct r as [e|st2].
      * exists (inl e). split; [eapply conv_try_ok; [exact Hc|exact Hc2]|]. intros s K [] He Hs Ha HF.
        exact (step_stuck mods _ _ _ _ _ Hr Hr2 s K (tt, tt) He Hs Ha (conj (Forall_inv HF) (Forall_inv_tail HF))).
      * exists (inr st2). split; [eapply conv_try_ok; [exact Hc|exact Hc2]|].
        eapply (step_map mods (fun _ => tt)); [exact (step_trans mods _ _ _ _ _ _ _ Hr Hr2)|reflexivity| |].
        -- intros K b (H1 & H2). constructor; auto.
        -- intros K [] HF. exists (tt, tt). split; [reflexivity|]. split; [apply (Forall_inv HF)|apply (Forall_inv_tail HF)].
Qed.
End Infer.
