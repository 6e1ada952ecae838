(** * What the normalizer makes is related to what it is given *)
From Verif.Base Require Import Base.
From Verif.Ir Require Import Model.
From Verif.Closure Require Import Model Spec Rel ProofsSim ProofsScope ProofsGroup ProofsNorm.

Local Arguments typed_params : simpl never.
Section Driver.
Variables (F : nat -> option function) (T : nat * function -> Prop) (N : nat).
Hypothesis Hall : forall g f, T (g, f) -> exists fuel s0 s1 b, env_below (next_rt s0) f /\ (N <= next_rt s0)%nat /\ norm fuel s0 (f_body f) = Ret (s1, b) /\
  F g = Some (Function (f_env f) (f_params f) (f_ret f) b) /\ forall p, In p (pending s1) -> T p.

Definition goal (x : expr) : Prop := forall fuel s s' y m vs fs, norm fuel s (app m x) = Ret (s', y) -> ok N (next_rt s) m vs fs x ->
  (forall p, In p (pending s') -> T p) -> conv F m vs fs x y.

Lemma pending_before : forall s s', grows s s' -> (forall p, In p (pending s') -> T p) -> forall p, In p (pending s) -> T p.
Proof. intros s s' (_ & _ & _ & l & -> & _) H p I. apply H, in_or_app. auto. Qed.
Lemma rt_mono : forall s s', grows s s' -> (next_rt s <= next_rt s')%nat.
Proof. intros s s' H. apply H. Qed.

Lemma norms_conv : forall es, (forall e, In e es -> goal e) -> forall fuel s s' ys m vs fs, norms (norm fuel) s (map (app m) es) = Ret (s', ys) ->
  (forall e n, In e es -> (next_rt s <= n)%nat -> ok N n m vs fs e) -> (forall p, In p (pending s') -> T p) -> Forall2 (conv F m vs fs) es ys.
Proof.
  induction es as [|e es IH]; intros G fuel s s' ys m vs fs E HO HP; cbn in E; [injection E as <- <-; constructor|].
  apply bind_ret in E as ([s1 y] & E1 & E). apply bind_ret in E as ([s2 ys'] & E2 & E). injection E as <- <-.
  pose proof (norm_grows _ _ _ _ _ E1) as G1. pose proof (norms_grows _ (norm_grows fuel) _ _ _ _ E2) as G2.
  constructor.
  - apply (G e (or_introl eq_refl) fuel s s1 y m vs fs E1); [apply HO; [left; reflexivity|lia]|]. eapply pending_before; eauto.
  - apply (IH (fun e I => G e (or_intror I)) fuel s1 s2 ys' m vs fs E2); [|exact HP]. intros e0 n I L. apply HO; [right; exact I|]. apply rt_mono in G1. lia.
Qed.

Lemma norm_clauses_conv : forall cs, (forall c, In c cs -> goal (snd c)) -> forall fuel s s' ys m vs fs,
  norm_clauses (norm fuel) s (map (fun c => (fst c, app m (snd c))) cs) = Ret (s', ys) ->
  (forall c n, In c cs -> (next_rt s <= n)%nat -> ok N n m (pat_defs (fst c) ++ vs) fs (snd c) /\ Forall (fresh m vs fs) (pat_defs (fst c))) ->
  (forall p, In p (pending s') -> T p) ->
  Forall2 (fun c c' => fst c = fst c' /\ Forall (fresh m vs fs) (pat_defs (fst c)) /\ conv F m (pat_defs (fst c) ++ vs) fs (snd c) (snd c')) cs ys.
Proof.
  induction cs as [|[p e] cs IH]; intros G fuel s s' ys m vs fs E HO HP; cbn in E; [injection E as <- <-; constructor|].
  apply bind_ret in E as ([s1 y] & E1 & E). apply bind_ret in E as ([s2 ys'] & E2 & E). injection E as <- <-.
  pose proof (norm_grows _ _ _ _ _ E1) as G1. pose proof (norm_clauses_grows _ (norm_grows fuel) _ _ _ _ E2) as G2. pose proof (grows_params (pat_types p) s) as G0.
  constructor.
  - cbn. destruct (HO (p, e) (next_rt (typed_params (pat_types p) s)) (or_introl eq_refl) (rt_mono _ _ G0)) as [O Fr]. cbn in O, Fr. split; [reflexivity|]. split; [exact Fr|].
    apply (G (p, e) (or_introl eq_refl) fuel _ s1 y m _ fs E1); [exact O|]. eapply pending_before; eauto.
  - apply (IH (fun e I => G e (or_intror I)) fuel s1 s2 ys' m vs fs E2); [|exact HP]. intros e0 n I L. apply HO; [right; exact I|]. apply rt_mono in G1, G0. lia.
Qed.

Local Ltac split_nd := repeat match goal with X : NoDup (_ ++ _) |- _ => apply NoDup_app_inv in X as (? & ? & ?) end.

Lemma driver : forall x, goal x.
Proof.
  intro x. induction x as [x IH] using expr_size_ind. intros fuel s s' y m vs fs E HO HP. destruct fuel as [|fuel]; [discriminate E|].
  pose proof (norm_grows (S fuel)) as NG. pose proof (norm_grows fuel) as NG0.
  pose proof HO as [SC ND HD HV HF HN]. destruct x as [id t|f t|o es|f es|es x|a b c|a b|a b|a b|a cs| |l b|l b|l b].
  - cbn in E. injection E as <- <-. constructor. inversion SC; assumption.
  - inversion SC as [|? ? ? ? If| | | | | | | | | | | | |]; subst. destruct (HF f If) as (g & e & SE & _). cbn in E. rewrite SE in E.
    assert (Y : y = EOp (SFun g t) (match e with Some e => [EVar e CtEnv] | None => [] end)); [|rewrite Y; econstructor; eassumption].
    destruct e as [e|]; cbn in E.
    + destruct fuel as [|fuel]; [discriminate E|]. cbn in E. injection E as <- <-. reflexivity.
    + injection E as <- <-. reflexivity.
  - cbn in E. apply bind_ret in E as ([s1 ys] & E1 & E). injection E as <- <-. inversion SC as [| |? ? ? ? SE| | | | | | | | | | | |]; subst. rewrite Forall_forall in SE. constructor.
    eapply norms_conv; [|exact E1| |exact HP].
    + intros e I. apply IH. pose proof (size_in size _ e I). cbn. lia.
    + intros e n I L. eapply ok_sub; [exact HO|apply SE, I| | |exact L]; cbn in *; [eapply NoDup_flat_in; eauto|]. intros d D. eapply in_flat; eauto.
  - cbn in E. apply bind_ret in E as ([s1 f'] & E1 & E). apply bind_ret in E as ([s2 ys] & E2 & E). injection E as <- <-.
    inversion SC as [| | |? ? ? ? SF SE| | | | | | | | | | |]; subst. rewrite Forall_forall in SE. cbn in ND. split_nd.
    pose proof (norms_grows _ NG0 _ _ _ _ E2) as G2. pose proof (NG0 _ _ _ _ E1) as G1. constructor.
    + eapply IH; [|exact E1| |eapply pending_before; eauto]; [cbn; lia|]. eapply ok_sub; [exact HO|assumption|assumption| |lia]. intros d D. cbn. apply in_or_app. auto.
    + eapply norms_conv; [|exact E2| |exact HP].
      * intros e I. apply IH. pose proof (size_in size _ e I). cbn. lia.
      * intros e n I L. apply rt_mono in G1. eapply ok_sub; [exact HO|apply SE, I| | |lia]; [eapply NoDup_flat_in; eauto|]. intros d D. cbn. apply in_or_app. right. eapply in_flat; eauto.
  - cbn in E. apply bind_ret in E as ([s1 ys] & E1 & E). apply bind_ret in E as ([s2 x'] & E2 & E). injection E as <- <-.
    inversion SC as [| | | |? ? ? ? SE SX| | | | | | | | | |]; subst. rewrite Forall_forall in SE. cbn in ND. split_nd.
    pose proof (norms_grows _ NG0 _ _ _ _ E1) as G1. pose proof (NG0 _ _ _ _ E2) as G2. constructor.
    + eapply norms_conv; [|exact E1| |eapply pending_before; eauto].
      * intros e I. apply IH. pose proof (size_in size _ e I). cbn. lia.
      * intros e n I L. eapply ok_sub; [exact HO|apply SE, I| | |lia]; [eapply NoDup_flat_in; eauto|]. intros d D. cbn. apply in_or_app. left. eapply in_flat; eauto.
    + eapply IH; [|exact E2| |exact HP]; [cbn; lia|]. apply rt_mono in G1. eapply ok_sub; [exact HO|assumption|assumption| |lia]. intros d D. cbn. apply in_or_app. auto.
  - cbn in E. apply bind_ret in E as ([s1 a'] & E1 & E). apply bind_ret in E as ([s2 b'] & E2 & E). apply bind_ret in E as ([s3 c'] & E3 & E). injection E as <- <-.
    inversion SC; subst. cbn in ND. split_nd. apply NG0 in E1 as G1. apply NG0 in E2 as G2. apply NG0 in E3 as G3.
    pose proof (rt_mono _ _ G1). pose proof (rt_mono _ _ G2). constructor.
    + eapply IH; [|exact E1| |eapply pending_before; [eapply grows_trans|]; eauto]; [cbn; lia|]. eapply ok_sub; [exact HO|assumption|assumption| |lia]. intros d D. cbn. rewrite !in_app_iff. auto.
    + eapply IH; [|exact E2| |eapply pending_before; eauto]; [cbn; lia|]. eapply ok_sub; [exact HO|assumption|assumption| |lia]. intros d D. cbn. rewrite !in_app_iff. auto.
    + eapply IH; [|exact E3| |exact HP]; [cbn; lia|]. eapply ok_sub; [exact HO|assumption|assumption| |lia]. intros d D. cbn. rewrite !in_app_iff. auto.
  - cbn in E. apply bind_ret in E as ([s1 a'] & E1 & E). apply bind_ret in E as ([s2 b'] & E2 & E). injection E as <- <-.
    inversion SC; subst. cbn in ND. split_nd. apply NG0 in E1 as G1. apply NG0 in E2 as G2. pose proof (rt_mono _ _ G1). constructor.
    + eapply IH; [|exact E1| |eapply pending_before; eauto]; [cbn; lia|]. eapply ok_sub; [exact HO|assumption|assumption| |lia]. intros d D. cbn. rewrite !in_app_iff. auto.
    + eapply IH; [|exact E2| |exact HP]; [cbn; lia|]. eapply ok_sub; [exact HO|assumption|assumption| |lia]. intros d D. cbn. rewrite !in_app_iff. auto.
  - cbn in E. apply bind_ret in E as ([s1 a'] & E1 & E). apply bind_ret in E as ([s2 b'] & E2 & E). injection E as <- <-.
    inversion SC; subst. cbn in ND. split_nd. apply NG0 in E1 as G1. apply NG0 in E2 as G2. pose proof (rt_mono _ _ G1). constructor.
    + eapply IH; [|exact E1| |eapply pending_before; eauto]; [cbn; lia|]. eapply ok_sub; [exact HO|assumption|assumption| |lia]. intros d D. cbn. rewrite !in_app_iff. auto.
    + eapply IH; [|exact E2| |exact HP]; [cbn; lia|]. eapply ok_sub; [exact HO|assumption|assumption| |lia]. intros d D. cbn. rewrite !in_app_iff. auto.
  - cbn in E. apply bind_ret in E as ([s1 a'] & E1 & E). apply bind_ret in E as ([s2 b'] & E2 & E). injection E as <- <-.
    inversion SC; subst. cbn in ND. split_nd. apply NG0 in E1 as G1. apply NG0 in E2 as G2. pose proof (rt_mono _ _ G1). constructor.
    + eapply IH; [|exact E1| |eapply pending_before; eauto]; [cbn; lia|]. eapply ok_sub; [exact HO|assumption|assumption| |lia]. intros d D. cbn. rewrite !in_app_iff. auto.
    + eapply IH; [|exact E2| |exact HP]; [cbn; lia|]. eapply ok_sub; [exact HO|assumption|assumption| |lia]. intros d D. cbn. rewrite !in_app_iff. auto.
  - cbn in E. apply bind_ret in E as ([s1 a'] & E1 & E). apply bind_ret in E as ([s2 ys] & E2 & E). injection E as <- <-.
    inversion SC as [| | | | | | | | |? ? ? ? SA SE| | | | |]; subst. rewrite Forall_forall in SE. cbn in ND. split_nd.
    pose proof (norm_clauses_grows _ NG0 _ _ _ _ E2) as G2. pose proof (NG0 _ _ _ _ E1) as G1. pose proof (rt_mono _ _ G1). constructor.
    + eapply IH; [|exact E1| |eapply pending_before; eauto]; [cbn; lia|]. eapply ok_sub; [exact HO|assumption|assumption| |lia]. intros d D. cbn. apply in_or_app. auto.
    + eapply norm_clauses_conv; [|exact E2| |exact HP].
      * intros c I. apply IH. pose proof (size_in (fun c => size (snd c)) _ c I). cbn in *. lia.
      * intros c n I L. eapply ok_under; [exact HO|apply SE, I| | |lia]; [eapply NoDup_flat_in in I; [|eassumption]; exact I|]. intros d D. cbn. apply in_or_app. right. eapply in_flat; eauto.
  - cbn in E. injection E as <- <-. constructor.
  - (* let *) cbn in E. apply bind_ret in E as ([s1 ys] & E1 & E). apply bind_ret in E as ([s2 b'] & E2 & E). injection E as <- <-.
    destruct l as [|[[id t] x] l]; cbn in E1.
    + injection E1 as <- <-. inversion SC; subst. constructor. eapply IH; [|exact E2| |exact HP]; [cbn; lia|]. eapply ok_sub; [exact HO|assumption|exact ND| |lia]. intros d D. exact D.
    + apply bind_ret in E1 as ([s3 x'] & E3 & E1). apply bind_ret in E1 as ([s4 l'] & E4 & E1). injection E1 as <- <-.
      inversion SC as [| | | | | | | | | | | |? ? ? ? ? ? ? SX SB| |]; subst.
      pose proof (grows_typed id t s) as G0. apply NG0 in E3 as G3. pose proof (norm_vars_grows _ NG0 _ _ _ _ E4) as G4. apply NG0 in E2 as G2.
      pose proof (rt_mono _ _ G0). pose proof (rt_mono _ _ G3).
      assert (N1 : NoDup (id :: defs x ++ defs (ELetVar l b))) by (cbn in ND |- *; rewrite <- app_assoc in ND; exact ND).
      assert (I1 : forall d, In d (id :: defs x ++ defs (ELetVar l b)) -> In d (defs (ELetVar ((id, t, x) :: l) b))) by (intros d D; cbn in D |- *; rewrite <- app_assoc; exact D).
      inversion N1 as [|? ? NI N2]; subst. apply NoDup_app_inv in N2 as (NX & NB & _).
      destruct (ok_under N (next_rt s) m vs fs _ [id] (ELetVar l b) (next_rt s3) HO) as [OB FB]; [exact SB| | |lia|].
      { constructor; [|exact NB]. intro J. apply NI, in_or_app. auto. }
      { intros d D. apply I1. destruct D as [<-|D]; [left; reflexivity|right; apply in_or_app; auto]. }
      inversion FB as [|? ? FI _]; subst. constructor; [|exact FI|].
      * eapply IH; [|exact E3| |eapply pending_before; [eapply grows_trans|]; eauto]; [cbn; lia|]. eapply ok_sub; [exact HO|exact SX|exact NX| |lia]. intros d D. apply I1. right. apply in_or_app. auto.
      * apply (IH (ELetVar l b)) with (fuel := S fuel) (s := s3) (s' := s2); [cbn; lia| |exact OB|exact HP]. cbn. rewrite E4. cbn. rewrite E2. reflexivity.
  - (* local functions *)
    change (app m (ELetLocal l b)) with (ELetLocal (map (app_fun m) l) (app m b)) in E. cbn [norm] in E. apply bind_ret in E as ([s2 x2] & E1 & E2).
    destruct (convert_spec s m vs fs l b s2 x2 E1) as (tys0 & LT & Es & Ex). cbv zeta in Es, Ex. set (c := capture_of m vs fs (next_rt s) (next_ct s) tys0 l) in *.
    pose proof (NG0 _ _ _ _ E2) as G2.
    assert (NDl : NoDup (map fid l)) by (apply nodup_ids; cbn in ND; apply NoDup_app_inv in ND; apply ND).
    assert (GC : group_conv F (conv F) m vs fs c l).
    { split; [eapply group_captures; eauto|]. split; [eapply group_ids; eauto|]. apply Forall_forall. intros f If. cbv zeta.
      destruct (lifted_in (lifted_fun m c) l (next_ct s) f NDl If) as (g & A & J). 
      assert (TG : T (g, lifted_fun m c f)).
      { apply (pending_before _ _ G2 HP). rewrite Es. cbn [pending]. apply in_or_app. right. exact J. }
      destruct (Hall _ _ TG) as (fuel0 & s0 & s1 & y0 & EB & LN & EN & FG & HP0).
      exists g, y0. split; [exact A|]. split; [exact FG|].
      destruct (fun_ok N (next_rt s) (next_ct s) m vs fs l b tys0 HO LT f (next_rt s0) If LN) as (FB & NE & OF).
      { intro NN. unfold next_of. unfold env_below, lifted_fun, fun_env in EB. cbn [f_env] in EB. destruct (vars_of m l) as [|z q] eqn:EV; [contradiction|].
        assert (EC : en c = Some (next_rt s + List.length (z :: q))%nat) by (unfold c, capture_of; cbn [en]; rewrite EV; reflexivity). rewrite EC in EB. cbn [option_map] in EB. apply Forall_inv in EB. clear - EB. lia. }
      split; [exact FB|]. split; [exact NE|]. eapply IH; [|exact EN|exact OF|exact HP0].
      pose proof (size_in (fun f => size (snd f)) l f If). cbn in *. unfold param in *. lia. }
    assert (OB := body_ok N (next_rt s) (next_ct s) m vs fs l b tys0 HO LT). fold c in OB.
    assert (NS : next_rt s2 = next_of (next_rt s) (vars_of m l)) by (rewrite Es; reflexivity).
    assert (LB : (size b < size (ELetLocal l b))%nat) by (cbn; lia).
    destruct (en c) as [e|] eqn:EC.
    + rewrite Ex in E2. apply norm_let_var in E2 as (fuel' & z & EZ & Y).
      assert (CZ : conv F (for_body m (lt c) (Some e)) vs (map fid l ++ fs) b z).
      { eapply IH; [exact LB|exact EZ| |exact HP]. change (next_rt (typed e CtEnv s2)) with (next_rt s2). rewrite NS. exact OB. }
      destruct Y as [->|(l' & b' & -> & ->)]; [eapply conv_group|eapply conv_group_let]; eauto.
    + eapply conv_group_plain; [exact GC|exact EC|]. rewrite Ex in E2. eapply IH; [exact LB|exact E2| |exact HP]. rewrite NS. exact OB.
  - (* continuations *) cbn in E. apply bind_ret in E as ([s1 ys] & E1 & E). apply bind_ret in E as ([s2 b'] & E2 & E). injection E as <- <-.
    destruct l as [|[[id ps] x] l]; cbn in E1.
    + injection E1 as <- <-. inversion SC; subst. constructor. eapply IH; [|exact E2| |exact HP]; [cbn; lia|]. eapply ok_sub; [exact HO|assumption|exact ND| |lia]. intros d D. exact D.
    + apply bind_ret in E1 as ([s3 x'] & E3 & E1). apply bind_ret in E1 as ([s4 l'] & E4 & E1). injection E1 as <- <-.
      inversion SC as [| | | | | | | | | | | | | |? ? ? ? SK SB]; subst. inversion SK as [|? ? SX SL]; subst. cbn [fst snd] in SX.
      pose proof (grows_params ps s) as G0. apply NG0 in E3 as G3. pose proof (norm_conts_grows _ NG0 _ _ _ _ E4) as G4. apply NG0 in E2 as G2.
      pose proof (rt_mono _ _ G0). pose proof (rt_mono _ _ G3).
      assert (N1 : NoDup ((map fst ps ++ defs x) ++ defs (ELetCont l b))) by (cbn in ND |- *; rewrite <- app_assoc in ND; exact ND).
      assert (I1 : forall d, In d ((map fst ps ++ defs x) ++ defs (ELetCont l b)) -> In d (defs (ELetCont ((id, ps, x) :: l) b))) by (intros d D; cbn in D |- *; rewrite <- app_assoc; exact D).
      apply NoDup_app_inv in N1 as (NX & NB & _).
      destruct (ok_under N (next_rt s) m vs fs _ (map fst ps) x (next_rt (typed_params ps s)) HO SX NX) as [OX FX]; [|lia|].
      { intros d D. apply I1, in_or_app. auto. }
      constructor; [|exact FX|].
      * eapply IH; [|exact E3|exact OX|eapply pending_before; [eapply grows_trans|]; eauto]. cbn; lia.
      * apply (IH (ELetCont l b)) with (fuel := S fuel) (s := s3) (s' := s2); [cbn; lia| | |exact HP]; [cbn; rewrite E4; cbn; rewrite E2; reflexivity|].
        eapply ok_sub; [exact HO|constructor; assumption|exact NB| |lia]. intros d D. apply I1, in_or_app. auto.
Qed.
End Driver.
