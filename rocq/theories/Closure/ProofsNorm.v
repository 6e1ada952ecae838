(** * What the normalizer makes is related to what it is given *)
From Verif.Base Require Import Base.
From Verif.Ir Require Import Model.
From Verif.Closure Require Import Model Spec Rel ProofsSim ProofsScope ProofsGroup.

Lemma bind_ret : forall {A B} (m : outcome A) (k : A -> outcome B) y, bind m k = Ret y -> exists x, m = Ret x /\ k x = Ret y.
Proof. intros A B [x| |] k y H; try discriminate H. exists x. auto. Qed.

(** ** States *)
Definition env_below (n : nat) (f : function) : Prop :=
  match f_env f with Some (id, ps) => Forall (fun i => (i < n)%nat) (id :: map fst ps) | None => True end.
Definition grows (s s' : state) : Prop :=
  (next_rt s <= next_rt s')%nat /\ (next_ct s <= next_ct s')%nat /\
  (forall id, In id (map fst (types s)) -> In id (map fst (types s'))) /\
  exists l, pending s' = pending s ++ l /\ map fst l = List.seq (next_ct s) (next_ct s' - next_ct s) /\ Forall (fun p => env_below (next_rt s') (snd p)) l.

Lemma env_below_mono : forall n n' f, (n <= n')%nat -> env_below n f -> env_below n' f.
Proof. intros n n' f L H. unfold env_below in *. destruct (f_env f) as [[id ps]|]; [|exact I]. eapply Forall_impl; [|exact H]. cbn. intros. lia. Qed.

Lemma grows_refl : forall s, grows s s.
Proof. intro s. repeat split; auto. exists []. rewrite app_nil_r, Nat.sub_diag. repeat split; auto. Qed.

Lemma grows_trans : forall a b c, grows a b -> grows b c -> grows a c.
Proof.
  intros a b c (R1 & C1 & T1 & l1 & P1 & K1 & E1) (R2 & C2 & T2 & l2 & P2 & K2 & E2). repeat split; try lia; auto.
  exists (l1 ++ l2). rewrite P2, P1, app_assoc. split; [reflexivity|]. split.
  - rewrite map_app, K1, K2. replace (next_ct b) with (next_ct a + (next_ct b - next_ct a))%nat at 2 by lia. rewrite <- seq_app. f_equal. lia.
  - apply Forall_app. split; [|exact E2]. eapply Forall_impl; [|exact E1]. intros p. apply env_below_mono. exact R2.
Qed.

Lemma grows_typed : forall id t s, grows s (typed id t s).
Proof. intros id t s. unfold grows, typed. cbn. repeat split; auto. exists []. rewrite app_nil_r, Nat.sub_diag. repeat split; auto. Qed.
Lemma grows_params : forall ps s, grows s (typed_params ps s).
Proof. unfold typed_params. induction ps as [|p ps IH]; intro s; cbn; [apply grows_refl|]. eapply grows_trans; [apply grows_typed|apply IH]. Qed.

Section Lists.
Variable nrm : state -> expr -> outcome (state * expr).
Hypothesis H : forall s x s' y, nrm s x = Ret (s', y) -> grows s s'.
Lemma norms_grows : forall es s s' ys, norms nrm s es = Ret (s', ys) -> grows s s'.
Proof.
  induction es as [|e es IH]; intros s s' ys E; cbn in E; [injection E as <- <-; apply grows_refl|].
  apply bind_ret in E as ([s1 y] & E1 & E). apply bind_ret in E as ([s2 ys'] & E2 & E). injection E as <- <-. eapply grows_trans; eauto.
Qed.
Lemma norm_vars_grows : forall es s s' ys, norm_vars nrm s es = Ret (s', ys) -> grows s s'.
Proof.
  induction es as [|[[id t] e] es IH]; intros s s' ys E; cbn in E; [injection E as <- <-; apply grows_refl|].
  apply bind_ret in E as ([s1 y] & E1 & E). apply bind_ret in E as ([s2 ys'] & E2 & E). injection E as <- <-.
  eapply grows_trans; [apply grows_typed|]. eapply grows_trans; eauto.
Qed.
Lemma norm_clauses_grows : forall es s s' ys, norm_clauses nrm s es = Ret (s', ys) -> grows s s'.
Proof.
  induction es as [|[p e] es IH]; intros s s' ys E; cbn in E; [injection E as <- <-; apply grows_refl|].
  apply bind_ret in E as ([s1 y] & E1 & E). apply bind_ret in E as ([s2 ys'] & E2 & E). injection E as <- <-.
  eapply grows_trans; [apply grows_params|]. eapply grows_trans; eauto.
Qed.
Lemma norm_conts_grows : forall es s s' ys, norm_conts nrm s es = Ret (s', ys) -> grows s s'.
Proof.
  induction es as [|[[id ps] e] es IH]; intros s s' ys E; cbn in E; [injection E as <- <-; apply grows_refl|].
  apply bind_ret in E as ([s1 y] & E1 & E). apply bind_ret in E as ([s2 ys'] & E2 & E). injection E as <- <-.
  eapply grows_trans; [apply grows_params|]. eapply grows_trans; eauto.
Qed.
End Lists.

Lemma types_of_fst : forall tys ids ps, types_of tys ids = Ret ps -> map fst ps = ids.
Proof.
  intros tys ids. induction ids as [|id ids IH]; intros ps E; cbn in E; [injection E as <-; reflexivity|].
  destruct (assoc id tys); [|discriminate E]. apply bind_ret in E as (qs & E1 & E). injection E as <-. cbn. f_equal. apply IH, E1.
Qed.

Lemma convert_grows : forall s l b s' y, convert s l b = Ret (s', y) -> grows s s'.
Proof.
  intros s l b s' y E. unfold convert in E. apply bind_ret in E as (ps & ET & E). injection E as <- <-. apply types_of_fst in ET.
  set (vars := captured_vars l) in *.
  assert (LN : (next_rt s <= match match vars with [] => None | _ => Some (next_rt s + List.length vars)%nat end with None => next_rt s | Some e => S e end)%nat) by (destruct vars; cbn; lia).
  unfold grows. cbn [next_rt next_ct pending types]. split; [exact LN|]. split; [lia|]. split; [auto|].
  eexists. split; [reflexivity|]. rewrite map_snd_combine by (rewrite map_length, seq_length; reflexivity). split.
  - rewrite map_fst_combine by (rewrite seq_length, map_length; reflexivity). f_equal. lia.
  - apply Forall_forall. intros [g f] I. apply in_combine_r in I. apply in_map_iff in I as (a & <- & _). unfold env_below. cbn.
    destruct vars as [|v vars'] eqn:EV; [exact I|]. cbn [option_map]. constructor; [lia|]. apply Forall_forall. intros i Ii. apply in_map_iff in Ii as ([i0 t] & <- & Ii). apply in_combine_l in Ii. apply in_seq in Ii. cbn in *. lia.
Qed.

Lemma norm_grows : forall fuel s x s' y, norm fuel s x = Ret (s', y) -> grows s s'.
Proof.
  induction fuel as [|fuel IH]; intros s x s' y E; [discriminate E|].
  pose proof (norms_grows (norm fuel) IH) as G1. pose proof (norm_vars_grows (norm fuel) IH) as G2. pose proof (norm_clauses_grows (norm fuel) IH) as G3. pose proof (norm_conts_grows (norm fuel) IH) as G4.
  destruct x; cbn in E; try (injection E as <- <-; apply grows_refl);
    try (repeat (apply bind_ret in E as ([? ?] & ? & E)); injection E as <- <-;
      repeat match goal with
             | X : norm fuel _ _ = Ret _ |- _ => apply IH in X
             | X : norms _ _ _ = Ret _ |- _ => apply G1 in X
             | X : norm_vars _ _ _ = Ret _ |- _ => apply G2 in X
             | X : norm_clauses _ _ _ = Ret _ |- _ => apply G3 in X
             | X : norm_conts _ _ _ = Ret _ |- _ => apply G4 in X
             end; clear IH G1 G2 G3 G4; eauto using grows_trans; fail).
  apply bind_ret in E as ([s1 z] & E1 & E). eapply grows_trans; [eapply convert_grows, E1|eapply IH, E].
Qed.

(** ** The conversion of a group *)
Definition lifted_fun (m : sub) (c : capture) (f : nat * list param * ct * expr) : function :=
  Function (fun_env (en c) (news c) (tys c)) (fparams f) (fret f) (app (for_funs m (lt c) (vars c) (news c) (en c)) (snd f)).

Lemma convert_spec : forall s m vs fs l b s2 x2, convert s (map (app_fun m) l) (app m b) = Ret (s2, x2) ->
  exists tys0, List.length (vars_of m l) = List.length tys0 /\
  let c := capture_of m vs fs (next_rt s) (next_ct s) tys0 l in
  s2 = State (next_of (next_rt s) (vars_of m l)) (next_ct s + List.length l)
    (pending s ++ combine (List.seq (next_ct s) (List.length l)) (map (lifted_fun m c) l)) (types s) /\
  x2 = match en c with
       | Some e => let_var [(e, CtEnv, construct c)] (app (for_body m (lt c) (en c)) b)
       | None => app (for_body m (lt c) (en c)) b
       end.
Proof.
  intros s m vs fs l b s2 x2 E. unfold convert in E. apply bind_ret in E as (ps & ET & E). apply types_of_fst in ET. fold (vars_of m l) in *.
  exists (map snd ps). split; [rewrite <- ET, !map_length; reflexivity|].
  assert (EI : map (fun f => fst (fst (fst f))) (map (app_fun m) l) = map fid l) by (rewrite map_map; reflexivity).
  rewrite EI, !map_length in E. rewrite map_snd_combine in E by (rewrite map_length, seq_length; reflexivity).
  cbv zeta. injection E as <- <-. unfold capture_of. cbn [en lt vars news tys]. split.
  - f_equal.
    + unfold next_of. destruct (vars_of m l); reflexivity.
    + f_equal. f_equal. rewrite map_map. apply map_ext. intro f. unfold lifted_fun. cbn [en lt vars news tys app_fun fst snd]. f_equal. apply rewritten_for_funs.
  - rewrite rewritten_for_body. unfold construct. cbn [vars tys].
    assert (EP : combine (vars_of m l) (map snd ps) = ps).
    { rewrite <- ET. clear. induction ps as [|[a b] ps IH]; [reflexivity|]. cbn. rewrite IH. reflexivity. }
    rewrite EP. destruct (vars_of m l); reflexivity.
Qed.

Lemma lifted_in : forall (h : nat * list param * ct * expr -> function) l k f, NoDup (map fid l) -> In f l ->
  exists g, assoc (fid f) (combine (map fid l) (List.seq k (List.length l))) = Some g /\ In (g, h f) (combine (List.seq k (List.length l)) (map h l)).
Proof.
  intros h l. induction l as [|a l IH]; intros k f ND I; [destruct I|]. cbn in *. inversion ND as [|? ? N ND']; subst. destruct I as [->|I].
  - exists k. rewrite Nat.eqb_refl. auto.
  - destruct (IH (S k) f ND' I) as (g & A & J). exists g. destruct (Nat.eqb_spec (fid f) (fid a)) as [EQ|_]; [|auto].
    exfalso. apply N. rewrite <- EQ. apply in_map, I.
Qed.

Lemma nodup_ids : forall l, NoDup (flat_map fun_defs l) -> NoDup (map fid l).
Proof.
  induction l as [|f l IH]; intro H; [constructor|]. cbn in H. apply NoDup_app_inv in H as (_ & H & D). cbn. constructor; [|apply IH, H].
  intro I. apply (D (fid f)).
  - unfold fun_defs. apply in_or_app. right. left. reflexivity.
  - apply in_map_iff in I as (f' & E & I). apply (in_flat _ l f' _ I). unfold fun_defs. apply in_or_app. right. left. exact E.
Qed.

(** [let_var] on the way through the normalizer *)
Lemma norm_construct : forall fuel s c s' y, norm fuel s (construct c) = Ret (s', y) -> s' = s /\ y = construct c.
Proof.
  intros fuel s c s' y E. destruct fuel as [|fuel]; [discriminate E|]. unfold construct in *. cbn in E. apply bind_ret in E as ([s1 ys] & E & E2). injection E2 as <- <-.
  assert (G : forall ps s0 s1 ys, norms (norm fuel) s0 (map (fun p : nat * ct => EVar (fst p) (snd p)) ps) = Ret (s1, ys) -> s1 = s0 /\ ys = map (fun p => EVar (fst p) (snd p)) ps).
  { clear. induction ps as [|p ps IH]; intros s0 s1 ys E; cbn in E; [injection E as <- <-; auto|]. apply bind_ret in E as ([s2 y] & E1 & E). apply bind_ret in E as ([s3 zs] & E2 & E). injection E as <- <-.
    destruct fuel; [discriminate E1|]. cbn in E1. injection E1 as <- <-. apply IH in E2 as [-> ->]. auto. }
  apply G in E as [-> ->]. auto.
Qed.

Lemma norm_let_var : forall fuel s e c x s' y, norm fuel s (let_var [(e, CtEnv, construct c)] x) = Ret (s', y) ->
  exists fuel' z, norm fuel' (typed e CtEnv s) x = Ret (s', z) /\
  (y = ELetVar [(e, CtEnv, construct c)] z \/ exists l b, z = ELetVar l b /\ y = ELetVar ((e, CtEnv, construct c) :: l) b).
Proof.
  intros fuel s e c x s' y E. destruct fuel as [|fuel]; [discriminate E|].
  assert (G : norm (S fuel) s (ELetVar [(e, CtEnv, construct c)] x) = Ret (s', y) -> exists fuel' z, norm fuel' (typed e CtEnv s) x = Ret (s', z) /\ y = ELetVar [(e, CtEnv, construct c)] z).
  { clear E. intro E. cbn in E. apply bind_ret in E as ([s1 vs1] & E1 & E). apply bind_ret in E as ([s2 z] & E2 & E). injection E as <- <-.
    apply bind_ret in E1 as ([s3 w] & E3 & E1). injection E1 as <- <-. apply norm_construct in E3 as [-> ->]. exists fuel, z. auto. }
  destruct x; try (apply G in E as (fuel' & z & E & ->); exists fuel', z; auto).
  cbn in E. apply bind_ret in E as ([s1 vs1] & E1 & E). apply bind_ret in E as ([s2 z] & E2 & E). injection E as <- <-.
  apply bind_ret in E1 as ([s3 w] & E3 & E1). apply bind_ret in E1 as ([s4 ws] & E4 & E1). injection E1 as <- <-. apply norm_construct in E3 as [-> ->].
  exists (S fuel), (ELetVar ws z). split; [cbn; rewrite E4; cbn; rewrite E2; reflexivity|]. right. eauto.
Qed.
