(** * Releasing what does not escape changes nothing *)
From Verif.Base Require Import Base.
From Verif.Ir Require Import Model Spec Proofs RtInd.
From Verif.Heap2Stack Require Import Model Spec ProofsSafe.

Lemma write_length h a c : List.length (write h a c) = List.length h.
Proof. revert a. induction h as [|x h IH]; intros [|a]; cbn; congruence. Qed.

Lemma write_other h a c b : b <> a -> nth_error (write h a c) b = nth_error h b.
Proof.
  revert a b. induction h as [|x h IH]; intros [|a] [|b] N; cbn; try reflexivity; try congruence.
  apply IH. congruence.
Qed.

Lemma write_same h a c : (a < List.length h)%nat -> nth_error (write h a c) a = Some c.
Proof. revert a. induction h as [|x h IH]; intros [|a]; cbn; intro L; try lia; [reflexivity|]. apply IH. lia. Qed.

Lemma load_some h a v : load h a = Some v <-> nth_error h a = Some (Some v).
Proof. unfold load. destruct (nth_error h a) as [[w|]|]; split; congruence. Qed.

Lemma load_len h a v : load h a = Some v -> (a < List.length h)%nat.
Proof. intro L. apply load_some in L. apply nth_error_Some. congruence. Qed.

(** ** The relation between the two runs *)

Definition priv := nat -> Prop.
Definition live (h h' : heap) (a : nat) : Prop :=
  nth_error h a = nth_error h' a /\ exists v, load h a = Some v.

Record inv (S : priv) (h h' : heap) : Prop := {
  i_agree : agree S h h';
  i_heap : heap_ok S h;
  i_bound : forall a, S a -> (a < List.length h)%nat }.

Record step (S : priv) (h h' : heap) (S1 : priv) (h1 h1' : heap) : Prop := {
  s_inv : inv S1 h1 h1';
  s_len : (List.length h <= List.length h1)%nat;
  s_incl : forall a, S a -> S1 a;
  s_new : forall a, S1 a -> (a < List.length h)%nat -> S a;
  s_live : forall a, S a -> live h h' a -> live h1 h1' a }.

Definition env_inv (P : list nat) (S : priv) (h h' : heap) (e : env) : Prop :=
  forall id v, lookup e id = Some v ->
  (In id P -> exists a, v = VPtr a /\ S a /\ live h h' a) /\ (~ In id P -> val_ok S h v).

Lemma step_refl S h h' : inv S h h' -> step S h h' S h h'.
Proof. intro I. split; auto. Qed.

Lemma step_trans S h h' S1 h1 h1' S2 h2 h2' :
  step S h h' S1 h1 h1' -> step S1 h1 h1' S2 h2 h2' -> step S h h' S2 h2 h2'.
Proof.
  intros [I1 L1 C1 N1 V1] [I2 L2 C2 N2 V2]. split; auto; try lia.
  intros a A B. apply N1; [apply N2; [exact A|lia]|exact B].
Qed.

Lemma step_val S h h' S1 h1 h1' v : step S h h' S1 h1 h1' -> val_ok S h v -> val_ok S1 h1 v.
Proof.
  intros [_ L _ N _] V a I. destruct (V a I) as [NS La]. split; [|lia]. intro K. apply NS, N; assumption.
Qed.

Lemma step_vals S h h' S1 h1 h1' vs :
  step S h h' S1 h1 h1' -> Forall (val_ok S h) vs -> Forall (val_ok S1 h1) vs.
Proof. intros St. apply Forall_impl. intro v. apply (step_val _ _ _ _ _ _ _ St). Qed.

Lemma step_res S h h' S1 h1 h1' r : step S h h' S1 h1 h1' -> res_ok S h r -> res_ok S1 h1 r.
Proof.
  intros St. destruct r; cbn; eauto using step_val, step_vals.
Qed.

Lemma step_env P S h h' S1 h1 h1' e : step S h h' S1 h1 h1' -> env_inv P S h h' e -> env_inv P S1 h1 h1' e.
Proof.
  intros St E id v L. destruct (E id v L) as [E1 E2]. split.
  - intro I. destruct (E1 I) as (a & -> & A & B). exists a. split; [reflexivity|].
    split; [apply (s_incl _ _ _ _ _ _ St); exact A|apply (s_live _ _ _ _ _ _ St); assumption].
  - intro I. eapply step_val; eauto.
Qed.

Lemma val_ok_struct S h vs : Forall (val_ok S h) vs <->
  (forall a, In a (flat_map addrs vs) -> ~ S a /\ (a < List.length h)%nat).
Proof.
  split.
  - intros F a I. apply in_flat_map in I. destruct I as (v & Iv & Ia).
    rewrite Forall_forall in F. exact (F v Iv a Ia).
  - intros H. apply Forall_forall. intros v Iv a Ia. apply H. apply in_flat_map. eauto.
Qed.

Lemma load_ok S h h' a : inv S h h' -> ~ S a -> load h' a = load h a.
Proof. intros I N. unfold load. now rewrite (proj2 (i_agree _ _ _ I) a N). Qed.

(** Writing the same value on both sides. *)
Lemma store_step S h h' a v w : inv S h h' -> val_ok S h v -> load h a = Some w ->
  step S h h' S (write h a (Some v)) (write h' a (Some v)).
Proof.
  intros [[Lh Ag] Hh B] V L. pose proof (load_len _ _ _ L) as La.
  assert (Same : forall b, nth_error h b = nth_error h' b ->
            nth_error (write h a (Some v)) b = nth_error (write h' a (Some v)) b).
  { intros b E. destruct (Nat.eq_dec b a) as [->|N].
    - rewrite !write_same by lia. reflexivity.
    - rewrite !write_other by exact N. exact E. }
  split; [split| | | |]; rewrite ?write_length; auto.
  - split; [rewrite !write_length; exact Lh|]. intros b Nb. apply Same, Ag, Nb.
  - intros b u Lb. apply load_some in Lb. destruct (Nat.eq_dec b a) as [->|N].
    + rewrite write_same in Lb by exact La. injection Lb as <-. intros c Ic. rewrite write_length. apply V, Ic.
    + rewrite write_other in Lb by exact N. apply load_some in Lb.
      intros c Ic. rewrite write_length. exact (Hh b u Lb c Ic).
  - intros b _ [E [u Lu]]. split; [apply Same, E|]. destruct (Nat.eq_dec b a) as [->|N].
    + exists v. apply load_some. apply write_same, La.
    + exists u. apply load_some. rewrite write_other by exact N. apply load_some, Lu.
Qed.

Lemma alloc_step S h h' v : inv S h h' -> val_ok S h v ->
  step S h h' S (h ++ [Some v]) (h' ++ [Some v]).
Proof.
  intros [[Lh Ag] Hh B] V.
  assert (Grow : forall u, val_ok S h u -> val_ok S (h ++ [Some v]) u).
  { intros u U a I. destruct (U a I). rewrite app_length. split; [assumption|lia]. }
  assert (Same : forall b, nth_error h b = nth_error h' b ->
            nth_error (h ++ [Some v]) b = nth_error (h' ++ [Some v]) b).
  { intros b E. destruct (Nat.lt_ge_cases b (List.length h)) as [Lb|Lb].
    - rewrite !nth_error_app1 by lia. exact E.
    - rewrite !nth_error_app2 by lia. now rewrite Lh. }
  split; [split| | | |]; rewrite ?app_length; auto; try lia.
  - split; [rewrite !app_length; lia|]. intros b Nb. apply Same, Ag, Nb.
  - intros b u Lb. apply load_some in Lb. destruct (Nat.lt_ge_cases b (List.length h)) as [K|K].
    + rewrite nth_error_app1 in Lb by exact K. apply Grow, (Hh b). now apply load_some.
    + rewrite nth_error_app2 in Lb by exact K. destruct (b - List.length h)%nat as [|[|?]]; try discriminate Lb.
      injection Lb as <-. apply Grow, V.
  - intros a Sa. rewrite ?app_length; cbn. specialize (B a Sa). lia.
  - intros b Sb [E [u Lu]]. split; [apply Same, E|]. exists u. apply load_some.
    rewrite nth_error_app1 by (eapply load_len; exact Lu). apply load_some, Lu.
Qed.

(** ** Patterns *)
Section Pat.
Variables (round32 : fp -> fp) (S : priv) (h h' : heap).
Hypothesis I : inv S h h'.

Definition pat_sim (p : rtpat) : Prop := forall v, val_ok S h v ->
  pmatch round32 h' p v = pmatch round32 h p v /\
  forall binds, pmatch round32 h p v = MYes binds ->
    map fst binds = pat_vars p /\ Forall (val_ok S h) (map snd binds).

Lemma fields_sim ps : Forall pat_sim ps -> forall vs, Forall (val_ok S h) vs ->
  pmatch_fields (pmatch round32 h') ps vs = pmatch_fields (pmatch round32 h) ps vs /\
  forall binds, pmatch_fields (pmatch round32 h) ps vs = MYes binds ->
    map fst binds = flat_map pat_vars ps /\ Forall (val_ok S h) (map snd binds).
Proof.
  induction 1 as [|p ps Hp _ IH]; intros vs V; cbn.
  - split; [reflexivity|]. intros binds E. injection E as <-. split; [reflexivity|constructor].
  - destruct V as [|v vs V Vs]; [split; [reflexivity|discriminate]|].
    destruct (Hp v V) as [E1 E2]. destruct (IH vs Vs) as [F1 F2]. rewrite E1, F1. split; [reflexivity|].
    destruct (pmatch round32 h p v) as [b| |]; cbn; try discriminate.
    destruct (pmatch_fields (pmatch round32 h) ps vs) as [bs| |]; cbn; try discriminate.
    intros binds E. injection E as <-. destruct (E2 b eq_refl) as [A1 A2]. destruct (F2 bs eq_refl) as [B1 B2].
    rewrite !map_app, A1, B1. split; [reflexivity|]. apply Forall_app. now split.
Qed.

Lemma ptr_load a : val_ok S h (VPtr a) -> load h' a = load h a /\
  forall w, load h a = Some w -> val_ok S h w.
Proof.
  intros V. split; [apply (load_ok S); [exact I|apply (V a); cbn; auto]|].
  intros w L. exact (i_heap _ _ _ I a w L).
Qed.

Lemma trivial_sim m : (m = MYes [] \/ m = MNo \/ m = MUndefined) ->
  m = m /\ forall binds, m = MYes binds -> map fst binds = [] /\ Forall (val_ok S h) (map snd binds).
Proof.
  intros [-> |[-> | ->]]; (split; [reflexivity|]); try discriminate.
  intros b E. injection E as <-. split; [reflexivity|constructor].
Qed.

Lemma pmatch_sim : forall p, pat_sim p.
Proof.
  fix IH 1. intros [id t [p|] |t|p|p|t|t i ps|t ps|t p|p|c] v V; cbn [pmatch pat_vars].
  - destruct (IH p v V) as [E1 E2]. rewrite E1. split; [reflexivity|].
    destruct (pmatch round32 h p v) as [b| |]; cbn; try discriminate.
    intros binds E. injection E as <-. destruct (E2 b eq_refl) as [A B]. cbn. rewrite A.
    split; [reflexivity|constructor; assumption].
  - split; [reflexivity|]. intros binds E. injection E as <-. split; [reflexivity|constructor; [exact V|constructor]].
  - apply trivial_sim; auto.
  - destruct v; try (split; [reflexivity|discriminate]).
    destruct (ptr_load a V) as [E L]. rewrite E. destruct (load h a) as [w|]; [|split; [reflexivity|discriminate]].
    exact (IH p w (L w eq_refl)).
  - destruct v; try (split; [reflexivity|discriminate]).
    destruct (ptr_load a V) as [E L]. rewrite E. destruct (load h a) as [w|]; [|split; [reflexivity|discriminate]].
    exact (IH p w (L w eq_refl)).
  - destruct v; try (split; [reflexivity|discriminate]). apply trivial_sim; auto.
  - split; [reflexivity|discriminate].
  - destruct v; try (split; [reflexivity|discriminate]). apply fields_sim.
    + induction ps as [|p ps IHps]; constructor; [exact (IH p)|exact IHps].
    + apply val_ok_struct. exact V.
  - destruct v; try (split; [reflexivity|discriminate]).
    destruct (ct_eq_dec t0 (pat_ty p)); [|split; [reflexivity|discriminate]]. apply IH. exact V.
  - destruct v; try (split; [reflexivity|discriminate]). apply IH. exact V.
  - apply trivial_sim. destruct (equals_const round32 c v) as [[|]|]; auto.
Qed.

Lemma first_match_sim v cs : val_ok S h v -> forall P,
  first_match round32 h' v cs = first_match round32 h v cs /\
  forall binds b, first_match round32 h v cs = Some (binds, b) ->
    safe_clauses safe P cs = true ->
    safe (minus P (map fst binds)) b = true /\ Forall (val_ok S h) (map snd binds).
Proof.
  intros V P. induction cs as [|[p x] cs [IH1 IH2]]; cbn; [split; [reflexivity|discriminate]|].
  destruct (pmatch_sim p v V) as [E1 E2]. rewrite E1, IH1. split; [reflexivity|]. intros binds b F G.
  apply andb_true_iff in G. destruct G as [G1 G2].
  destruct (pmatch round32 h p v) as [bs| |]; try discriminate F; [|apply IH2; assumption].
  injection F as <- <-. destruct (E2 bs eq_refl) as [A B]. rewrite A. split; assumption.
Qed.
End Pat.

Lemma lookup_app a e id : lookup (a ++ e) id =
  match lookup a id with Some v => Some v | None => lookup e id end.
Proof. induction a as [|[i v] a IH]; cbn; [reflexivity|]. destruct (i =? id)%nat; auto. Qed.

Lemma lookup_none a id : lookup a id = None <-> ~ In id (map fst a).
Proof.
  induction a as [|[i v] a IH]; cbn; [tauto|]. destruct (Nat.eqb_spec i id) as [->|N].
  - split; [discriminate|tauto].
  - rewrite IH. tauto.
Qed.

Lemma lookup_in a id v : lookup a id = Some v -> In v (map snd a).
Proof.
  induction a as [|[i w] a IH]; cbn; [discriminate|]. destruct (i =? id)%nat; [|auto].
  intro E. injection E as ->. auto.
Qed.

Lemma env_inv_bind P S h h' e binds : env_inv P S h h' e -> Forall (val_ok S h) (map snd binds) ->
  env_inv (minus P (map fst binds)) S h h' (binds ++ e).
Proof.
  intros E F id v. rewrite lookup_app. destruct (lookup binds id) as [w|] eqn:L.
  - intro K. injection K as <-. split.
    + intro I. apply minus_in in I. destruct I as [_ I]. apply lookup_none in I. congruence.
    + intros _. rewrite Forall_forall in F. apply F. eapply lookup_in; eauto.
  - intro K. destruct (E id v K) as [E1 E2]. apply lookup_none in L. rewrite minus_in. split; [tauto|].
    intro I. apply E2. tauto.
Qed.

Lemma env_inv_nil S h h' e : (forall id v, lookup e id = Some v -> val_ok S h v) <-> env_inv [] S h h' e.
Proof.
  split; intros H id v L.
  - split; [intros []|eauto].
  - exact (proj2 (H id v L) (fun f => f)).
Qed.
