(** Where the variables of an expression are, by levels below the frame pointer. *)
From Coq Require Import ZArith Lia Permutation.
From Verif.Base Require Import Base.
From Verif.Ir Require Import Model RtInd.
From Verif.Layout Require Import Model.
From Verif.Frame Require Import Model.
From Verif.Frame Require Proofs.
From Verif.Codegen Require Import ProofsGen.
Local Open Scope nat_scope.

Section Frame.
Variable words : ct -> nat.
Variable offs : list (nat * Z).

(** The variable [id] of type [t] is at level [j], below the level [n]. *)
Definition at_level (id : nat) (t : ct) (n j : nat) : Prop := find offs id = Some (offset_of j) /\ n + words t <= j.
Inductive chain : nat -> list param -> nat -> Prop :=
| chain_nil n : chain n [] n
| chain_cons n id t ps j i : at_level id t n j -> chain j ps i -> chain n ((id, t) :: ps) i.

(** The variables of an expression are at levels from [n] to [m]. *)
Inductive placed : nat -> nat -> rt -> Prop :=
| placed_plain n m x : n <= m -> Proofs.unbinding x = true -> Forall (placed n m) (children x) -> placed n m x
| placed_let n m vs b : placed_lets n m vs b -> placed n m (RLetVar vs b)
| placed_scope n m cs b j : n <= j -> j <= m -> placed n j b -> Forall (placed_cont j m) cs -> placed n m (RLetCont cs b)
with placed_lets : nat -> nat -> list (nat * ct * rt) -> rt -> Prop :=
| placed_nil n m b : placed n m b -> placed_lets n m [] b
| placed_cons n m id t y vs b j :
    at_level id t n j -> j <= m -> placed j m y -> placed_lets j m vs b -> placed_lets n m ((id, t, y) :: vs) b
with placed_cont : nat -> nat -> nat * list param * rt -> Prop :=
| placed_body j m k ps y i : chain j ps i -> i <= m -> placed i m y -> placed_cont j m (k, ps, y).

Lemma chain_le n ps i : chain n ps i -> n <= i.
Proof. induction 1 as [|n id t ps j i [_ A] _ IH]; lia. Qed.
Lemma chain_lower n ps i n' : chain n ps i -> n' <= n -> exists i', chain n' ps i' /\ i' <= i.
Proof.
  intros C. revert n'. induction C as [n | n id t ps j i [A B] C IH]; intros n' L.
  - exists n'. split; [constructor | exact L].
  - exists i. split; [econstructor; [split; [exact A|]|exact C]; lia | lia].
Qed.

Definition monotone (x : rt) : Prop := forall n m n' m', placed n m x -> n' <= n -> m <= m' -> placed n' m' x.
Lemma lets_monotone vs b : Forall monotone (map snd vs) -> monotone b ->
  forall n m n' m', placed_lets n m vs b -> n' <= n -> m <= m' -> placed_lets n' m' vs b.
Proof.
  intros H Hb. induction vs as [|[[id t] y] vs IH]; cbn [map snd] in H; intros n m n' m' P L L'.
  - inversion P; subst. constructor. eapply Hb; eassumption.
  - inversion P as [|? ? ? ? ? ? ? j [A B] C D E]; subst. inversion H as [|? ? H1 H2]; subst.
    econstructor; [split; [exact A|] | | |].
    + lia.
    + lia.
    + eapply H1; [exact D | lia | exact L'].
    + eapply IH; [exact H2 | exact E | lia | exact L'].
Qed.
Lemma placed_monotone x : monotone x.
Proof.
  induction x as [x IH] using rt_children_ind. intros n m n' m' P L L'.
  destruct P as [n m x Le U F | n m vs b P | n m cs b j Lj Lm P F].
  - constructor; [lia | exact U|]. rewrite Forall_forall in *. intros y Hy. eapply IH; eauto.
  - cbn [children] in IH. apply Forall_app in IH. destruct IH as [Hv Hb]. inversion Hb; subst. apply placed_let. eapply lets_monotone; eassumption.
  - cbn [children] in IH. apply Forall_app in IH. destruct IH as [Hv Hb]. inversion Hb as [|? ? Hb' _]; subst.
    apply placed_scope with j; [lia | lia | eapply Hb'; [exact P | exact L | lia]|].
    rewrite Forall_forall in *. intros [[k ps] y] Hk. specialize (F _ Hk). inversion F as [? ? ? ? ? i C Li Py]; subst.
    apply placed_body with i; [exact C | lia|]. eapply Hv; [apply (in_map snd _ _ Hk) | exact Py | lia | exact L'].
Qed.
Lemma placed_le n m x : placed n m x -> n <= m.
Proof.
  revert n m x. fix G 4. intros n m x [n0 m0 x0 Le _ _ | n0 m0 vs b P | n0 m0 cs b j Lj Lm _ _]; [exact Le | | lia].
  assert (K : forall vs n, placed_lets n m0 vs b -> n <= m0).
  { clear -G. fix K 3. intros vs n [n1 m1 b1 P | n1 m1 id t y vs1 b1 j [_ A] Lj P P']; [exact (G _ _ _ P) | lia]. }
  exact (K _ _ P).
Qed.

(** ** The frame is computed so *)
Notation go := (go words).
Definition wf (f : frame) : Prop := scope f <= vars f.
Record more (f f' : frame) : Prop := More {
  m_scope : scope f <= scope f'; m_vars : vars f <= vars f'; m_wf : wf f'; m_offsets : incl (offsets f) (offsets f') }.
Lemma more_ran bs f f' new : Proofs.ran words bs f f' new -> more f f'.
Proof.
  intros R. split; [apply (Proofs.r_scope _ _ _ _ _ R) | apply (Proofs.r_vars _ _ _ _ _ R) | apply (Proofs.r_wf _ _ _ _ _ R)|].
  rewrite (Proofs.r_offsets _ _ _ _ _ R). apply incl_appr, incl_refl.
Qed.
Lemma go_more x f f' : wf f -> go x f = Ret f' -> more f f'.
Proof. intros W H. destruct (Proofs.all_good words x f f' W H) as (new & R & _). eapply more_ran, R. Qed.
Lemma more_trans f g h : more f g -> more g h -> more f h.
Proof. intros [A B C D] [A' B' C' D']. split; [lia | lia | exact C' | eapply incl_tran; eassumption]. Qed.

Hypothesis functional : NoDup (map fst offs).

Lemma find_in (l : list (nat * Z)) id o : NoDup (map fst l) -> In (id, o) l -> find l id = Some o.
Proof.
  induction l as [|[i x] l IH]; cbn; intros N H; [destruct H|]. inversion N as [|? ? N1 N2]; subst.
  destruct (Nat.eqb_spec i id) as [->|D].
  - destruct H as [H|H]; [congruence|]. elim N1. change id with (fst (id, o)). apply in_map, H.
  - destruct H as [H|H]; [congruence|]. auto.
Qed.
Lemma add_var_more id t f : wf f -> more f (add_var words id t f).
Proof. intros W. unfold add_var, allocate, wf in *. cbn. split; cbn; try lia; [unfold wf; cbn; lia|]. apply incl_tl, incl_refl. Qed.
Lemma add_var_level id t f : incl (offsets (add_var words id t f)) offs -> at_level id t (scope f) (scope (add_var words id t f)).
Proof.
  intros H. split; [|cbn; lia]. apply find_in; [exact functional|]. apply H. cbn. left. reflexivity.
Qed.
Lemma add_vars_more ps : forall f, wf f -> more f (add_vars words ps f).
Proof.
  induction ps as [|[id t] ps IH]; intros f W; cbn [add_vars]; [split; auto; apply incl_refl|].
  pose proof (add_var_more id t f W) as M. eapply more_trans; [exact M|]. apply IH, (m_wf _ _ M).
Qed.
Lemma add_vars_chain ps : forall f, wf f -> incl (offsets (add_vars words ps f)) offs -> chain (scope f) ps (scope (add_vars words ps f)).
Proof.
  induction ps as [|[id t] ps IH]; intros f W H; cbn [add_vars] in *; [constructor|].
  pose proof (add_var_more id t f W) as M.
  apply chain_cons with (scope (add_var words id t f)).
  - apply add_var_level. eapply incl_tran; [|exact H]. apply (m_offsets _ _ (add_vars_more ps _ (m_wf _ _ M))).
  - apply IH; [apply (m_wf _ _ M) | exact H].
Qed.

Definition right (x : rt) : Prop := forall f f', wf f -> go x f = Ret f' -> incl (offsets f') offs -> placed (scope f) (vars f') x.

Lemma gos_right xs : Forall right xs -> forall f f', wf f -> gos go xs f = Ret f' -> incl (offsets f') offs ->
  more f f' /\ Forall (placed (scope f) (vars f')) xs.
Proof.
  induction 1 as [|x xs Hx _ IH]; intros f f' W H I; cbn in H.
  - injection H as <-. split; [split; auto; apply incl_refl | constructor].
  - apply Proofs.bind_ret in H. destruct H as (g & E & H). pose proof (go_more _ _ _ W E) as M.
    destruct (IH g f' (m_wf _ _ M) H I) as [M' P]. pose proof (m_scope _ _ M). pose proof (m_vars _ _ M'). split; [eapply more_trans; eassumption|]. constructor.
    + eapply placed_monotone; [apply (Hx f g W E); eapply incl_tran; [apply (m_offsets _ _ M') | exact I] | lia | lia].
    + eapply Forall_impl; [|exact P]. intros y Py. eapply placed_monotone; [exact Py | lia | lia].
Qed.
Lemma lets_right vs b : Forall right (map snd vs) -> right b -> forall f g f', wf f -> go_lets words go vs f = Ret g -> go b g = Ret f' ->
  incl (offsets f') offs -> more f g /\ placed_lets (scope f) (vars f') vs b.
Proof.
  intros H Hb. induction vs as [|[[id t] y] vs IH]; cbn [map snd] in H; intros f g f' W E Eb I; cbn in E.
  - injection E as <-. split; [split; auto; apply incl_refl|]. constructor. apply Hb; assumption.
  - inversion H as [|? ? H1 H2]; subst. apply Proofs.bind_ret in E. destruct E as (f1 & E1 & E).
    pose proof (add_var_more id t f W) as M. set (f0 := add_var words id t f) in *.
    pose proof (go_more _ _ _ (m_wf _ _ M) E1) as M1.
    destruct (IH H2 f1 g f' (m_wf _ _ M1) E Eb I) as [M2 P].
    pose proof (go_more _ _ _ (m_wf _ _ M2) Eb) as M3. pose proof (m_scope _ _ M1). pose proof (m_vars _ _ M2). pose proof (m_vars _ _ M3). pose proof (m_vars _ _ M1). pose proof (m_wf _ _ M) as W0. unfold wf in W0.
    split; [eapply more_trans; [exact M|]; eapply more_trans; eassumption|].
    assert (I1 : incl (offsets f1) offs) by (eapply incl_tran; [|exact I]; eapply incl_tran; [apply (m_offsets _ _ M2) | apply (m_offsets _ _ M3)]).
    apply placed_cons with (scope f0).
    + apply add_var_level. eapply incl_tran; [apply (m_offsets _ _ M1) | exact I1].
    + lia.
    + eapply placed_monotone; [apply (H1 f0 f1 (m_wf _ _ M) E1 I1) | lia | lia].
    + eapply lets_monotone; [apply Forall_forall; intros; apply placed_monotone | apply placed_monotone | exact P | lia | lia].
Qed.
Lemma conts_right cs : Forall right (map snd cs) -> forall f f', wf f -> go_conts words go cs f = Ret f' -> incl (offsets f') offs ->
  more f f' /\ Forall (placed_cont (scope f) (vars f')) cs.
Proof.
  induction cs as [|[[k ps] y] cs IH]; cbn [map snd]; intros H f f' W E I; cbn in E.
  - injection E as <-. split; [split; auto; apply incl_refl | constructor].
  - inversion H as [|? ? H1 H2]; subst. apply Proofs.bind_ret in E. destruct E as (g & E1 & E).
    pose proof (add_vars_more ps f W) as M. set (f0 := add_vars words ps f) in *.
    pose proof (go_more _ _ _ (m_wf _ _ M) E1) as M1. pose proof (m_scope _ _ M). pose proof (m_scope _ _ M1). pose proof (m_wf _ _ M1). pose proof (m_vars _ _ M). pose proof (m_vars _ _ M1). pose proof (m_wf _ _ M). unfold wf in *.
    assert (Wg : wf (set_scope (scope f) g)) by (unfold wf; cbn; lia).
    destruct (IH H2 _ _ Wg E I) as [M2 P]. cbn [set_scope scope] in *. pose proof (m_vars _ _ M2) as V2. cbn [set_scope vars] in V2.
    pose proof (m_offsets _ _ M2) as O2. cbn [set_scope offsets] in O2.
    split.
    + split; [apply (m_scope _ _ M2) | lia | apply (m_wf _ _ M2)|].
      eapply incl_tran; [apply (m_offsets _ _ M)|]. eapply incl_tran; [apply (m_offsets _ _ M1) | exact O2].
    + constructor; [|exact P]. apply placed_body with (scope f0).
      * apply add_vars_chain; [exact W|]. eapply incl_tran; [apply (m_offsets _ _ M1)|]. eapply incl_tran; eassumption.
      * lia.
      * eapply placed_monotone; [apply (H1 f0 g); [apply (m_wf _ _ M) | exact E1 | eapply incl_tran; eassumption] | lia | lia].
Qed.

Lemma go_right x : right x.
Proof.
  induction x as [x IH] using rt_children_ind. intros f f' W H I.
  destruct (Proofs.unbinding x) eqn:U.
  - destruct (Proofs.go_unbinding words x f f' U H) as (f0 & (O & V & Sc) & H0).
    assert (W0 : wf f0) by (unfold wf in *; lia).
    destruct (gos_right _ IH f0 f' W0 H0 I) as [M P]. pose proof (m_vars _ _ M). unfold wf in *. constructor; [lia | exact U|]. now rewrite Sc.
  - destruct x as [id t|fn t env|c|f0 es|lb t es|k a t es|k es t|o|o a|o a b|o a b c|lc a|lc t a|lc es|t i es|t es
      |m a|es a|a b c|a b|a b|a b|a cs|a| |vs b|ks b]; try discriminate U; cbn [children] in IH; apply Forall_app in IH; destruct IH as [Hv Hb]; inversion Hb as [|? ? Hb' _]; subst;
      cbn [Model.go] in H.
    + apply Proofs.bind_ret in H. destruct H as (g & E & H). apply Proofs.bind_ret in H. destruct H as (g' & E' & H). injection H as <-.
      apply placed_let. cbn [set_scope vars offsets] in *. eapply lets_right; eassumption.
    + apply Proofs.bind_ret in H. destruct H as (g & E & H).
      assert (W0 : wf (set_vars (scope f) f)) by (unfold wf; cbn; lia).
      pose proof (go_more _ _ _ W0 E) as M. cbn [set_vars set_scope scope vars offsets] in *.
      match type of H with go_conts _ _ _ ?e = _ => set (g1 := e) in H end.
      assert (W1 : wf g1) by (unfold wf; cbn; lia). destruct (conts_right _ Hv g1 f' W1 H I) as [M1 P].
      pose proof (m_offsets _ _ M1) as O1. pose proof (m_vars _ _ M1) as V1. pose proof (m_vars _ _ M) as V. pose proof (m_wf _ _ M) as Wg. unfold wf in *.
      cbn [g1 set_vars set_scope scope vars offsets] in *.
      apply placed_scope with (vars g); [lia | lia | | exact P].
      specialize (Hb' (set_vars (scope f) f) g W0 E (incl_tran O1 I)). cbn [set_vars scope] in Hb'. exact Hb'.
Qed.
End Frame.
