(** Proofs that the expansion of [match] evaluates as [match] does. *)
From Coq Require Import Permutation.
From Verif.Base Require Import Base BaseFacts.
From Verif.Ir Require Import Model Spec Proofs.
From Verif.Branch Require Import Model Spec ProofsParts.

Lemma bindM_inv {A B} (m : M A) (f : A -> M B) n x n' :
  bindM m f n = Ret (x, n') -> exists a n1, m n = Ret (a, n1) /\ f a n1 = Ret (x, n').
Proof.
  unfold bindM. destruct (m n) as [[a n1]| |]; try discriminate. eauto.
Qed.

Lemma lift_inv {A} (o : outcome A) n x n' : lift o n = Ret (x, n') -> o = Ret x /\ n' = n.
Proof. unfold lift. destruct o; cbn; try discriminate. intros E; inv E. auto. Qed.

Lemma text_eqb_sym a b : text_eqb a b = text_eqb b a.
Proof.
  revert b; induction a as [|x a IH]; intros [|y b]; cbn; auto. rewrite N.eqb_sym, IH. reflexivity.
Qed.

Lemma pget_insert {V} (m : list (part * V)) p v q :
  pget (pinsert m p v) q = if part_eq_dec p q then Some v else pget m q.
Proof. reflexivity. Qed.

Lemma forall2_impl {A B} (P Q : A -> B -> Prop) l m :
  (forall a b, P a b -> Q a b) -> Forall2 P l m -> Forall2 Q l m.
Proof. intros I; induction 1; constructor; auto. Qed.

(** The results of evaluating an expression that jumps name its jump targets. *)
Section Jumps.
Variable round32 : fp -> fp.
Variable prim : prim_op -> heap -> list val -> option (heap * val).
Variable funs : nat -> option (list nat * list nat * rt).

Lemma operation_targets x o es : operation x = Some (o, es) ->
  incl (flat_map jump_targets es) (jump_targets x) /\
  (forall k, o = OJump k -> In k (jump_targets x)).
Proof.
  intros E; split.
  - destruct x; cbn in E; try discriminate; inversion E; subst; clear E; cbn; rewrite ?app_nil_r;
      try apply incl_refl; try (intros y Y; exact Y); try (intros y []).
    + destruct env; inversion H0; subst; cbn; rewrite ?app_nil_r; try apply incl_refl.
    + apply incl_tl, incl_refl.
  - intros k ->. destruct x; cbn in E; try discriminate; try (inversion E; subst; left; reflexivity).
    destruct env; discriminate.
Qed.

Lemma perform_jump o h vs h' k ws : perform round32 prim o h vs = Some (h', RsJump k ws) -> o = OJump k.
Proof.
  unfold perform, by_prim, of_bool, pure.
  destruct o; intros E;
  repeat match type of E with
  | context [match ?x with _ => _ end] => destruct x; try discriminate E
  end; try congruence.
Qed.

Lemma jump_in :
  (forall h e x h' r, ev false round32 prim funs h e x h' r ->
     forall k vs, r = RsJump k vs -> In k (jump_targets x)) /\
  (forall h e xs h' r, evs false round32 prim funs h e xs h' r ->
     forall k vs, r = inr (RsJump k vs) -> In k (flat_map jump_targets xs)).
Proof.
  apply ev_evs_ind; intros; subst; try discriminate; cbn;
    repeat rewrite in_app_iff; eauto using in_or_app.
  - match goal with H : operation _ = Some _, P : perform _ _ _ _ _ = _ |- _ =>
      apply operation_targets in H; destruct H as [_ J]; apply perform_jump in P; exact (J _ P) end.
  - match goal with H : operation _ = Some _ |- _ =>
      apply operation_targets in H; destruct H as [J _]; apply J; eauto end.
  - match goal with H : returned ?r = Some _ |- _ => destruct r; cbn in H; discriminate H end.
  - match goal with H : forall k vs, _ -> In k (flat_map _ (_ :: _)) |- _ =>
      specialize (H _ _ eq_refl); cbn in H; apply in_app_iff in H; exact H end.
  - match goal with H : forall k vs, _ -> In k (jump_targets (RSeq _ _)) |- _ =>
      specialize (H _ _ eq_refl); cbn in H; apply in_app_iff in H; tauto end.
  - destruct b; eauto.
  - match goal with H : forall k vs, _ -> In k (jump_targets (RWhile _ _)) |- _ =>
      specialize (H _ _ eq_refl); cbn in H; apply in_app_iff in H; tauto end.
  - match goal with H : first_match _ _ _ _ = Some _, J : forall k vs, _ -> In k (jump_targets body) |- _ =>
      rename H into FM; specialize (J _ _ eq_refl); rename J into JB end.
    right. clear - FM JB. induction clauses as [|[p b] cs IH]; cbn in *; [discriminate|].
    apply in_app_iff. destruct (pmatch round32 h1 p v); [inv FM; left; exact JB|right; auto|discriminate].
  - match goal with H : forall k vs, _ -> In k (jump_targets (RLetVar _ _)) |- _ =>
      specialize (H _ _ eq_refl); cbn in H; apply in_app_iff in H; tauto end.
  - match goal with H : forall k vs, _ -> In k (jump_targets (RLetCont _ _)) |- _ =>
      specialize (H _ _ eq_refl); cbn in H; apply in_app_iff in H; tauto end.
  - left. match goal with H : inr _ = inr _ |- _ => inv H; eauto end.
Qed.
End Jumps.

(** The supply of identifiers only grows. *)
Definition mono (k : progress -> M rt) : Prop :=
  forall pr n y n', k pr n = Ret (y, n') -> (n <= n')%nat.

Lemma mono_part fuel p succ fail : mono succ -> mono fail ->
  mono (fun pr => expand_pat_part fuel pr p succ fail).
Proof.
  revert p succ. induction fuel as [|fuel IH]; intros p succ MS MF pr n y n' E; [discriminate|].
  cbn [expand_pat_part] in E.
  destruct (part_status pr p); [|eapply MF; exact E|eapply MS; exact E].
  destruct (part_status pr (parent p)) as [| |[v|]].
  - exact (IH (parent p) _ (IH p succ MS MF) MF _ _ _ _ E).
  - eapply MF; exact E.
  - apply bindM_inv in E. destruct E as (test & n1 & E1 & E). apply lift_inv in E1. destruct E1 as [T ->].
    destruct test as [test|].
    + apply bindM_inv in E. destruct E as (b & n1 & E1 & E). apply lift_inv in E1. destruct E1 as [TB ->].
      apply bindM_inv in E. destruct E as (passed & n1 & E1 & E). apply lift_inv in E1. destruct E1 as [MP ->].
      apply bindM_inv in E. destruct E as (success & n1 & ES & E).
      apply bindM_inv in E. destruct E as (failed & n2 & E1 & E). apply lift_inv in E1. destruct E1 as [MA ->].
      apply bindM_inv in E. destruct E as (failure & n2 & EF & E). inv E.
      apply MS in ES. apply MF in EF. lia.
    + apply bindM_inv in E. destruct E as (b & n1 & E1 & E). apply lift_inv in E1. destruct E1 as [TB ->].
      apply bindM_inv in E. destruct E as (passed & n1 & E1 & E). apply lift_inv in E1. destruct E1 as [MP ->].
      eapply MS; exact E.
  - apply bindM_inv in E. destruct E as (g & n1 & E1 & E). apply lift_inv in E1. destruct E1 as [VG ->].
    apply bindM_inv in E. destruct E as (v & n1 & E1 & E). inv E1.
    apply bindM_inv in E. destruct E as (ty & n1 & E1 & E). apply lift_inv in E1. destruct E1 as [TY ->].
    apply bindM_inv in E. destruct E as (og & n1 & E1 & E). apply lift_inv in E1. destruct E1 as [OG ->].
    apply bindM_inv in E. destruct E as (ge & n1 & E1 & E). apply lift_inv in E1. destruct E1 as [GE ->].
    apply bindM_inv in E. destruct E as (pr' & n1 & E1 & E). apply lift_inv in E1. destruct E1 as [SP ->].
    apply bindM_inv in E. destruct E as (body & n1 & EB & E). inv E.
    apply (IH p succ MS MF) in EB. lia.
Qed.

Section Exact.
Variable round32 : fp -> fp.
Variable prim : prim_op -> heap -> list val -> option (heap * val).
Variable funs : nat -> option (list nat * list nat * rt).
Notation ev := (ev false round32 prim funs).
Notation evs := (evs false round32 prim funs).
Variable h : heap.
Variable v0 : val.
Variable ty0 : ct.
Variable cs : list const.
Hypothesis differ : forall c d v, In c cs -> In d cs -> const_ty c = const_ty d ->
  equals_const round32 c v = Some true -> equals_const round32 d v = Some true -> c = d.
Notation val_of := (partv round32 h v0).

Record good (e : env) (n : nat) (pr : progress) (vals : list val) (S : list nat) : Prop := Good {
  g_root : exists o, pget (determined pr) (Root ty0) = Some o;
  g_sat : forall p o, pget (determined pr) p = Some (Some o) ->
    exists w, val_of p = PSat w /\ forall x, o = Some x -> lookup e x = Some w /\ (x < n)%nat;
  g_no : forall p, pget (determined pr) p = Some None -> val_of p = PNo;
  g_range : forall q ps p, pget (determined_range pr) q = Some ps -> In p ps ->
    (exists w, val_of p = PSat w) /\ leaf_ok ty0 cs p;
  g_args : Forall2 (fun a v => exists x t, a = RVar x t /\ lookup e x = Some v /\ (x < n)%nat)
                   (bind_args pr) vals;
  g_binds : forall id q o, pget (determined pr) (Bind id q) = Some o -> In id S
}.

Lemma good_more e n pr vals S S' : incl S S' -> good e n pr vals S -> good e n pr vals S'.
Proof. intros I [R0 A B C D E]; constructor; eauto. Qed.

Lemma good_le e n m pr vals S : (n <= m)%nat -> good e n pr vals S -> good e m pr vals S.
Proof.
  intros Le [R0 A B C D E]. constructor; auto.
  - intros p o P. destruct (A p o P) as (u & U & X). exists u. split; [exact U|].
    intros x Ex. destruct (X x Ex) as [L N]. split; [exact L|lia].
  - eapply forall2_impl; [|exact D]. intros a v (x & t & -> & L & N). exists x, t.
    split; [reflexivity|]. split; [exact L|lia].
Qed.

Lemma good_fresh e n pr vals S w :
  good e n pr vals S -> good ((n, w) :: e) (Datatypes.S n) pr vals S.
Proof.
  intros [R0 A B C D E]. constructor; auto.
  - intros p o P. destruct (A p o P) as (u & U & X). exists u. split; [exact U|].
    intros x Ex. destruct (X x Ex) as [L N]. cbn.
    destruct (Nat.eqb_spec n x) as [->|]; [lia|]. split; [exact L|lia].
  - eapply forall2_impl; [|exact D]. intros a v (x & t & -> & L & N). exists x, t.
    split; [reflexivity|]. cbn. destruct (Nat.eqb_spec n x) as [->|]; [lia|]. split; [exact L|lia].
Qed.

(** *** Evaluation of the generated tests and accesses *)

Lemma ev_v e x t w : lookup e x = Some w -> ev h e (RVar x t) h (RsVal w).
Proof. intros; constructor; assumption. Qed.

Lemma ev_1 e o a v r : ev h e a h (RsVal v) -> perform round32 prim (OUnary o) h [v] = Some (h, r) ->
  ev h e (RUnary o a) h r.
Proof. intros A P. eapply ev_operation; [reflexivity| |exact P]. eapply evs_cons; [exact A|constructor]. Qed.

Lemma ev_2 e o a b v w r : ev h e a h (RsVal v) -> ev h e b h (RsVal w) ->
  perform round32 prim (OBinary o) h [v; w] = Some (h, r) -> ev h e (RBinary o a b) h r.
Proof.
  intros A B P. eapply ev_operation; [reflexivity| |exact P].
  eapply evs_cons; [exact A|]. eapply evs_cons; [exact B|constructor].
Qed.

Lemma ev_null e t : ev h e (RNullary (NNull t)) h (RsVal VNull).
Proof. eapply ev_operation; [reflexivity|constructor|reflexivity]. Qed.

Lemma ev_const e c v : const_val round32 c = Some v -> ev h e (RConst c) h (RsVal v).
Proof.
  intros E. eapply ev_operation; [reflexivity|constructor|].
  cbn. destruct c; try (rewrite E; reflexivity). discriminate E.
Qed.

Lemma test_ev p x t e w :
  to_test_expr p x = Ret (Some t) -> val_of (parent p) = PSat w -> lookup e x = Some w ->
  match val_of p with
  | PSat _ => ev h e t h (RsVal (v_bool true))
  | PNo => ev h e t h (RsVal (v_bool false))
  | PUndef => True
  end.
Proof.
  intros T P L. destruct p; cbn in T, P; try discriminate; cbn; rewrite P; cbn.
  - destruct (part_ty p) as [ty| |]; cbn in T; try discriminate.
    destruct (ptr_elem ty) as [el| |]; cbn in T; try discriminate. inv T.
    destruct w; cbn; try exact I.
    + eapply ev_1; [eapply ev_2; [apply ev_v; exact L|apply ev_null|reflexivity]|reflexivity].
    + destruct (load h a); [|exact I].
      eapply ev_1; [eapply ev_2; [apply ev_v; exact L|apply ev_null|reflexivity]|reflexivity].
  - destruct (part_ty p) as [ty| |]; cbn in T; try discriminate.
    destruct (ptr_elem ty) as [el| |]; cbn in T; try discriminate. inv T.
    destruct w; cbn; try exact I; (eapply ev_2; [apply ev_v; exact L|apply ev_null|reflexivity]).
  - unfold equals_const.
    destruct c; try discriminate; inv T;
    (destruct (const_val round32 _) as [cv|] eqn:K; [|exact I]);
    destruct cv as [cn|cf|cstr| | | | | | | |]; try exact I;
    destruct w as [wn|wf|wstr| | | | | | | |]; try exact I; try discriminate K;
    try (destruct ty; discriminate K); try (destruct cf; exact I).
    + rewrite N.eqb_sym. destruct (N.eqb wn cn) eqn:Q;
        (eapply ev_2; [apply ev_v; exact L|apply ev_const; exact K|cbn; rewrite Q; reflexivity]).
    + destruct cf as [|cz], wf as [|wz];
        try (eapply ev_2; [apply ev_v; exact L|apply ev_const; exact K|reflexivity]).
      rewrite Z.eqb_sym. destruct (Z.eqb wz cz) eqn:Q;
        (eapply ev_2; [apply ev_v; exact L|apply ev_const; exact K|cbn; rewrite Q; reflexivity]).
    + rewrite text_eqb_sym. destruct (text_eqb wstr cstr) eqn:Q;
        (eapply ev_2; [apply ev_v; exact L|apply ev_const; exact K|cbn; rewrite Q; reflexivity]).
    + rewrite N.eqb_sym. destruct (N.eqb wn cn) eqn:Q;
        (eapply ev_2; [apply ev_v; exact L|apply ev_const; exact K|cbn; rewrite Q; reflexivity]).
Qed.

Lemma no_test p x w : to_test_expr p x = Ret None -> val_of (parent p) = PSat w -> val_of p <> PNo.
Proof.
  intros T P. destruct p; cbn in T, P; try discriminate; cbn; try rewrite P; cbn; try discriminate.
  - unfold loaded. destruct w; try discriminate. destruct (load h a); discriminate.
  - destruct (part_ty p) as [ty| |]; cbn in T; try discriminate.
    destruct (ptr_elem ty) as [el| |]; cbn in T; discriminate.
  - destruct (part_ty p) as [ty| |]; cbn in T; try discriminate.
    destruct (ptr_elem ty) as [el| |]; cbn in T; discriminate.
  - destruct w; try discriminate. destruct (nth_error vs i); discriminate.
  - destruct w; try discriminate. destruct (ct_eq_dec t ty); discriminate.
  - destruct w; discriminate.
  - destruct c; try discriminate. cbn. destruct w; discriminate.
Qed.

Lemma get_ev p g ge e wg w :
  to_get_expr p g = Ret (Some ge) -> val_of (parent p) = PSat wg -> lookup e g = Some wg ->
  val_of p = PSat w -> ev h e ge h (RsVal w).
Proof.
  intros G P L W.
  destruct p; cbn in G, P, W; try discriminate; rewrite P in W; cbn in W;
    (destruct (part_ty p) as [pt| |]; cbn in G; try discriminate; inv G);
    (eapply ev_1; [apply ev_v; exact L|]); cbn.
  - destruct wg; cbn in W; try discriminate. destruct (load h a); [|discriminate]. inv W. reflexivity.
  - destruct wg; cbn in W; try discriminate. destruct (load h a); [|discriminate]. inv W. reflexivity.
  - destruct wg; try discriminate. destruct (nth_error vs i); [|discriminate]. inv W. reflexivity.
  - destruct wg; try discriminate. destruct (ct_eq_dec t ty); [|discriminate]. inv W. reflexivity.
  - destruct wg; try discriminate. inv W. reflexivity.
Qed.

Lemma get_not_alloc p g ge v hh : to_get_expr p g = Ret (Some ge) -> release false ge v hh = hh.
Proof.
  destruct p; cbn; try discriminate; destruct (part_ty p); cbn; try discriminate;
    intros E; inv E; reflexivity.
Qed.

(** *** The status of a part agrees with its value *)

Lemma excluded q p : leaf_ok ty0 cs q -> leaf_ok ty0 cs p -> excludes q p = true ->
  (exists w, val_of q = PSat w) -> val_of p = PNo \/ val_of p = PUndef.
Proof.
  intros [Wq Cq] [Wp Cp] X [w Q]. destruct q, p; cbn in X; try discriminate.
  - destruct (part_eq_dec q p) as [->|]; [|discriminate]. cbn in Q |- *.
    destruct (val_of p) as [u| |]; cbn in *; try discriminate. destruct u; cbn in *; try discriminate; auto.
  - destruct (part_eq_dec q p) as [->|]; [|discriminate]. cbn in Q |- *.
    destruct (val_of p) as [u| |]; cbn in *; try discriminate. destruct u; cbn in *; try discriminate; auto.
  - destruct (const_eq_dec c c0) as [|N]; [discriminate|].
    destruct (part_eq_dec q p) as [->|]; [|discriminate]. cbn in Q |- *.
    destruct (val_of p) as [u| |]; cbn in *; try discriminate.
    destruct (equals_const round32 c u) as [[|]|] eqn:E1; try discriminate.
    destruct (equals_const round32 c0 u) as [[|]|] eqn:E2; auto.
    destruct N. apply (differ c c0 u); auto.
    destruct Wq as (_ & T1 & _), Wp as (_ & T2 & _). congruence.
Qed.

Lemma status_sat e n pr vals S p o : good e n pr vals S -> part_status pr p = Satisfied o ->
  exists w, val_of p = PSat w /\ forall x, o = Some x -> lookup e x = Some w /\ (x < n)%nat.
Proof.
  intros G. unfold part_status. destruct (pget (determined pr) p) as [[o'|]|] eqn:E.
  - intros X; inv X. exact (g_sat _ _ _ _ _ G _ _ E).
  - discriminate.
  - destruct (pget (determined_range pr) (parent p)) as [ps|]; [|discriminate].
    destruct (existsb _ ps); discriminate.
Qed.

Lemma status_unsat e n pr vals S p : good e n pr vals S -> leaf_ok ty0 cs p ->
  part_status pr p = Unsatisfied -> val_of p = PNo \/ val_of p = PUndef.
Proof.
  intros G L. unfold part_status. destruct (pget (determined pr) p) as [[o'|]|] eqn:E.
  - discriminate.
  - intros _. left. exact (g_no _ _ _ _ _ G _ E).
  - destruct (pget (determined_range pr) (parent p)) as [ps|] eqn:R; [|discriminate].
    destruct (existsb (fun q => excludes q p) ps) eqn:X; [|discriminate]. intros _.
    apply existsb_exists in X. destruct X as (q & Iq & Xq).
    destruct (g_range _ _ _ _ _ G _ _ _ R Iq) as [Sq Lq].
    exact (excluded q p Lq L Xq Sq).
Qed.

Lemma status_unknown pr p : part_status pr p = NotKnown -> pget (determined pr) p = None.
Proof. unfold part_status. destruct (pget (determined pr) p) as [[|]|]; try discriminate. auto. Qed.

Lemma parent_no p : val_of (parent p) = PNo \/ val_of (parent p) = PUndef ->
  val_of p = PNo \/ val_of p = PUndef.
Proof. destruct p; cbn; intros [E|E]; rewrite ?E; auto; discriminate. Qed.

Lemma parent_undef p : val_of (parent p) = PUndef -> val_of p = PUndef.
Proof. destruct p; cbn; intros E; rewrite ?E; auto. Qed.

Lemma parent_sat p w : val_of p = PSat w -> exists u, val_of (parent p) = PSat u.
Proof.
  destruct p; cbn; eauto; intros E; destruct (val_of p) as [u| |]; cbn in E; try discriminate; eauto.
Qed.

(** *** Updating the progress *)

Lemma good_passed e n pr vals S p w u v b pr' :
  good e n pr vals S -> leaf_ok ty0 cs p -> val_of p = PSat w -> val_of (parent p) = PSat u ->
  lookup e v = Some u -> (v < n)%nat -> to_bind_expr p v = Ret b ->
  mark_as_passed (push_bind pr b) p = Ret pr' ->
  good e n pr' (vals ++ bound p w) (binds_of [p] ++ S).
Proof.
  intros [R0 A B C D E] L W U V N TB MP. unfold mark_as_passed in MP.
  assert (Ed : determined (push_bind pr b) = determined pr) by (destruct b; reflexivity).
  assert (Er : determined_range (push_bind pr b) = determined_range pr) by (destruct b; reflexivity).
  rewrite Ed, Er in MP.
  destruct (pget (determined pr) p) eqn:G; [discriminate|]. inv MP.
  constructor; cbn [determined determined_range bind_args].
  - rewrite pget_insert. destruct (part_eq_dec p (Root ty0)); eauto.
  - intros q o. rewrite pget_insert. destruct (part_eq_dec p q) as [<-|]; [|apply A].
    intros X; inv X. exists w. split; [exact W|discriminate].
  - intros q. rewrite pget_insert. destruct (part_eq_dec p q) as [<-|]; [discriminate|apply B].
  - intros q ps x. rewrite pget_insert. destruct (part_eq_dec (parent p) q) as [<-|]; [|apply C].
    intros X; inv X. rewrite in_app_iff. intros [X|[<-|[]]]; [|split; [eauto|exact L]].
    destruct (pget (determined_range pr) (parent p)) as [ps|] eqn:R; [|destruct X]. exact (C _ _ _ R X).
  - destruct p; cbn in TB; try (inv TB; cbn; rewrite app_nil_r; exact D).
    destruct (part_ty p) as [t| |]; cbn in TB; try discriminate. inv TB. cbn.
    cbn in W, U. rewrite U in W. inv W.
    apply Forall2_app; [exact D|]. constructor; [|constructor]. eauto.
  - intros id q o. rewrite pget_insert, in_app_iff. destruct (part_eq_dec p (Bind id q)) as [->|].
    + intros _. left. cbn. left. reflexivity.
    + intros X. right. eapply E; eassumption.
Qed.

Lemma good_failed e n pr vals S p pr' :
  good e n pr vals S -> val_of p = PNo -> mark_as_failed pr p = Ret pr' ->
  good e n pr' vals (binds_of [p] ++ S).
Proof.
  intros [R0 A B C D E] W MF. unfold mark_as_failed in MF.
  destruct (pget (determined pr) p) eqn:G; [discriminate|]. inv MF.
  constructor; cbn [determined determined_range bind_args]; auto.
  - rewrite pget_insert. destruct (part_eq_dec p (Root ty0)); eauto.
  - intros q o. rewrite pget_insert. destruct (part_eq_dec p q) as [<-|]; [discriminate|apply A].
  - intros q. rewrite pget_insert. destruct (part_eq_dec p q) as [<-|]; [auto|apply B].
  - intros id q o. rewrite pget_insert, in_app_iff. destruct (part_eq_dec p (Bind id q)) as [->|].
    + intros _. left. cbn. left. reflexivity.
    + intros X. right. eapply E; eassumption.
Qed.

Lemma good_set e n pr vals S p w pr' :
  good e n pr vals S -> val_of p = PSat w -> set_passed_var pr p n = Ret pr' ->
  good ((n, w) :: e) (Datatypes.S n) pr' vals S.
Proof.
  intros G W SP. apply (good_fresh _ _ _ _ _ w) in G. destruct G as [R0 A B C D E].
  unfold set_passed_var in SP.
  destruct (pget (determined pr) p) as [[[|]|]|] eqn:G; try discriminate. inv SP.
  constructor; cbn [determined determined_range bind_args]; auto.
  - rewrite pget_insert. destruct (part_eq_dec p (Root ty0)); eauto.
  - intros q o. rewrite pget_insert. destruct (part_eq_dec p q) as [<-|]; [|apply A].
    intros X; inv X. exists w. split; [exact W|]. intros x X; inv X. cbn.
    rewrite Nat.eqb_refl. split; [reflexivity|lia].
  - intros q. rewrite pget_insert. destruct (part_eq_dec p q) as [<-|]; [discriminate|apply B].
  - intros id q o. rewrite pget_insert. destruct (part_eq_dec p (Bind id q)) as [->|]; [|apply E].
    intros _. eapply E; eassumption.
Qed.

Definition on_yes (k : progress -> M rt) n vals S h2 r : Prop :=
  forall pr e n1 y n2, (n <= n1)%nat -> good e n1 pr vals S -> k pr n1 = Ret (y, n2) -> ev h e y h2 r.

Definition on_no (k : progress -> M rt) n S h2 r : Prop :=
  forall pr e n1 y n2 vals, (n <= n1)%nat -> good e n1 pr vals S -> k pr n1 = Ret (y, n2) ->
  ev h e y h2 r.

Lemma on_yes_le k n m vals S h2 r : (n <= m)%nat -> on_yes k n vals S h2 r -> on_yes k m vals S h2 r.
Proof. intros L K pr e n1 y n2 L1. apply K. lia. Qed.

Lemma on_no_le k n m S h2 r : (n <= m)%nat -> on_no k n S h2 r -> on_no k m S h2 r.
Proof. intros L K pr e n1 y n2 vals L1. apply K. lia. Qed.

Lemma wf_parent p : wf_part ty0 p -> p = Root ty0 \/ (inner (parent p) /\ wf_part ty0 (parent p)).
Proof.
  destruct p; cbn; intros W; try (left; congruence);
    right; destruct W as [W _]; exact W.
Qed.

Lemma inner_leaf p : inner p -> wf_part ty0 p -> leaf_ok ty0 cs p.
Proof. intros I W. split; [exact W|]. destruct p; auto. contradiction. Qed.

Lemma inner_binds p : inner p -> binds_of [p] = [] /\ forall w, bound p w = [].
Proof. destruct p; cbn; auto; contradiction. Qed.

Lemma part_ev fuel : forall p pr e n succ fail x n' vals S h2 r,
  leaf_ok ty0 cs p -> good e n pr vals S ->
  (forall id q, p = Bind id q -> ~ In id S) -> mono succ -> mono fail ->
  expand_pat_part fuel pr p succ fail n = Ret (x, n') ->
  match val_of p with
  | PSat w => on_yes succ n (vals ++ bound p w) (binds_of [p] ++ S) h2 r -> ev h e x h2 r
  | PNo => on_no fail n (binds_of [p] ++ S) h2 r -> ev h e x h2 r
  | PUndef => True
  end.
Proof.
  induction fuel as [|fuel IH]; intros p pr e n succ fail x n' vals S h2 r L G NB MS MF E; [discriminate|].
  cbn [expand_pat_part] in E.
  assert (Gm : good e n pr vals (binds_of [p] ++ S)) by (eapply good_more; [|exact G]; apply incl_appr, incl_refl).
  destruct (part_status pr p) as [| |o] eqn:St.
  - (* not known *)
    pose proof (status_unknown _ _ St) as Ud.
    destruct (wf_parent p (proj1 L)) as [->|[Ip Wp]].
    { destruct (g_root _ _ _ _ _ G) as [o Ro]. congruence. }
    assert (Lp : leaf_ok ty0 cs (parent p)) by (apply inner_leaf; assumption).
    destruct (part_status pr (parent p)) as [| |[v|]] eqn:Sp.
    + (* decide the parent first *)
      assert (NBp : forall id q, parent p = Bind id q -> ~ In id S).
      { intros id q Q. rewrite Q in Ip. destruct Ip. }
      pose proof (fun H2 => IH (parent p) pr e n _ fail x n' vals S H2 r Lp G NBp (mono_part fuel p succ fail MS MF) MF E) as IHp.
      destruct (inner_binds _ Ip) as [Bp Vp].
      destruct (val_of (parent p)) as [u| |] eqn:Up.
      * rewrite Bp, Vp, app_nil_r in IHp. cbn [app] in IHp.
        destruct (val_of p) as [w| |] eqn:W; [| |exact I]; intros K; apply IHp;
          intros pr1 e1 n1 y n2 L1 G1 E1;
          pose proof (fun H2 => IH p pr1 e1 n1 succ fail y n2 vals S H2 r L G1 NB MS MF E1) as IHx;
          rewrite W in IHx; apply IHx; [eapply on_yes_le|eapply on_no_le]; eauto.
      * destruct (parent_no p (or_introl Up)) as [W|W]; rewrite W; [|exact I].
        rewrite Bp in IHp. intros K. apply IHp. intros pr1 e1 n1 y n2 vals1 L1 G1 E1.
        eapply K; [exact L1| |exact E1]. eapply good_more; [|exact G1]. apply incl_appr, incl_refl.
      * rewrite (parent_undef _ Up). exact I.
    + (* the parent is not satisfied *)
      destruct (parent_no p (status_unsat _ _ _ _ _ _ G Lp Sp)) as [W|W]; rewrite W; [|exact I].
      intros K. eapply K; [apply Nat.le_refl|exact Gm|exact E].
    + (* the parent is in a variable *)
      destruct (status_sat _ _ _ _ _ _ _ G Sp) as (u & U & Xv).
      destruct (Xv v eq_refl) as [Lv Nv].
      apply bindM_inv in E. destruct E as (test & n1 & E1 & E). apply lift_inv in E1. destruct E1 as [T ->].
      destruct test as [test|].
      * apply bindM_inv in E. destruct E as (b & n1 & E1 & E). apply lift_inv in E1. destruct E1 as [TB ->].
        apply bindM_inv in E. destruct E as (passed & n1 & E1 & E). apply lift_inv in E1. destruct E1 as [MP ->].
        apply bindM_inv in E. destruct E as (success & n1 & ES & E).
        apply bindM_inv in E. destruct E as (failed & n2 & E1 & E). apply lift_inv in E1. destruct E1 as [MA ->].
        apply bindM_inv in E. destruct E as (failure & n2 & EF & E). inv E.
        pose proof (test_ev p v test e u T U Lv) as TE.
        destruct (val_of p) as [w| |] eqn:W; [| |exact I]; intros K.
        -- eapply ev_if; [exact TE|]. cbn.
           eapply K; [apply Nat.le_refl| |exact ES].
           eapply good_passed; eassumption.
        -- eapply ev_if; [exact TE|]. cbn.
           eapply K; [eapply MS; exact ES| |exact EF].
           eapply good_le; [eapply MS; exact ES|]. eapply good_failed; eassumption.
      * apply bindM_inv in E. destruct E as (b & n1 & E1 & E). apply lift_inv in E1. destruct E1 as [TB ->].
        apply bindM_inv in E. destruct E as (passed & n1 & E1 & E). apply lift_inv in E1. destruct E1 as [MP ->].
        destruct (val_of p) as [w| |] eqn:W; [| |exact I]; intros K.
        -- eapply K; [apply Nat.le_refl| |exact E]. eapply good_passed; eassumption.
        -- destruct (no_test p v u T U W).
    + (* the parent has to be put into a variable *)
      destruct (status_sat _ _ _ _ _ _ _ G Sp) as (u & U & _).
      apply bindM_inv in E. destruct E as (g & n1 & E1 & E). apply lift_inv in E1. destruct E1 as [VG ->].
      apply bindM_inv in E. destruct E as (v & n1 & E1 & E). inv E1.
      apply bindM_inv in E. destruct E as (ty & n1 & E1 & E). apply lift_inv in E1. destruct E1 as [TY ->].
      apply bindM_inv in E. destruct E as (og & n1 & E1 & E). apply lift_inv in E1. destruct E1 as [OG ->].
      apply bindM_inv in E. destruct E as (ge & n1 & E1 & E). apply lift_inv in E1. destruct E1 as [GE ->].
      apply bindM_inv in E. destruct E as (pr' & n1 & E1 & E). apply lift_inv in E1. destruct E1 as [SP ->].
      apply bindM_inv in E. destruct E as (body & n1 & EB & E). inv E.
      destruct og as [og|]; cbn in GE; [|discriminate]. inv GE.
      assert (exists ug, val_of (parent (parent p)) = PSat ug /\ lookup e g = Some ug) as (ug & UG & LG).
      { unfold var_unwrap in VG. destruct (part_status pr (parent (parent p))) as [| |[y|]] eqn:SG; try discriminate.
        inv VG. destruct (status_sat _ _ _ _ _ _ _ G SG) as (ug & UG & XG).
        exists ug. split; [exact UG|]. apply XG. reflexivity. }
      pose proof (good_set _ _ _ _ _ _ _ _ G U SP) as G'.
      pose proof (fun H2 => IH p pr' _ _ succ fail body n' vals S H2 r L G' NB MS MF EB) as IHb.
      assert (LET : forall H2, ev h ((v, u) :: e) body H2 r -> ev h e (let_var [(v, ty, ge)] body) H2 r).
      { intros H2 X. apply let_var_ev. rewrite <- (get_not_alloc _ _ _ u H2 OG).
        eapply ev_let_cons; [eapply get_ev; eassumption|]. constructor. exact X. }
      destruct (val_of p) as [w| |]; [| |exact I]; intros K; apply LET, IHb;
        [eapply on_yes_le; [|exact K]|eapply on_no_le; [|exact K]]; lia.
  - (* known not to be satisfied *)
    destruct (status_unsat _ _ _ _ _ _ G L St) as [W|W]; rewrite W; [|exact I].
    intros K. eapply K; [apply Nat.le_refl|exact Gm|exact E].
  - (* known to be satisfied *)
    destruct (status_sat _ _ _ _ _ _ _ G St) as (w & W & _). rewrite W.
    intros K. eapply K; [apply Nat.le_refl| |exact E].
    assert (bound p w = []) as ->; [|rewrite app_nil_r; exact Gm].
    destruct p; try reflexivity. exfalso. apply (NB id p eq_refl).
    unfold part_status in St. destruct (pget (determined pr) (Bind id p)) as [o'|] eqn:Q.
    + eapply g_binds; eassumption.
    + destruct (pget (determined_range pr) _); [destruct (existsb _ _)|]; discriminate.
Qed.

Lemma mono_parts ps succ fail : mono succ -> mono fail ->
  mono (fun pr => expand_pat_parts pr ps succ fail).
Proof.
  intros MS MF. induction ps as [|p ps IH]; [exact MS|].
  exact (mono_part _ p _ fail IH MF).
Qed.

Lemma parts_ev ps : forall pr e n succ fail x n' vals S h2 r,
  Forall (leaf_ok ty0 cs) ps -> NoDup (binds_of ps ++ S) -> good e n pr vals S ->
  mono succ -> mono fail ->
  expand_pat_parts pr ps succ fail n = Ret (x, n') ->
  match run_parts round32 h v0 ps with
  | RunYes ws => on_yes succ n (vals ++ ws) (binds_of ps ++ S) h2 r -> ev h e x h2 r
  | RunNo => on_no fail n (binds_of ps ++ S) h2 r -> ev h e x h2 r
  | RunUndef => True
  end.
Proof.
  induction ps as [|p ps IH]; intros pr e n succ fail x n' vals S h2 r F ND G MS MF E.
  - cbn in *. intros K. rewrite app_nil_r in K. eapply K; [apply Nat.le_refl|exact G|exact E].
  - cbn [expand_pat_parts run_parts] in *. inversion F as [|? ? L F']; subst.
    assert (binds_of (p :: ps) = binds_of [p] ++ binds_of ps) as EB.
    { exact (binds_of_app [p] ps). }
    assert (Hin : forall i, In i (binds_of ps ++ (binds_of [p] ++ S)) <-> In i (binds_of (p :: ps) ++ S)).
    { intros i. rewrite EB. rewrite !in_app_iff. tauto. }
    assert (ND' : NoDup (binds_of ps ++ (binds_of [p] ++ S))).
    { rewrite EB, <- app_assoc in ND. revert ND. rewrite !app_assoc. intros ND.
      assert (PM : Permutation ((binds_of [p] ++ binds_of ps) ++ S) ((binds_of ps ++ binds_of [p]) ++ S)).
      { apply Permutation_app_tail, Permutation_app_comm. }
      eapply Permutation_NoDup; [exact PM|exact ND]. }
    assert (NB : forall id q, p = Bind id q -> ~ In id S).
    { intros id q ->. cbn in ND. inversion ND as [|? ? NI ND2]; subst.
      intros C. apply NI. apply in_or_app. right. exact C. }
    pose proof (fun H2 => part_ev _ p pr e n _ fail x n' vals S H2 r L G NB
                  (mono_parts ps succ fail MS MF) MF E) as PE.
    destruct (val_of p) as [w| |] eqn:W; [| |exact I].
    + destruct (run_parts round32 h v0 ps) as [ws| |] eqn:R; [| |exact I]; intros K; apply PE;
        intros pr1 e1 n1 y n2 L1 G1 E1;
        pose proof (fun H2 => IH pr1 e1 n1 succ fail y n2 _ _ H2 r F' ND' G1 MS MF E1) as IHx;
        rewrite ?R in IHx; apply IHx.
      * intros pr2 e2 n3 y2 n4 L2 G2 E2. refine (K pr2 e2 n3 y2 n4 _ _ E2); [lia|].
        rewrite app_assoc. eapply good_more; [|exact G2]. intros i Hi. apply Hin. exact Hi.
      * intros pr2 e2 n3 y2 n4 vals2 L2 G2 E2. refine (K pr2 e2 n3 y2 n4 vals2 _ _ E2); [lia|].
        eapply good_more; [|exact G2]. intros i Hi. apply Hin. exact Hi.
    + intros K. apply PE. intros pr1 e1 n1 y n2 vals1 L1 G1 E1. eapply K; [exact L1| |exact E1].
      eapply good_more; [|exact G1]. intros i Hi. apply Hin, in_or_app. right. exact Hi.
Qed.

(** The first list of parts that is satisfied. *)
Fixpoint first_run (ms : list (list part * nat * option ct)) : option (nat * list val) :=
  match ms with
  | [] => None
  | (ps, id, _) :: ms =>
      match run_parts round32 h v0 ps with
      | RunYes vs => Some (id, vs)
      | RunNo => first_run ms
      | RunUndef => None
      end
  end.

Definition all_binds (ms : list (list part * nat * option ct)) : list nat :=
  flat_map (fun m => binds_of (fst (fst m))) ms.

Lemma good_clear e n pr vals S : good e n pr vals S -> good e n (clear_binds pr) [] S.
Proof. intros [R0 A B C D E]. constructor; cbn; auto. Qed.

Lemma args_ev e n args vals :
  Forall2 (fun a v => exists x t, a = RVar x t /\ lookup e x = Some v /\ (x < n)%nat) args vals ->
  evs h e args h (inl vals).
Proof.
  induction 1 as [|a v args vals (x & t & -> & L & _) F IH]; [constructor|].
  eapply evs_cons; [apply ev_v; exact L|exact IH].
Qed.

Lemma mono_matches ms : mono (fun pr => expand_matches pr ms).
Proof.
  induction ms as [|[[ps id] ty] ms IH].
  - intros pr n y n' E. inv E. lia.
  - cbn [expand_matches]. apply mono_parts.
    + intros pr n y n' E. inv E. lia.
    + intros pr n y n' E. eapply IH; exact E.
Qed.

Lemma matches_ev ms : forall pr e n x n' S id vals,
  Forall (fun m => Forall (leaf_ok ty0 cs) (fst (fst m))) ms -> NoDup (all_binds ms ++ S) ->
  good e n pr [] S -> expand_matches pr ms n = Ret (x, n') ->
  first_run ms = Some (id, vals) -> ev h e x h (RsJump id vals).
Proof.
  induction ms as [|[[ps k] ty] ms IH]; intros pr e n x n' S id vals F ND G E FR; [discriminate|].
  cbn [expand_matches first_run] in *. inversion F as [|? ? Fp F']; subst. cbn in Fp.
  assert (EB : all_binds ((ps, k, ty) :: ms) = binds_of ps ++ all_binds ms) by reflexivity.
  rewrite EB in ND.
  assert (PM : Permutation ((binds_of ps ++ all_binds ms) ++ S) (all_binds ms ++ (binds_of ps ++ S))).
  { rewrite app_assoc. apply Permutation_app_tail, Permutation_app_comm. }
  assert (ND' : NoDup (all_binds ms ++ (binds_of ps ++ S))) by (eapply Permutation_NoDup; eassumption).
  assert (NDp : NoDup (binds_of ps ++ S)).
  { clear - ND'. induction (all_binds ms) as [|i l IHl]; [exact ND'|].
    inversion ND'; subst. auto. }
  pose proof (parts_ev ps pr e n (fun pr => ret (RContCall k (bind_args pr) ty))
                 (fun pr => expand_matches (clear_binds pr) ms)
                 x n' [] S h (RsJump id vals) Fp NDp G) as PE.
  assert (M1 : mono (fun pr => ret (RContCall k (bind_args pr) ty))).
  { intros pr1 n1 y1 n2 E1. inv E1. lia. }
  assert (M2 : mono (fun pr => expand_matches (clear_binds pr) ms)).
  { intros pr1 n1 y1 n2 E1. eapply mono_matches; exact E1. }
  specialize (PE M1 M2 E).
  destruct (run_parts round32 h v0 ps) as [ws| |] eqn:R; [| |discriminate].
  - inv FR. apply PE. intros pr1 e1 n1 y n2 L1 G1 E1. inv E1.
    eapply ev_operation; [reflexivity| |reflexivity].
    eapply args_ev. exact (g_args _ _ _ _ _ G1).
  - apply PE. intros pr1 e1 n1 y n2 vals1 L1 G1 E1.
    eapply IH; [exact F'|exact ND'|eapply good_clear; exact G1|exact E1|exact FR].
Qed.

End Exact.
