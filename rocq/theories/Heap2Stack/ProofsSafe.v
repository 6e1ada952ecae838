(** * Promoted variables are only loaded from and stored to *)
From Verif.Base Require Import Base.
From Verif.Ir Require Import Model Spec RtInd.
From Verif.Heap2Stack Require Import Model Spec.

(** The variables that occur other than as the pointer of a load or of a store. *)
Fixpoint escapes (x : rt) : list nat :=
  match x with
  | RVar id _ => [id]
  | RConst _ | RNullary _ | RNever => []
  | RStaticFun _ _ a => in_opt escapes a
  | RCall f es => escapes f ++ flat_map escapes es
  | RCallC _ _ es | RContCall _ es _ | RConstructEnv _ es | RConstructData _ _ es
  | RConstructStruct _ es => flat_map escapes es
  | RCallAddr _ f _ es => escapes f ++ flat_map escapes es
  | RUnary o a => match o, a with ULoad, RVar _ _ => [] | _, _ => escapes a end
  | RBinary o a b =>
      match o, b with BStore, RVar _ _ => escapes a | _, _ => escapes a ++ escapes b end
  | RAlloc _ a | RAllocArray _ _ a | RConstructSyntax _ a | RReturn a => escapes a
  | RWhile a b | RAnd a b | ROr a b => escapes a ++ escapes b
  | RTernary _ a b c | RIf a b c => escapes a ++ escapes b ++ escapes c
  | RSeq es a => flat_map escapes es ++ escapes a
  | RMatch a cs => escapes a ++ in_clauses escapes cs
  | RLetVar vs b => in_lets escapes vs ++ escapes b
  | RLetCont ks b => in_conts escapes ks ++ escapes b
  end.

(** The forms that the pass treats in no special way. *)
Definition plain (x : rt) : bool :=
  match x with
  | RVar _ _ | RLetVar _ _ => false
  | RUnary ULoad (RVar _ _) => false
  | RBinary BStore _ (RVar _ _) => false
  | _ => true
  end.

Lemma flat_map_snd {A B C} (f : B -> list C) (l : list (A * B)) :
  flat_map (fun p => f (snd p)) l = flat_map f (map snd l).
Proof. induction l as [|a l IH]; cbn; [reflexivity|]. now rewrite IH. Qed.

Lemma plain_escapes x : plain x = true -> escapes x = flat_map escapes (children x).
Proof.
  destruct x as [| |c| | | | | | | | | | | | | | | | | | | | | | | |]; cbn [plain escapes children];
    try discriminate; intros H; cbn [flat_map]; rewrite ?app_nil_r; try reflexivity;
    unfold in_lets, in_conts, in_clauses, in_opt; rewrite ?flat_map_snd, ?flat_map_app; cbn [flat_map];
    rewrite ?app_nil_r; try reflexivity.
  - destruct env; cbn; rewrite ?app_nil_r; reflexivity.
  - destruct o, x; try reflexivity; discriminate H.
  - destruct o, x2; try reflexivity; discriminate H.
Qed.

Lemma plain_alloc x : plain x = true -> alloc_vars x = flat_map alloc_vars (children x).
Proof.
  destruct x as [| |c| | | | | | | | | | | | | | | | | | | | | | | |]; cbn [plain alloc_vars children];
    try discriminate; intros H; cbn [flat_map]; rewrite ?app_nil_r; try reflexivity;
    unfold in_lets, in_conts, in_clauses, in_opt; rewrite ?flat_map_snd, ?flat_map_app; cbn [flat_map];
    rewrite ?app_nil_r; try reflexivity.
  destruct env; cbn; rewrite ?app_nil_r; reflexivity.
Qed.

(** ** The list versions are [rws] over the subexpressions *)

Lemma rw_lets_spec vs : forall l vs' l', rw_lets rw vs l = (vs', l') ->
  rws rw (map snd vs) l = (map snd vs', l') /\ map fst vs' = map fst vs.
Proof.
  induction vs as [|[[id t] x] vs IH]; cbn; intros l vs' l' H; [injection H as <- <-; auto|].
  destruct (rw x l) as [x1 l1]. destruct (rw_lets rw vs l1) as [vs1 l2] eqn:E. injection H as <- <-.
  destruct (IH _ _ _ E) as [-> <-]. auto.
Qed.
Lemma rw_conts_spec vs : forall l vs' l', rw_conts rw vs l = (vs', l') ->
  rws rw (map snd vs) l = (map snd vs', l') /\ map fst vs' = map fst vs.
Proof.
  induction vs as [|[[id t] x] vs IH]; cbn; intros l vs' l' H; [injection H as <- <-; auto|].
  destruct (rw x l) as [x1 l1]. destruct (rw_conts rw vs l1) as [vs1 l2] eqn:E. injection H as <- <-.
  destruct (IH _ _ _ E) as [-> <-]. auto.
Qed.
Lemma rw_clauses_spec vs : forall l vs' l', rw_clauses rw vs l = (vs', l') ->
  rws rw (map snd vs) l = (map snd vs', l') /\ map fst vs' = map fst vs.
Proof.
  induction vs as [|[p x] vs IH]; cbn; intros l vs' l' H; [injection H as <- <-; auto|].
  destruct (rw x l) as [x1 l1]. destruct (rw_clauses rw vs l1) as [vs1 l2] eqn:E. injection H as <- <-.
  destruct (IH _ _ _ E) as [-> <-]. auto.
Qed.
Lemma rws_app a b : forall l, rws rw (a ++ b) l =
  let (a, l) := rws rw a l in let (b, l) := rws rw b l in (a ++ b, l).
Proof.
  induction a as [|x a IH]; intro l; cbn; [destruct (rws rw b l); reflexivity|].
  destruct (rw x l) as [x1 l1]. rewrite IH. destruct (rws rw a l1) as [a1 l2].
  destruct (rws rw b l2). reflexivity.
Qed.

Lemma rw_is_var x l : (exists id t, fst (rw x l) = RVar id t) -> exists id t, x = RVar id t.
Proof.
  destruct x as [id t|f t o|c|f es|lb r es|k f r es|k es r|o|o a|o a b|o a b c|lo a|lo t a|lo es|t i es|t es
    |m a|es a|a b c|a b|a b|a b|a cs|a| |vs b|ks b]; cbn [rw]; eauto; intros (id & t' & E); exfalso; revert E.
  1: destruct o; [destruct (rw r l)|]; discriminate.
  all: try (match goal with |- context [match ?o with ULoad => _ | _ => _ end] => destruct o end;
            try (destruct a); repeat (match goal with |- context [let (_, _) := ?p in _] => destruct p end); discriminate).
  all: try (destruct o; try destruct b; repeat (match goal with |- context [let (_, _) := ?p in _] => destruct p end); discriminate).
  all: repeat (match goal with |- context [let (_, _) := ?p in _] => destruct p end); discriminate.
Qed.

Lemma plain_rw x l x' l' : plain x = true -> rw x l = (x', l') ->
  rws rw (children x) l = (children x', l') /\ plain x' = true.
Proof.
  destruct x as [id t|f t o|c|f es|lb r es|k f r es|k es r|o|o a|o a b|o a b c|lo a|lo t a|lo es|t i es|t es
    |m a|es a|a b c|a b|a b|a b|a cs|a| |vs b|ks b]; intro P; try discriminate P; cbn [rw children]; intro H.
  1: destruct o as [a|]; [destruct (rw a l) as [a1 l1] eqn:E; injection H as <- <-; cbn; rewrite E; auto|].
  all: try (injection H as <- <-; auto; fail).
  (* load *)
  5: { assert (E : (let (a, l) := rw a l in (RUnary o a, l)) = (x', l')).
       { destruct o, a; try exact H; discriminate P. }
       clear H. cbn [rws]. destruct (rw a l) as [a1 l1] eqn:Ea. injection E as <- <-. split; [reflexivity|].
       assert (V := rw_is_var a l). rewrite Ea in V. cbn [fst] in V.
       destruct o; try reflexivity. destruct a1; try reflexivity.
       destruct V as (i & u & ->); [eauto|]. discriminate P. }
  5: { assert (E : (let (a, l) := rw a l in let (b, l) := rw b l in (RBinary o a b, l)) = (x', l')).
       { destruct o, b; try exact H; discriminate P. }
       clear H. cbn [rws]. destruct (rw a l) as [a1 l1] eqn:Ea. destruct (rw b l1) as [b1 l2] eqn:Eb.
       injection E as <- <-. split; [reflexivity|].
       assert (V := rw_is_var b l1). rewrite Eb in V. cbn [fst] in V.
       destruct o; try reflexivity. destruct b1; try reflexivity.
       destruct V as (i & u & ->); [eauto|]. discriminate P. }
  all: rewrite ?rws_app; cbn [rws];
    repeat (match goal with
      | |- context [rw ?a ?l] => destruct (rw a l)
      | |- context [rws rw ?a ?l] => is_var a; destruct (rws rw a l)
      end).
  all: try (injection H as <- <-; auto; fail).
  - match type of H with context [rw_clauses rw cs ?l] => destruct (rw_clauses rw cs l) as [cs1 l1] eqn:E end. injection H as <- <-.
    destruct (rw_clauses_spec _ _ _ _ E) as [-> _]. auto.
  - destruct (rw_conts rw ks l) as [cs1 l1] eqn:E.
    destruct (rw_conts_spec _ _ _ _ E) as [-> _].
    destruct (rw b l1) as [b1 l2]. injection H as <- <-. auto.
Qed.

(** ** What happens to the set *)

Lemma insert_allocs_in vs : forall l id, In id (insert_allocs vs l) <->
  In id l \/ In id (flat_map (fun v : nat * ct * rt => match snd v with RAlloc _ _ => [fst (fst v)] | _ => [] end) vs).
Proof.
  induction vs as [|[[i t] x] vs IH]; intros l id; cbn; [tauto|]. rewrite IH, in_app_iff.
  destruct x; cbn; tauto.
Qed.

Lemma drop_in id i l : In i (drop id l) <-> In i l /\ i <> id.
Proof.
  unfold drop. rewrite filter_In. destruct (Nat.eqb_spec id i) as [->|]; cbn; intuition congruence.
Qed.

Definition set_ok (x : rt) : Prop := forall l x' l', rw x l = (x', l') ->
  (forall id, In id l' -> In id l \/ In id (alloc_vars x)) /\
  (forall id, In id (escapes x) -> ~ In id (alloc_vars x) -> ~ In id l').

Lemma sets_ok xs : Forall set_ok xs -> forall l xs' l', rws rw xs l = (xs', l') ->
  (forall id, In id l' -> In id l \/ In id (flat_map alloc_vars xs)) /\
  (forall id, In id (flat_map escapes xs) -> ~ In id (flat_map alloc_vars xs) -> ~ In id l').
Proof.
  induction 1 as [|x xs Hx _ IH]; cbn; intros l xs' l' H; [injection H as <- <-; tauto|].
  destruct (rw x l) as [x1 l1] eqn:E1. destruct (rws rw xs l1) as [xs1 l2] eqn:E2. injection H as <- <-.
  destruct (Hx _ _ _ E1) as [A1 B1]. destruct (IH _ _ _ E2) as [A2 B2]. split.
  - intros id I. rewrite in_app_iff. destruct (A2 id I) as [I1|]; [|tauto]. destruct (A1 id I1); tauto.
  - intros id I N. rewrite in_app_iff in I, N. destruct I as [I|I].
    + intro I2. destruct (A2 id I2); [|tauto]. apply (B1 id I); tauto.
    + apply B2; tauto.
Qed.

Lemma sets x : set_ok x.
Proof.
  induction x as [x IH] using rt_children_ind. intros l x' l' H.
  destruct (plain x) eqn:P.
  - rewrite (plain_escapes _ P), (plain_alloc _ P). destruct (plain_rw _ _ _ _ P H) as [E _].
    exact (sets_ok _ IH _ _ _ E).
  - destruct x as [id t|f t o|c|f es|lb r es|k f r es|k es r|o|o a|o a b|o a b c|lo a|lo t a|lo es|t i es|t es
      |m a|es a|a b c|a b|a b|a b|a cs|a| |vs b|ks b]; try discriminate P.
    + injection H as <- <-. split; intro i; rewrite drop_in; cbn; [tauto|]. intros [->|[]] _ [_ K]. congruence.
    + destruct o, a; try discriminate P. injection H as <- <-. cbn. tauto.
    + destruct o, b; try discriminate P. cbn in H. destruct (rw a l) as [a1 l1] eqn:E. injection H as <- <-.
      inversion IH as [|y ys Ha _]; subst. destruct (Ha _ _ _ E) as [A B]. cbn. split; intro i.
      * rewrite app_nil_r. apply A.
      * rewrite app_nil_r. apply B.
    + cbn [rw] in H. destruct (rw_lets rw vs (insert_allocs vs l)) as [vs1 l1] eqn:E1.
      destruct (rw b l1) as [b1 l2] eqn:E2. injection H as <- <-. cbn [children] in IH.
      assert (E : rws rw (map snd vs ++ [b]) (insert_allocs vs l) = (map snd vs1 ++ [b1], l2)).
      { rewrite rws_app. destruct (rw_lets_spec _ _ _ _ E1) as [-> _]. cbn. now rewrite E2. }
      destruct (sets_ok _ IH _ _ _ E) as [A B]. cbn [alloc_vars escapes].
      assert (Ea : flat_map alloc_vars (map snd vs ++ [b]) = in_lets alloc_vars vs ++ alloc_vars b)
        by (unfold in_lets; rewrite flat_map_snd, flat_map_app; cbn; now rewrite app_nil_r).
      assert (Ee : flat_map escapes (map snd vs ++ [b]) = in_lets escapes vs ++ escapes b)
        by (unfold in_lets; rewrite flat_map_snd, flat_map_app; cbn; now rewrite app_nil_r).
      rewrite Ea in *. rewrite Ee in *. split; intros i I.
      * rewrite in_app_iff. destruct (A i I) as [I'|]; [|tauto].
        apply insert_allocs_in in I'. tauto.
      * intro N. rewrite in_app_iff in N. apply B; tauto.
Qed.

(** ** Nothing promoted escapes *)

Definition minus (P ids : list nat) : list nat := filter (fun i => negb (mem i ids)) P.

Fixpoint pat_vars (p : rtpat) : list nat :=
  match p with
  | PVar id _ None => [id]
  | PVar id _ (Some p) => id :: pat_vars p
  | PWildcard _ | PNull _ | PConst _ => []
  | PDeref p | PNonNull p | PReinterpret _ p | PSyntax p => pat_vars p
  | PData _ _ ps | PStruct _ ps => flat_map pat_vars ps
  end.

Definition promoted (x : rt) : bool := match x with RAlloc LStackStatic _ => true | _ => false end.
Definition is_rvar (x : rt) : bool := match x with RVar _ _ => true | _ => false end.

Section SafeLists.
Variable safe : list nat -> rt -> bool.
Section Body.
Variable body : rt.
Fixpoint safe_lets (P : list nat) (vs : list (nat * ct * rt)) : bool :=
  match vs with
  | [] => safe P body
  | (id, _, init) :: vs =>
      safe P init && safe_lets (if promoted init then id :: P else minus P [id]) vs
  end.
End Body.
Definition safe_conts (P : list nat) (ks : list (nat * list param * rt)) : bool :=
  forallb (fun k => safe (minus P (map fst (snd (fst k)))) (snd k)) ks.
Definition safe_clauses (P : list nat) (cs : list (rtpat * rt)) : bool :=
  forallb (fun c => safe (minus P (pat_vars (fst c))) (snd c)) cs.
End SafeLists.

(** [safe P x]: in [x], the variables [P], and those promoted by [x] in their scopes, are only loaded
    from and stored to. *)
Fixpoint safe (P : list nat) (x : rt) : bool :=
  match x with
  | RVar id _ => negb (mem id P)
  | RConst _ | RNullary _ | RNever => true
  | RStaticFun _ _ a => match a with Some a => safe P a | None => true end
  | RCall f es => safe P f && forallb (safe P) es
  | RCallC _ _ es | RContCall _ es _ | RConstructEnv _ es | RConstructData _ _ es
  | RConstructStruct _ es => forallb (safe P) es
  | RCallAddr _ f _ es => safe P f && forallb (safe P) es
  | RUnary o a => match o, a with ULoad, RVar _ _ => true | _, _ => safe P a end
  | RBinary o a b => match o, b with BStore, RVar _ _ => safe P a | _, _ => safe P a && safe P b end
  | RAlloc _ a | RAllocArray _ _ a | RConstructSyntax _ a | RReturn a => safe P a
  | RWhile a b | RAnd a b | ROr a b => safe P a && safe P b
  | RTernary _ a b c | RIf a b c => safe P a && (safe P b && safe P c)
  | RSeq es a => forallb (safe P) es && safe P a
  | RMatch a cs => safe P a && safe_clauses safe P cs
  | RLetVar vs b => safe_lets safe b P vs
  | RLetCont ks b => safe_conts safe P ks && safe P b
  end.

Lemma mem_in id l : mem id l = true <-> In id l.
Proof.
  unfold mem. rewrite existsb_exists. split.
  - intros (i & I & E). apply Nat.eqb_eq in E. now subst.
  - intro I. exists id. split; [exact I|apply Nat.eqb_refl].
Qed.

Lemma minus_in P ids i : In i (minus P ids) <-> In i P /\ ~ In i ids.
Proof.
  unfold minus. rewrite filter_In. rewrite negb_true_iff.
  destruct (mem i ids) eqn:E.
  - apply mem_in in E. intuition discriminate.
  - assert (~ In i ids) by (intro I; apply mem_in in I; congruence). tauto.
Qed.

(** The pass gives a safe expression. *)
Definition gives_safe (x : rt) : Prop :=
  NoDup (alloc_vars x) -> Forall (fun l => l = LHeap) (locations x) ->
  forall l P, (forall id, In id P -> ~ In id (escapes x)) -> safe P (fst (rw x l)) = true.

Lemma nodup_app_l {A} (a b : list A) : NoDup (a ++ b) -> NoDup a.
Proof. induction a as [|x a IH]; intro H; [constructor|]. inversion H; subst. constructor; [|auto]. rewrite in_app_iff in *. tauto. Qed.
Lemma nodup_app_r {A} (a b : list A) : NoDup (a ++ b) -> NoDup b.
Proof. induction a as [|x a IH]; intro H; [exact H|]. inversion H; subst. auto. Qed.
Lemma nodup_app_in {A} (a b : list A) x : NoDup (a ++ b) -> In x a -> ~ In x b.
Proof.
  induction a as [|y a IH]; intros H []; inversion H; subst.
  - rewrite in_app_iff in *. tauto.
  - auto.
Qed.

Lemma rws_safe xs : Forall gives_safe xs ->
  NoDup (flat_map alloc_vars xs) -> Forall (fun l => l = LHeap) (flat_map locations xs) ->
  forall l P, (forall id, In id P -> ~ In id (flat_map escapes xs)) ->
  Forall (fun y => safe P y = true) (fst (rws rw xs l)).
Proof.
  induction 1 as [|x xs Hx _ IH]; cbn; intros N L l P Q; [constructor|].
  apply Forall_app in L. destruct L as [L1 L2].
  pose proof (Hx (nodup_app_l _ _ N) L1 l P) as S. pose proof (IH (nodup_app_r _ _ N) L2) as R.
  destruct (rw x l) as [x1 l1]. specialize (R l1 P). destruct (rws rw xs l1) as [xs1 l2]. constructor.
  - apply S. intros id I. specialize (Q id I). rewrite in_app_iff in Q. tauto.
  - apply R. intros id I. specialize (Q id I). rewrite in_app_iff in Q. tauto.
Qed.

Lemma forallb_Forall {A} (f : A -> bool) l : Forall (fun x => f x = true) l -> forallb f l = true.
Proof. induction 1 as [|x l H _ IH]; cbn; [reflexivity|]. now rewrite H. Qed.

Lemma plain_safe x P : plain x = true ->
  (forall Q, incl Q P -> Forall (fun y => safe Q y = true) (children x)) -> safe P x = true.
Proof.
  intros Pl H. assert (I : incl P P) by (intros a; auto).
  destruct x as [id t|f t o|c|f es|lb r es|k f r es|k es r|o|o a|o a b|o a b c|lo a|lo t a|lo es|t i es|t es
    |m a|es a|a b c|a b|a b|a b|a cs|a| |vs b|ks b]; try discriminate Pl; cbn [children] in H; cbn [safe];
    try reflexivity.
  1: destruct o as [a|]; [|reflexivity].
  all: pose proof (H P I) as HP.
  all: repeat match goal with
    | K : Forall _ (_ ++ [_]) |- _ => apply Forall_app in K; destruct K
    | K : Forall _ (_ :: _) |- _ => inversion K; subst; clear K
    | K : Forall _ [] |- _ => clear K
    end.
  all: repeat match goal with K : safe _ _ = true |- _ => rewrite K; clear K end; cbn [andb].
  all: try reflexivity.
  all: try (apply forallb_Forall; assumption).
  - destruct o, a; try reflexivity; discriminate Pl.
  - destruct o, b; try reflexivity; discriminate Pl.
  - rewrite andb_true_r. apply forallb_Forall. assumption.
  - unfold safe_clauses. apply forallb_Forall. apply Forall_forall. intros [p b] Ip. cbn [fst snd].
    specialize (H (minus P (pat_vars p)) (fun i J => proj1 (proj1 (minus_in _ _ _) J))).
    inversion H as [|? ? _ F]; subst. rewrite Forall_forall in F. apply F. apply (in_map snd) in Ip. exact Ip.
  - rewrite andb_true_r. unfold safe_conts. apply forallb_Forall. apply Forall_forall.
    intros [[i ps] x] Ip. cbn [fst snd].
    specialize (H (minus P (map fst ps)) (fun i J => proj1 (proj1 (minus_in _ _ _) J))).
    apply Forall_app in H. destruct H as [F _]. rewrite Forall_forall in F. apply F. apply (in_map snd) in Ip. exact Ip.
Qed.

Lemma plain_locations x l : plain x = true -> In l (flat_map locations (children x)) -> In l (locations x).
Proof.
  intro Pl. destruct x as [id t|f t o|c|f es|lb r es|k f r es|k es r|o|o a|o a b|o a b c|lo a|lo t a|lo es|t i es|t es
    |m a|es a|a b c|a b|a b|a b|a cs|a| |vs b|ks b]; try discriminate Pl; cbn [children locations];
    unfold in_lets, in_conts, in_clauses, in_opt; rewrite ?flat_map_snd, ?flat_map_app; cbn [flat_map];
    rewrite ?app_nil_r; auto.
  - destruct o; cbn; rewrite ?app_nil_r; auto.
  - now right.
Qed.

(** The rest of a let whose promoted variables do not escape. *)
Lemma lets_safe (b : rt) : forall vs P,
  (forall id t x, In (id, t, x) vs -> forall Q, (forall i, In i Q -> In i P \/
     exists t' x', In (i, t', x') vs /\ promoted x' = true) -> safe Q x = true) ->
  (forall Q, (forall i, In i Q -> In i P \/ exists t' x', In (i, t', x') vs /\ promoted x' = true) -> safe Q b = true) ->
  safe_lets safe b P vs = true.
Proof.
  induction vs as [|[[id t] x] vs IH]; cbn [safe_lets]; intros P Hx Hb.
  - apply Hb. auto.
  - apply andb_true_iff. split.
    + eapply Hx; [now left|]. auto.
    + assert (Grow : forall Q, (forall i, In i Q -> In i (if promoted x then id :: P else minus P [id]) \/
          exists t' x', In (i, t', x') vs /\ promoted x' = true) ->
        forall i, In i Q -> In i P \/ exists t' x', In (i, t', x') ((id, t, x) :: vs) /\ promoted x' = true).
      { intros Q HQ i I. destruct (HQ i I) as [J|(t' & x' & J & K)].
        - destruct (promoted x) eqn:Px.
          + destruct J as [<-|J]; [right; exists t, x; split; [now left|exact Px]|now left].
          + apply minus_in in J. left. tauto.
        - right. exists t', x'. split; [now right|exact K]. }
      apply IH.
      * intros i u y I Q HQ. eapply Hx; [right; exact I|]. apply Grow. exact HQ.
      * intros Q HQ. apply Hb. apply Grow. exact HQ.
Qed.

Lemma locations_sub x l y : In y (children x) -> In l (locations y) -> In l (locations x).
Proof.
  intros Iy Il. destruct (plain x) eqn:P.
  - apply plain_locations; [exact P|]. apply in_flat_map. eauto.
  - destruct x as [id t|f t o|c|f es|lb r es|k f r es|k es r|o|o a|o a b|o a b c|lo a|lo t a|lo es|t i es|t es
      |m a|es a|a b c|a b|a b|a b|a cs|a| |vs b|ks b]; try discriminate P; cbn [children] in Iy; cbn [locations].
    + destruct Iy.
    + destruct Iy as [->|[]]. exact Il.
    + destruct Iy as [->|[->|[]]]; apply in_or_app; auto.
    + apply in_app_iff in Iy. apply in_or_app. unfold in_lets. rewrite flat_map_snd.
      destruct Iy as [I|[->|[]]]; [left|right; exact Il]. apply in_flat_map. eauto.
Qed.

Lemma run_safe x : gives_safe x.
Proof.
  induction x as [x IH] using rt_children_ind. intros N L l P Q.
  assert (Lc : Forall (fun l => l = LHeap) (flat_map locations (children x))).
  { rewrite Forall_forall in L |- *. intros lo I. apply in_flat_map in I. destruct I as (y & Iy & Il).
    apply L. eapply locations_sub; eauto. }
  destruct (plain x) eqn:Pl.
  - destruct (rw x l) as [x' l'] eqn:E. cbn [fst].
    destruct (plain_rw _ _ _ _ Pl E) as [Ec Pl']. apply plain_safe; [exact Pl'|]. intros P' I.
    rewrite (plain_alloc _ Pl) in N. rewrite (plain_escapes _ Pl) in Q.
    pose proof (rws_safe _ IH N Lc l P' (fun id J => Q id (I id J))) as S. rewrite Ec in S. exact S.
  - destruct x as [id t|f t o|c|f es|lb r es|k f r es|k es r|o|o a|o a b|o a b c|lo a|lo t a|lo es|t i es|t es
      |m a|es a|a b c|a b|a b|a b|a cs|a| |vs b|ks b]; try discriminate Pl.
    + cbn. apply negb_true_iff. destruct (mem id P) eqn:M; [|reflexivity]. apply mem_in in M.
      exfalso. apply (Q id M). now left.
    + destruct o, a; try discriminate Pl. reflexivity.
    + destruct o, b; try discriminate Pl. cbn [rw]. inversion IH as [|y ys Ha _]; subst.
      cbn [children flat_map] in Lc. apply Forall_app in Lc. destruct Lc as [La _].
      cbn [alloc_vars] in N. rewrite app_nil_r in N. pose proof (Ha N La l P Q) as S.
      destruct (rw a l) as [a1 l1]. exact S.
    + cbn [rw children] in *. destruct (rw_lets rw vs (insert_allocs vs l)) as [vs1 l1] eqn:E1.
      destruct (rw b l1) as [b1 l2] eqn:E2. cbn [fst safe].
      assert (E : rws rw (map snd vs ++ [b]) (insert_allocs vs l) = (map snd vs1 ++ [b1], l2)).
      { rewrite rws_app. destruct (rw_lets_spec _ _ _ _ E1) as [-> _]. cbn. now rewrite E2. }
      cbn [alloc_vars] in N. set (here := flat_map _ vs) in N.
      assert (Al : in_lets alloc_vars vs ++ alloc_vars b = flat_map alloc_vars (map snd vs ++ [b])).
      { unfold in_lets. rewrite flat_map_snd, flat_map_app. cbn. now rewrite app_nil_r. }
      assert (Es : escapes (RLetVar vs b) = flat_map escapes (map snd vs ++ [b])).
      { cbn. unfold in_lets. rewrite flat_map_snd, flat_map_app. cbn. now rewrite app_nil_r. }
      rewrite Es in Q. clear Es. rewrite Al in N. clear Al.
      assert (Prom : forall i t x, In (i, t, x) (map (promote l2) vs1) -> promoted x = true ->
        ~ In i (flat_map escapes (map snd vs ++ [b]))).
      { intros i t x I Px. apply in_map_iff in I. destruct I as ([[j u] y] & Ey & I).
        assert (Al : In i l2 /\ In i here).
        { destruct (rw_lets_spec _ _ _ _ E1) as [Er Ef].
          assert (Lh : forall lo a, In (j, u, RAlloc lo a) vs1 -> lo = LHeap /\ In j here).
          { intros lo a J. apply In_nth_error in J. destruct J as [n Hn].
            assert (Nf : nth_error (map fst vs) n = Some (j, u)).
            { rewrite <- Ef. rewrite nth_error_map, Hn. reflexivity. }
            rewrite nth_error_map in Nf. destruct (nth_error vs n) as [[[j' u'] z]|] eqn:Hz; [|discriminate Nf].
            cbn in Nf. injection Nf as -> ->.
            assert (Z : exists l0, fst (rw z l0) = RAlloc lo a).
            { clear - E1 Hn Hz. revert n l1 vs1 E1 Hn Hz. generalize (insert_allocs vs l) as l0.
              induction vs as [|[[j0 u0] z0] vs IHv]; cbn [rw_lets]; intros l0 n l1 vs1 E Hn Hz; [destruct n; discriminate Hz|].
              destruct (rw z0 l0) as [z1 la] eqn:Ez. destruct (rw_lets rw vs la) as [vs2 lb] eqn:Ev.
              injection E as <- <-. destruct n as [|n]; cbn in Hn, Hz.
              - injection Hn as -> -> ->. injection Hz as -> . exists l0. now rewrite Ez.
              - eapply IHv; eauto. }
            destruct Z as [l0 Z].
            assert (Ga : z = RAlloc lo (match z with RAlloc _ w => w | _ => z end)).
            { destruct z as [id0 t0|f t0 o|c|f es|lb r es|k f r es|k es r|o|o a0|o a0 b0|o a0 b0 c|lo0 a0|lo0 t0 a0|lo0 es|t0 i0 es|t0 es
      |m a0|es a0|a0 b0 c|a0 b0|a0 b0|a0 b0|a0 cs|a0| |vs0 b0|ks b0]; cbn [rw fst] in Z; try discriminate Z.
              all: try (destruct o; [destruct (rw r l0)|]; discriminate Z).
              all: try (destruct o; try destruct a0; repeat (match type of Z with context [let (_, _) := ?p in _] => destruct p end); discriminate Z).
              all: try (destruct o; try destruct b0; repeat (match type of Z with context [let (_, _) := ?p in _] => destruct p end); discriminate Z).
              all: repeat (match type of Z with context [let (_, _) := ?p in _] => destruct p end); try discriminate Z.
              cbn in Z. injection Z as -> _. reflexivity. }
            apply nth_error_In in Hz. split.
            - rewrite Forall_forall in Lc. apply Lc. apply in_flat_map. exists z. split.
              + apply in_or_app. left. apply (in_map snd) in Hz. exact Hz.
              + rewrite Ga. now left.
            - unfold here. apply in_flat_map. eexists. split; [exact Hz|]. cbn [snd]. rewrite Ga. now left. }
          unfold promote in Ey. destruct y as [id0 t0|f t0 o|c|f es|lb r es|k f r es|k es r|o|o a0|o a0 b0|o a0 b0 c|lo0 a0|lo0 t0 a0|lo0 es|t0 i0 es|t0 es
      |m a0|es a0|a0 b0 c|a0 b0|a0 b0|a0 b0|a0 cs|a0| |vs0 b0|ks b0];
            try (injection Ey as <- <- <-; discriminate Px).
          destruct (Lh _ _ I) as [-> Ih]. destruct (mem j l2) eqn:M; injection Ey as <- <- <-.
          - apply mem_in in M. auto.
          - discriminate Px. }
        destruct Al as [I2 Ih]. intro Ie.
        eapply (proj2 (sets_ok _ (proj2 (Forall_forall _ _) (fun y _ => sets y)) _ _ _ E)); [exact Ie| |exact I2].
        eapply nodup_app_in; [exact N|exact Ih]. }
      assert (Sf : forall P', (forall i, In i P' -> In i P \/
         exists t' x', In (i, t', x') (map (promote l2) vs1) /\ promoted x' = true) ->
         Forall (fun y => safe P' y = true) (map snd vs1 ++ [b1])).
      { intros P' HP. pose proof (rws_safe _ IH (nodup_app_r _ _ N) Lc (insert_allocs vs l) P') as S.
        rewrite E in S. apply S. intros i I. destruct (HP i I) as [J|(t' & x' & J & K)].
        - apply Q. exact J.
        - eapply Prom; eauto. }
      apply lets_safe.
      * intros i t x I P' HP. specialize (Sf P' HP). apply Forall_app in Sf. destruct Sf as [Sf _].
        apply in_map_iff in I. destruct I as ([[j u] y] & Ey & I).
        rewrite Forall_forall in Sf. specialize (Sf y ltac:(apply (in_map snd) in I; exact I)).
        unfold promote in Ey. destruct y; try (injection Ey as <- <- <-; exact Sf).
        destruct (mem j l2); injection Ey as <- <- <-; exact Sf.
      * intros P' HP. specialize (Sf P' HP). apply Forall_app in Sf. destruct Sf as [_ Sf].
        inversion Sf; subst. assumption.
Qed.
