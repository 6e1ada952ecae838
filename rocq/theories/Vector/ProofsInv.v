(** What holds between calls: every object holds what it should, and no two objects see the same place unless both are shared. *)
From Coq Require Import Lia Permutation.
From Verif.Base Require Import Base Buf.
From Verif.Vector Require Import Model Spec ProofsMem ProofsArray ProofsOps ProofsVec.
Local Open Scope N_scope.
Local Open Scope list_scope.

Section Inv.
Context {A : Type}.
Implicit Types (m : mem A) (t : array) (v : vec) (l : list A).

Notation pair_ := (obj * sobj (A := A))%type.
Implicit Types (p q : pair_) (ps : list pair_).

Definition reg (o : obj) : region := match o with OArray t => area t | OVector v => varea v | OIter it => area (iter_array it) end.
Definition mode_of (s : sobj (A := A)) : option mode := match s with SGone => None | SArray w _ | SVector w _ _ | SIter w _ => Some w end.
Definition holds m p : Prop :=
  match snd p with
  | SGone => True
  | SArray _ l => exists t, fst p = OArray t /\ harray m t l
  | SVector _ l room => exists v, fst p = OVector v /\ hvec m v l /\ room <= vcap v
  | SIter _ l => exists it, fst p = OIter it /\ hiter m it l
  end.
Definition sees p (b : nat) (k : N) : Prop := mode_of (snd p) <> None /\ inreg (reg (fst p)) b k.
Definition compat p q : Prop := forall b k, sees p b k -> sees q b k -> mode_of (snd p) = Some Shared /\ mode_of (snd q) = Some Shared.
Definition inv m ps : Prop := (0 < List.length (blocks m))%nat /\ Forall (holds m) ps /\ ForallOrdPairs compat ps.

Lemma compat_sym p q : compat p q -> compat q p.
Proof. intros H b k X Y; destruct (H b k Y X); auto. Qed.

Lemma fop_app {X} (R : X -> X -> Prop) (x y : list X) :
  ForallOrdPairs R (x ++ y) <-> ForallOrdPairs R x /\ ForallOrdPairs R y /\ (forall a b, In a x -> In b y -> R a b).
Proof.
  induction x as [|u x IH]; cbn [app].
  - split; [intros H; split; [constructor|]; split; [exact H|intros a b []]|intros (_ & H & _); exact H].
  - split.
    + intros H; inversion H; subst; apply IH in H3 as (H3 & H4 & H5); rewrite Forall_app in H2; destruct H2 as [H1 H2]; rewrite Forall_forall in H2.
      split; [constructor; assumption|]; split; [exact H4|]; intros a b [<-|I] J; auto.
    + intros (H & H4 & H5); inversion H; subst; constructor; [|apply IH; split; [assumption|]; split; [assumption|]; intros a b I J; apply H5; cbn; auto].
      apply Forall_app; split; [assumption|]; apply Forall_forall; intros b J; apply H5; cbn; auto.
Qed.
Lemma fop_mid {X} (R : X -> X -> Prop) (S : forall a b, R a b -> R b a) (x y z : list X) :
  ForallOrdPairs R (x ++ y ++ z) <-> ForallOrdPairs R (y ++ x ++ z).
Proof.
  rewrite !fop_app; split; intros (H1 & (H2 & H3 & H4) & H5); (split; [|split; [split; [|split]|]]); trivial;
    intros a b I J; try (apply H5; [|apply in_or_app]; auto; fail).
  - apply in_app_or in J as [J|J]; [apply S, H5; [exact J|apply in_or_app; auto]|auto].
  - apply in_app_or in J as [J|J]; [apply S, H5; [exact J|apply in_or_app; auto]|auto].
Qed.
Lemma inv_mid m x y z : inv m (x ++ y ++ z) <-> inv m (y ++ x ++ z).
Proof. unfold inv; rewrite (fop_mid compat compat_sym), !Forall_app; tauto. Qed.

Lemma holds_within m p : holds m p -> mode_of (snd p) <> None -> (fst (fst (reg (fst p))) < List.length (blocks m))%nat.
Proof.
  destruct p as [o [|w l|w l room|w l]]; unfold holds; cbn [fst snd mode_of]; intros H N; [congruence| | |].
  - destruct H as (t & -> & H); apply H.
  - destruct H as (v & -> & (j & H) & _); apply H.
  - destruct H as (it & -> & H); exact (hiter_within _ _ _ H).
Qed.
Lemma holds_same m m' w p : same m m' w -> (forall b k, sees p b k -> ~ w b k) -> holds m p -> holds m' p.
Proof.
  destruct p as [o [|u l|u l room|u l]]; unfold holds, sees; cbn [fst snd mode_of]; intros S D H; trivial.
  - destruct H as (t & -> & H); exists t; split; [reflexivity|]; apply (harray_same _ _ _ _ _ S); [|exact H]; intros b k I; apply D; split; [discriminate|exact I].
  - destruct H as (v & -> & H & R); exists v; split; [reflexivity|]; split; [|exact R]; apply (hvec_same _ _ _ _ _ S); [|exact H]; intros b k I; apply D; split; [discriminate|exact I].
  - destruct H as (it & -> & H); exists it; split; [reflexivity|]; apply (hiter_same _ _ _ _ _ S); [|exact H]; intros b k I; apply D; split; [discriminate|exact I].
Qed.

(** Where the places of an object come from: they are new, or were seen by the object it replaces. *)
Definition from m p q : Prop := forall b k, sees q b k ->
  (List.length (blocks m) <= b)%nat \/ (sees p b k /\ (mode_of (snd p) = Some Shared -> mode_of (snd q) = Some Shared)).
Definition may_write m p (w : nat -> N -> Prop) : Prop := forall b k, w b k ->
  (List.length (blocks m) <= b)%nat \/ (inreg (reg (fst p)) b k /\ mode_of (snd p) = Some Own).

Lemma inv_core m m' w p rest qs : inv m (p :: rest) -> same m m' w -> may_write m p w ->
  Forall (holds m') qs -> ForallOrdPairs compat qs -> Forall (from m p) qs -> inv m' (qs ++ rest).
Proof.
  intros (B & H & C) S W Hq Cq Fq; inversion H as [|? ? Hp Hr]; subst; inversion C as [|? ? Cp Cr]; subst.
  rewrite Forall_forall in Cp, Hr, Fq; split; [pose proof (same_length _ _ _ S); lia|]; split.
  - apply Forall_app; split; [exact Hq|]; apply Forall_forall; intros q I; apply (holds_same _ _ _ _ S); [|exact (Hr q I)].
    intros b k J X; destruct (W b k X) as [N|[I' O]].
    + pose proof (holds_within _ _ (Hr q I) (proj1 J)) as L; destruct J as [_ [E _]]; lia.
    + destruct (Cp q I b k) as [E _]; [split; [congruence|exact I']|exact J|congruence].
  - apply fop_app; split; [exact Cq|]; split; [exact Cr|]; intros q r I J b k X Y.
    destruct (Fq q I b k X) as [N|[I' O]].
    + pose proof (holds_within _ _ (Hr r J) (proj1 Y)) as L; destruct Y as [_ [E _]]; lia.
    + destruct (Cp r J b k I' Y) as [E E']; auto.
Qed.

Lemma set_nth_at {X} i (l : list X) (x y : X) : nth_error l i = Some x -> exists l1 l2 : list X, l = l1 ++ x :: l2 /\ List.length l1 = i /\ set_nth i y l = l1 ++ y :: l2.
Proof. intros H; apply nth_error_split in H as (l1 & l2 & -> & <-); exists l1, l2; rewrite set_nth_mid; auto. Qed.

Lemma inv_step m m' w ps i p p' qs : nth_error ps i = Some p -> inv m ps -> same m m' w -> may_write m p w ->
  Forall (holds m') (p' :: qs) -> ForallOrdPairs compat (p' :: qs) -> Forall (from m p) (p' :: qs) -> inv m' (set_nth i p' ps ++ qs).
Proof.
  intros N I S W H C F; destruct (set_nth_at i ps p p' N) as (x & y & -> & _ & ->).
  rewrite <- app_assoc; cbn [app]; change (p :: y) with ([p] ++ y) in I; apply inv_mid in I; cbn [app] in I.
  pose proof (inv_core _ _ _ _ _ _ I S W H C F) as J; cbn [app] in J.
  change (x ++ p' :: y ++ qs) with (x ++ [p'] ++ y ++ qs); apply inv_mid; cbn [app].
  change (p' :: qs ++ x ++ y) with ([] ++ (p' :: qs) ++ x ++ y) in J.
  destruct J as (B & Hj & Cj); cbn [app] in *; split; [exact B|]; inversion Hj; subst; inversion Cj; subst; split.
  - constructor; [assumption|]; rewrite !Forall_app in *; tauto.
  - assert (P : Permutation (qs ++ x ++ y) (x ++ y ++ qs)) by (rewrite (Permutation_app_comm qs), app_assoc; reflexivity).
    constructor; [eapply Permutation_Forall; [exact P|assumption]|].
    rewrite (app_assoc x y qs), <- (app_nil_r ((x ++ y) ++ qs)), <- app_assoc.
    apply (fop_mid compat compat_sym); rewrite app_nil_r; assumption.
Qed.
Lemma inv_same m m' ps i p p' w : nth_error ps i = Some p -> inv m ps -> same m m' w -> may_write m p w -> holds m' p' -> from m p p' -> inv m' (set_nth i p' ps).
Proof.
  intros N I S W H F; rewrite <- (app_nil_r (set_nth i p' ps)); eapply inv_step; eauto.
  - constructor; constructor.
Qed.
Lemma inv_new m m' ps q : inv m ps -> same m m' nowhere -> holds m' q -> (forall b k, inreg (reg (fst q)) b k -> (List.length (blocks m) <= b)%nat) -> inv m' (ps ++ [q]).
Proof.
  intros (B & H & C) S Hq F; change (ps ++ [q]) with (ps ++ [q] ++ []); apply inv_mid; rewrite app_nil_r.
  apply (inv_core m m' nowhere (fst q, SGone) ps [q]); trivial.
  - split; [exact B|]; split; [constructor; [exact Logic.I|exact H]|]; constructor; [|exact C]; apply Forall_forall; intros r _ b k [X _]; cbn in X; congruence.
  - intros b k [].
  - constructor; [exact Hq|constructor].
  - constructor; constructor.
  - constructor; [|constructor]; intros b k [_ I]; left; exact (F b k I).
Qed.

Lemma apart_of m ps i j o s o' s' : inv m ps -> nth_error ps i = Some (o, s) -> nth_error ps j = Some (o', s') -> i <> j ->
  mode_of s <> None -> mode_of s' = Some Own -> apart (reg o) (reg o').
Proof.
  intros I Ni Nj D L O b k X Y; pose proof (nth_error_split ps j Nj) as (x & y & E & Lx); subst ps.
  change ((o', s') :: y) with ([(o', s')] ++ y) in I; apply inv_mid in I as (_ & _ & C); cbn [app] in C; inversion C as [|? ? Cp _]; subst.
  rewrite Forall_forall in Cp.
  assert (J : In (o, s) (x ++ y)).
  { destruct (Nat.lt_ge_cases i (List.length x)) as [Z|Z].
    - rewrite nth_error_app1 in Ni by exact Z; apply in_or_app; left; exact (nth_error_In _ _ Ni).
    - rewrite nth_error_app2 in Ni by exact Z; destruct (i - List.length x)%nat eqn:Ed; [lia|]; cbn in Ni; apply in_or_app; right; exact (nth_error_In _ _ Ni). }
  destruct (Cp _ J b k) as [E _]; [split; [cbn; congruence|exact Y]|split; [exact L|exact X]|cbn in E; congruence].
Qed.

(** ** Making views *)
Lemma leave_mode keep (s : sobj (A := A)) : mode_of (leave keep s) = if keep then match mode_of s with None => None | _ => Some Shared end else None.
Proof. destruct keep, s; reflexivity. Qed.
Lemma leave_holds m keep o (s : sobj (A := A)) : holds m (o, s) -> holds m (o, leave keep s).
Proof. destruct keep, s; cbn; trivial. Qed.
Lemma inv_view m ps i o s w keep qs : nth_error ps i = Some (o, s) -> mode_of s = Some w -> inv m ps ->
  Forall (holds m) qs -> Forall (fun q => mode_of (snd q) = Some (view_mode keep w) /\ forall b k, inreg (reg (fst q)) b k -> inreg (reg o) b k) qs ->
  (ForallOrdPairs (fun q r => apart (reg (fst q)) (reg (fst r))) qs) -> inv m (set_nth i (o, leave keep s) ps ++ qs).
Proof.
  intros N M I H F C; apply (inv_step m m nowhere ps i (o, s)); trivial.
  - apply same_refl.
  - intros b k [].
  - constructor; [|exact H]; apply leave_holds; destruct I as (_ & Hi & _); rewrite Forall_forall in Hi; exact (Hi _ (nth_error_In _ _ N)).
  - constructor.
    + rewrite Forall_forall in F; apply Forall_forall; intros q J b k X Y; destruct (F q J) as [Mq _]; destruct X as [Xm _]; cbn [snd fst] in *; rewrite leave_mode in *.
      destruct keep; [|congruence]; rewrite M; split; [reflexivity|exact Mq].
    + induction C as [|q qs Cq C IH]; [constructor|]; inversion H; subst; inversion F; subst; constructor; [|apply IH; assumption].
      apply Forall_forall; intros r J b k X Y; rewrite Forall_forall in Cq; destruct (Cq r J b k); [exact (proj2 X)|exact (proj2 Y)].
  - constructor.
    + intros b k [Xm X]; right; cbn [fst snd] in *; split; [split; [cbn; congruence|exact X]|]; intros _; rewrite leave_mode in *; destruct keep; [rewrite M; reflexivity|congruence].
    + rewrite Forall_forall in *; intros q J b k [Xm X]; right; destruct (F q J) as [Mq R]; split; [split; [cbn; congruence|exact (R b k X)]|].
      cbn [snd]; rewrite M, Mq; unfold view_mode; destruct keep; congruence.
Qed.
End Inv.
