(** * The normalizer comes to an end, and does not panic *)
From Verif.Base Require Import Base.
From Verif.Ir Require Import Model.
From Verif.Closure Require Import Model Spec Rel ProofsSim ProofsScope ProofsGroup ProofsNorm.
Local Arguments typed_params : simpl never.

(** ** How much there is to do *)
Definition top {A} (g : A -> nat) (l : list A) : nat := fold_right (fun x n => Nat.max (g x) n) 0 l.
Definition sum {A} (g : A -> nat) (l : list A) : nat := fold_right (fun x n => g x + n)%nat 0 l.
Fixpoint height (x : expr) : nat :=
  match x with
  | EVar _ _ | ENever => 1
  | ELocal _ _ => 2
  | EOp _ es => 1 + top height es
  | ECall f es => 1 + Nat.max (height f) (top height es)
  | ESeq es x => 1 + Nat.max (top height es) (height x)
  | EIf a b c => 1 + Nat.max (height a) (Nat.max (height b) (height c))
  | EWhile a b | EAnd a b | EOr a b => 1 + Nat.max (height a) (height b)
  | EMatch a cs => 1 + Nat.max (height a) (top (fun c => height (snd c)) cs)
  | ELetVar vs b => 1 + Nat.max (top (fun c => height (snd c)) vs) (height b)
  | ELetLocal fs b => 4 + Nat.max (top (fun c => height (snd c)) fs) (height b)
  | ELetCont ks b => 1 + Nat.max (top (fun c => height (snd c)) ks) (height b)
  end.
Fixpoint nloc (x : expr) : nat :=
  match x with
  | EVar _ _ | ENever | ELocal _ _ => 0
  | EOp _ es => sum nloc es
  | ECall f es => nloc f + sum nloc es
  | ESeq es x => sum nloc es + nloc x
  | EIf a b c => nloc a + (nloc b + nloc c)
  | EWhile a b | EAnd a b | EOr a b => nloc a + nloc b
  | EMatch a cs => nloc a + sum (fun c => nloc (snd c)) cs
  | ELetVar vs b => sum (fun c => nloc (snd c)) vs + nloc b
  | ELetLocal fs b => sum (fun c => S (nloc (snd c))) fs + nloc b
  | ELetCont ks b => sum (fun c => nloc (snd c)) ks + nloc b
  end.

Lemma top_in : forall {A} (g : A -> nat) l a, In a l -> (g a <= top g l)%nat.
Proof. intros A g l a. unfold top. induction l as [|b l IH]; intro I; [destruct I|]. cbn. destruct I as [->|I]; [lia|]. specialize (IH I). lia. Qed.
Lemma sum_ext : forall {A} (g h : A -> nat) l, (forall a, In a l -> g a = h a) -> sum g l = sum h l.
Proof. intros A g h l H. unfold sum. induction l as [|a l IH]; [reflexivity|]. cbn. rewrite (H a (or_introl eq_refl)), IH; [reflexivity|]. intros b I. apply H. right. exact I. Qed.
Lemma sum_map : forall {A B} (g : B -> nat) (h : A -> B) l, sum g (map h l) = sum (fun a => g (h a)) l.
Proof. intros A B g h l. unfold sum. induction l as [|a l IH]; [reflexivity|]. cbn. rewrite IH. reflexivity. Qed.
Lemma sum_app : forall {A} (g : A -> nat) a b, sum g (a ++ b) = (sum g a + sum g b)%nat.
Proof. intros A g a b. unfold sum. induction a as [|x a IH]; [reflexivity|]. cbn. rewrite IH. lia. Qed.

Lemma nloc_app : forall m x, nloc (app m x) = nloc x.
Proof.
  intros m x. induction x as [x IH] using expr_size_ind.
  assert (E1 : forall es, (forall a, In a es -> (size a < size x)%nat) -> sum nloc (map (app m) es) = sum nloc es).
  { intros es H. rewrite sum_map. apply sum_ext. intros a I. apply IH, H, I. }
  assert (E2 : forall {A} (es : list (A * expr)), (forall a, In a es -> (size (snd a) < size x)%nat) -> sum (fun c => nloc (snd c)) (map (fun c => (fst c, app m (snd c))) es) = sum (fun c => nloc (snd c)) es).
  { intros A es H. rewrite sum_map. apply sum_ext. intros a I. cbn. apply IH, H, I. }
  destruct x; cbn [app nloc size] in *; try reflexivity.
  - destruct (sf m f) as [[g [i|]]|]; reflexivity.
  - apply E1. intros a I. pose proof (size_in size _ a I). lia.
  - rewrite IH by lia. f_equal. apply E1. intros a I. pose proof (size_in size _ a I). lia.
  - rewrite (IH x) by lia. f_equal. apply E1. intros a I. pose proof (size_in size _ a I). lia.
  - rewrite !IH by lia. reflexivity.
  - rewrite !IH by lia. reflexivity.
  - rewrite !IH by lia. reflexivity.
  - rewrite !IH by lia. reflexivity.
  - rewrite (IH x) by lia. f_equal. apply E2. intros a I. pose proof (size_in (fun c => size (snd c)) _ a I). cbn in *. lia.
  - rewrite (IH x) by lia. f_equal. apply E2. intros a I. pose proof (size_in (fun c => S (size (snd c))) _ a I). cbn in *. lia.
  - rewrite (IH x) by lia. f_equal. rewrite sum_map. apply sum_ext. intros a I. cbn. f_equal. apply IH. pose proof (size_in (fun c => size (snd c)) _ a I). cbn in *. unfold param in *. lia.
  - rewrite (IH x) by lia. f_equal. apply E2. intros a I. pose proof (size_in (fun c => S (size (snd c))) _ a I). cbn in *. unfold param in *. lia.
Qed.

(** ** Functions that can be normalized *)
Section Total.
Variable N : nat.

Definition typed_in (ids : list nat) (m : sub) (vs fs : list nat) : Prop :=
  (forall u, In u vs -> In (sv m u) ids) /\ (forall f g e, In f fs -> sf m f = Some (g, Some e) -> In e ids).
Definition ready (n fuel : nat) (f : function) : Prop :=
  exists m vs fs x, f_body f = app m x /\ ok N n m vs fs x /\ typed_in (bound f) m vs fs /\ (height x <= fuel)%nat.

Lemma ok_mono : forall n n' m vs fs x, (n <= n')%nat -> ok N n m vs fs x -> ok N n' m vs fs x.
Proof. intros n n' m vs fs x L H. eapply ok_sub; [exact H|apply H|apply H|intros d D; exact D|exact L]. Qed.
Lemma ready_mono : forall n n' k k' f, (n <= n')%nat -> (k <= k')%nat -> ready n k f -> ready n' k' f.
Proof. intros n n' k k' f L L' (m & vs & fs & x & E & O & TI & H). exists m, vs, fs, x. split; [exact E|]. split; [eapply ok_mono; eauto|]. split; [exact TI|lia]. Qed.

Definition weight (l : list (nat * function)) : nat := sum (fun p => S (nloc (f_body (snd p)))) l.
Definition result (fuel : nat) (s s' : state) (w : nat) : Prop :=
  exists l, pending s' = pending s ++ l /\ Forall (fun p => ready (next_rt s') fuel (snd p)) l /\ weight l = w.

Lemma result_refl : forall fuel s, result fuel s s 0.
Proof. intros fuel s. exists []. rewrite app_nil_r. repeat split. constructor. Qed.
Lemma result_typed : forall fuel id t s s' w, result fuel (typed id t s) s' w -> result fuel s s' w.
Proof. intros fuel id t s s' w H. exact H. Qed.
Lemma pending_typed_params : forall ps s, pending (typed_params ps s) = pending s.
Proof. unfold typed_params. induction ps as [|p ps IH]; intro s; [reflexivity|]. cbn. rewrite IH. reflexivity. Qed.
Lemma result_params : forall fuel ps s s' w, result fuel (typed_params ps s) s' w -> result fuel s s' w.
Proof. intros fuel ps s s' w (l & P & R). exists l. rewrite pending_typed_params in P. auto. Qed.
Lemma result_trans : forall fuel a b c w w', (next_rt b <= next_rt c)%nat -> result fuel a b w -> result fuel b c w' -> result fuel a c (w + w').
Proof.
  intros fuel a b c w w' L (l & P & R & W) (l' & P' & R' & W'). exists (l ++ l'). split; [rewrite P', P, app_assoc; reflexivity|]. split.
  - apply Forall_app. split; [|exact R']. eapply Forall_impl; [|exact R]. intros p. apply ready_mono; lia.
  - unfold weight in *. rewrite sum_app, W, W'. reflexivity.
Qed.
Lemma result_fuel : forall fuel fuel' s s' w, (fuel <= fuel')%nat -> result fuel s s' w -> result fuel' s s' w.
Proof. intros fuel fuel' s s' w L (l & P & R & W). exists l. split; [exact P|]. split; [|exact W]. eapply Forall_impl; [|exact R]. intros p. apply ready_mono; lia. Qed.

Lemma typed_grows : forall s s' m vs fs, grows s s' -> typed_in (map fst (types s)) m vs fs -> typed_in (map fst (types s')) m vs fs.
Proof. intros s s' m vs fs (_ & _ & G & _) [H1 H2]. split; [intros u I; apply G, H1, I|]. intros f g e I E. apply G. eapply H2; eauto. Qed.
Lemma typed_typed : forall s id t m vs fs, typed_in (map fst (types s)) m vs fs -> sv m id = id -> typed_in (map fst (types (typed id t s))) m (id :: vs) fs.
Proof. intros s id t m vs fs [H1 H2] E. split; cbn; [|intros f g e I K; right; eapply H2; eauto]. intros u [<-|I]; [left; auto|right; apply H1, I]. Qed.
Lemma types_params : forall ps s id, In id (map fst (types (typed_params ps s))) <-> In id (map fst ps) \/ In id (map fst (types s)).
Proof.
  unfold typed_params. induction ps as [|p ps IH]; intros s id; cbn; [tauto|]. rewrite IH. cbn. tauto.
Qed.
Lemma typed_params_in : forall s ps m vs fs, typed_in (map fst (types s)) m vs fs -> Forall (fun id => sv m id = id) (map fst ps) ->
  typed_in (map fst (types (typed_params ps s))) m (map fst ps ++ vs) fs.
Proof.
  intros s ps m vs fs [H1 H2] HF. rewrite Forall_forall in HF. split.
  - intros u I. apply types_params. apply in_app_or in I as [I|I]; [left; rewrite (HF u I); exact I|right; apply H1, I].
  - intros f g e I E. apply types_params. right. eapply H2; eauto.
Qed.
Lemma pat_types_defs : forall p, map fst (pat_types p) = pat_defs p.
Proof.
  induction p as [p IH] using pat_ind.
  assert (L : forall ps, Forall (fun p => map fst (pat_types p) = pat_defs p) ps -> map fst (flat_map pat_types ps) = flat_map pat_defs ps).
  { intros ps H. induction H as [|q ps Q H IHps]; [reflexivity|]. cbn. etransitivity; [apply map_app|]. f_equal; [exact Q|exact IHps]. }
  destruct p as [id t [q|]|t|q|q|q|t i ps|t ps|t q|q|c]; cbn in *; auto. f_equal. exact IH.
Qed.

Definition goal (x : expr) : Prop := forall fuel s m vs fs, (height x <= fuel)%nat -> ok N (next_rt s) m vs fs x -> typed_in (map fst (types s)) m vs fs ->
  exists s' y, norm fuel s (app m x) = Ret (s', y) /\ result fuel s s' (nloc x).

Lemma rt_mono : forall s s', grows s s' -> (next_rt s <= next_rt s')%nat.
Proof. intros s s' H. apply H. Qed.

Lemma norms_total : forall es, (forall e, In e es -> goal e) -> forall fuel s m vs fs, (top height es <= fuel)%nat ->
  (forall e n, In e es -> (next_rt s <= n)%nat -> ok N n m vs fs e) -> typed_in (map fst (types s)) m vs fs ->
  exists s' ys, norms (norm fuel) s (map (app m) es) = Ret (s', ys) /\ result fuel s s' (sum nloc es).
Proof.
  induction es as [|e es IH]; intros G fuel s m vs fs L HO TI; [exists s, []; split; [reflexivity|apply result_refl]|].
  unfold top in L. cbn in L. destruct (G e (or_introl eq_refl) fuel s m vs fs ltac:(lia) (HO e (next_rt s) (or_introl eq_refl) (le_n _)) TI) as (s1 & y & E1 & R1).
  pose proof (norm_grows _ _ _ _ _ E1) as G1. pose proof (rt_mono _ _ G1) as L1.
  destruct (IH (fun x I => G x (or_intror I)) fuel s1 m vs fs) as (s2 & ys & E2 & R2); [unfold top; lia|intros x n I K; apply HO; [right; exact I|lia]|eapply typed_grows; eauto|].
  exists s2, (y :: ys). split; [cbn; rewrite E1; cbn; rewrite E2; reflexivity|]. unfold sum. cbn. eapply result_trans; [|exact R1|exact R2].
  apply rt_mono. eapply norms_grows; [apply norm_grows|exact E2].
Qed.

Lemma norm_clauses_total : forall cs, (forall c, In c cs -> goal (snd c)) -> forall fuel s m vs fs, (top (fun c => height (snd c)) cs <= fuel)%nat ->
  (forall c n, In c cs -> (next_rt s <= n)%nat -> ok N n m (pat_defs (fst c) ++ vs) fs (snd c) /\ Forall (fresh m vs fs) (pat_defs (fst c))) -> typed_in (map fst (types s)) m vs fs ->
  exists s' ys, norm_clauses (norm fuel) s (map (fun c => (fst c, app m (snd c))) cs) = Ret (s', ys) /\ result fuel s s' (sum (fun c => nloc (snd c)) cs).
Proof.
  induction cs as [|[p e] cs IH]; intros G fuel s m vs fs L HO TI; [exists s, []; split; [reflexivity|apply result_refl]|].
  unfold top in L. cbn in L. pose proof (grows_params (pat_types p) s) as G0. pose proof (rt_mono _ _ G0) as L0.
  destruct (HO (p, e) (next_rt (typed_params (pat_types p) s)) (or_introl eq_refl) L0) as [OE FB]. cbn in OE, FB.
  destruct (G (p, e) (or_introl eq_refl) fuel (typed_params (pat_types p) s) m (pat_defs p ++ vs) fs ltac:(cbn; lia) OE) as (s1 & y & E1 & R1).
  { rewrite <- pat_types_defs. apply typed_params_in; [exact TI|]. rewrite pat_types_defs. eapply Forall_impl; [|exact FB]. intros d D. apply D. }
  pose proof (norm_grows _ _ _ _ _ E1) as G1. pose proof (rt_mono _ _ G1) as L1.
  destruct (IH (fun x I => G x (or_intror I)) fuel s1 m vs fs) as (s2 & ys & E2 & R2); [unfold top; lia|intros x n I K; apply HO; [right; exact I|lia]|eapply typed_grows; [exact (grows_trans _ _ _ G0 G1)|exact TI]|].
  exists s2, ((p, y) :: ys). split; [cbn in E1 |- *; rewrite E1; cbn; rewrite E2; reflexivity|]. unfold sum. cbn. eapply result_trans; [|apply result_params in R1; exact R1|exact R2].
  apply rt_mono. eapply norm_clauses_grows; [apply norm_grows|exact E2].
Qed.

Lemma types_of_total : forall tys ids, (forall id, In id ids -> In id (map fst tys)) -> exists ps, types_of tys ids = Ret ps.
Proof.
  intros tys ids. induction ids as [|id ids IH]; intro H; [exists []; reflexivity|]. cbn. destruct (assoc_some id tys (H id (or_introl eq_refl))) as [t ->].
  destruct IH as [ps ->]; [intros i I; apply H; right; exact I|]. eexists. reflexivity.
Qed.

Lemma norm_construct_total : forall fuel s c, norm (S (S fuel)) s (construct c) = Ret (s, construct c).
Proof.
  intros fuel s c. unfold construct. cbn [norm].
  assert (G : forall ps, norms (norm (S fuel)) s (map (fun p : nat * ct => EVar (fst p) (snd p)) ps) = Ret (s, map (fun p => EVar (fst p) (snd p)) ps)).
  { induction ps as [|p ps IH]; [reflexivity|]. cbn [map norms]. cbn. cbn in IH. rewrite IH. reflexivity. }
  rewrite G. reflexivity.
Qed.

Lemma norm_let_var_total : forall W fuel s e c x P, (forall k, (W <= k)%nat -> exists s' z, norm k (typed e CtEnv s) x = Ret (s', z) /\ P k s') ->
  (forall k k' s', (k <= k')%nat -> P k s' -> P k' s') -> (3 + W <= fuel)%nat ->
  exists s' y, norm fuel s (let_var [(e, CtEnv, construct c)] x) = Ret (s', y) /\ P fuel s'.
Proof.
  intros W fuel s e c x P H HM L. destruct fuel as [|[|[|fuel]]]; try lia.
  assert (G : exists s' y, norm (S (S (S fuel))) s (ELetVar [(e, CtEnv, construct c)] x) = Ret (s', y) /\ P (S (S (S fuel))) s').
  { destruct (H (S (S fuel)) ltac:(lia)) as (s' & z & E & K). exists s', (ELetVar [(e, CtEnv, construct c)] z). split; [|eapply HM; [|exact K]; lia].
    remember (S (S fuel)) as k eqn:EK. cbn [norm norm_vars]. assert (EC : norm k (typed e CtEnv s) (construct c) = Ret (typed e CtEnv s, construct c)) by (rewrite EK; apply norm_construct_total). rewrite EC. cbn [bind]. rewrite E. reflexivity. }
  destruct x; try exact G. clear G. destruct (H (S (S (S fuel))) ltac:(lia)) as (s' & z & E & K).
  remember (S (S fuel)) as k eqn:EK. cbn [norm] in E. apply bind_ret in E as ([s1 vs'] & E1 & E). apply bind_ret in E as ([s2 b'] & E2 & E). injection E as <- <-.
  exists s2, (ELetVar ((e, CtEnv, construct c) :: vs') b'). split; [|exact K]. cbn [let_var List.app norm norm_vars]. assert (EC : norm k (typed e CtEnv s) (construct c) = Ret (typed e CtEnv s, construct c)) by (rewrite EK; apply norm_construct_total). rewrite EC. cbn [bind]. rewrite E1. cbn [bind]. rewrite E2. reflexivity.
Qed.

Local Ltac split_nd := repeat match goal with X : NoDup (_ ++ _) |- _ => apply NoDup_app_inv in X as (? & ? & ?) end.
Local Ltac sub1 HO := eapply ok_sub; [exact HO|assumption|assumption| |lia]; let d := fresh in let D := fresh in intros d D; cbn; rewrite ?in_app_iff; auto; fail.
Local Ltac one IH HO x TI s1 y E R TI1 :=
  match goal with |- context [norm ?fuel ?s (app ?m x)] =>
    match type of TI with typed_in _ _ ?vs ?fs =>
    destruct (IH x ltac:(cbn; lia) fuel s m vs fs) as (s1 & y & E & R); [cbn in *; lia|sub1 HO|exact TI|];
    rewrite E; cbn [bind];
    let G := fresh "G" in pose proof (norm_grows _ _ _ _ _ E) as G; pose proof (rt_mono _ _ G); pose proof (typed_grows _ _ _ _ _ G TI) as TI1;
    apply (result_fuel fuel (S fuel)) in R; [|lia] end
  end.

Lemma total : forall x, goal x.
Proof.
  intro x. induction x as [x IH] using expr_size_ind. intros fuel s m vs fs L HO TI. destruct fuel as [|fuel]; [destruct x; cbn in L; lia|].
  pose proof HO as [SC ND HD HV HF HN]. destruct x as [id t|f t|o es|f es|es x|a b c|a b|a b|a b|a cs| |l b|l b|l b].
  - exists s, (EVar (sv m id) t). split; [reflexivity|apply result_refl].
  - cbn in L. destruct fuel as [|fuel]; [lia|]. cbn. destruct (sf m f) as [[g [e|]]|]; do 2 eexists; (split; [reflexivity|apply result_refl]).
  - inversion SC as [| |? ? ? ? SE| | | | | | | | | | | |]; subst. rewrite Forall_forall in SE. cbn in L.
    destruct (norms_total es) with (fuel := fuel) (s := s) (m := m) (vs := vs) (fs := fs) as (s1 & ys & E1 & R1); [|lia| |exact TI|].
    + intros e I. apply IH. pose proof (size_in size _ e I). cbn. lia.
    + intros e n I K. eapply ok_sub; [exact HO|apply SE, I| | |exact K]; cbn in *; [eapply NoDup_flat_in; eauto|]. intros d D. eapply in_flat; eauto.
    + exists s1, (EOp o ys). split; [cbn; rewrite E1; reflexivity|]. eapply result_fuel; [|exact R1]. lia.
  - inversion SC as [| | |? ? ? ? SF SE| | | | | | | | | | |]; subst. rewrite Forall_forall in SE. cbn in ND. split_nd. cbn in L. cbn [app norm].
    one IH HO f TI s1 y1 E1 R1 TI1.
    destruct (norms_total es) with (fuel := fuel) (s := s1) (m := m) (vs := vs) (fs := fs) as (s2 & ys & E2 & R2); [|lia| |exact TI1|].
    + intros e I. apply IH. pose proof (size_in size _ e I). cbn. lia.
    + intros e n I K. eapply ok_sub; [exact HO|apply SE, I| | |lia]; [eapply NoDup_flat_in; eauto|]. intros d D. cbn. apply in_or_app. right. eapply in_flat; eauto.
    + exists s2, (ECall y1 ys). rewrite E2. split; [reflexivity|]. eapply result_trans; [|exact R1|eapply result_fuel; [|exact R2]; lia]. apply rt_mono. eapply norms_grows; [apply norm_grows|exact E2].
  - inversion SC as [| | | |? ? ? ? SE SX| | | | | | | | | |]; subst. rewrite Forall_forall in SE. cbn in ND. split_nd. cbn in L. cbn [app norm].
    destruct (norms_total es) with (fuel := fuel) (s := s) (m := m) (vs := vs) (fs := fs) as (s1 & ys & E1 & R1); [|lia| |exact TI|].
    + intros e I. apply IH. pose proof (size_in size _ e I). cbn. lia.
    + intros e n I K. eapply ok_sub; [exact HO|apply SE, I| | |lia]; [eapply NoDup_flat_in; eauto|]. intros d D. cbn. apply in_or_app. left. eapply in_flat; eauto.
    + rewrite E1. cbn [bind]. assert (G1 : grows s s1) by (eapply norms_grows; [apply norm_grows|exact E1]). pose proof (rt_mono _ _ G1). pose proof (typed_grows _ _ _ _ _ G1 TI) as TI1.
      one IH HO x TI1 s2 y2 E2 R2 TI2. exists s2, (ESeq ys y2). split; [reflexivity|]. eapply result_trans; [|eapply result_fuel; [|exact R1]; lia|exact R2]. lia.
  - inversion SC; subst. cbn in ND. split_nd. cbn in L. cbn [app norm]. one IH HO a TI s1 y1 E1 R1 TI1. one IH HO b TI1 s2 y2 E2 R2 TI2. one IH HO c TI2 s3 y3 E3 R3 TI3.
    do 2 eexists. split; [reflexivity|]. cbn. eapply result_trans; [|exact R1|eapply result_trans; [|exact R2|exact R3]]; lia.
  - inversion SC; subst. cbn in ND. split_nd. cbn in L. cbn [app norm]. one IH HO a TI s1 y1 E1 R1 TI1. one IH HO b TI1 s2 y2 E2 R2 TI2.
    do 2 eexists. split; [reflexivity|]. cbn. eapply result_trans; [|exact R1|exact R2]; lia.
  - inversion SC; subst. cbn in ND. split_nd. cbn in L. cbn [app norm]. one IH HO a TI s1 y1 E1 R1 TI1. one IH HO b TI1 s2 y2 E2 R2 TI2.
    do 2 eexists. split; [reflexivity|]. cbn. eapply result_trans; [|exact R1|exact R2]; lia.
  - inversion SC; subst. cbn in ND. split_nd. cbn in L. cbn [app norm]. one IH HO a TI s1 y1 E1 R1 TI1. one IH HO b TI1 s2 y2 E2 R2 TI2.
    do 2 eexists. split; [reflexivity|]. cbn. eapply result_trans; [|exact R1|exact R2]; lia.
  - inversion SC as [| | | | | | | | |? ? ? ? SA SE| | | | |]; subst. rewrite Forall_forall in SE. cbn in ND. split_nd. cbn in L. cbn [app norm].
    one IH HO a TI s1 y1 E1 R1 TI1.
    destruct (norm_clauses_total cs) with (fuel := fuel) (s := s1) (m := m) (vs := vs) (fs := fs) as (s2 & ys & E2 & R2); [|lia| |exact TI1|].
    + intros c I. apply IH. pose proof (size_in (fun c => size (snd c)) _ c I). cbn in *. lia.
    + intros c n I K. eapply ok_under; [exact HO|apply SE, I| | |lia]; [eapply NoDup_flat_in in I; [|eassumption]; exact I|]. intros d D. cbn. apply in_or_app. right. eapply in_flat; eauto.
    + exists s2, (EMatch y1 ys). rewrite E2. split; [reflexivity|]. eapply result_trans; [|exact R1|eapply result_fuel; [|exact R2]; lia]. apply rt_mono. eapply norm_clauses_grows; [apply norm_grows|exact E2].
  - exists s, ENever. split; [reflexivity|apply result_refl].
  - destruct l as [|[[id t] x] l].
    + inversion SC; subst. cbn in L. cbn [app norm map norm_vars bind]. cbn in ND. one IH HO b TI s1 y1 E1 R1 TI1. do 2 eexists. split; [reflexivity|exact R1].
    + inversion SC as [| | | | | | | | | | | |? ? ? ? ? ? ? SX SB| |]; subst.
      assert (N1 : NoDup (id :: defs x ++ defs (ELetVar l b))) by (cbn in ND |- *; rewrite <- app_assoc in ND; exact ND).
      assert (I1 : forall d, In d (id :: defs x ++ defs (ELetVar l b)) -> In d (defs (ELetVar ((id, t, x) :: l) b))) by (intros d D; cbn in D |- *; rewrite <- app_assoc; exact D).
      inversion N1 as [|? ? NI N2]; subst. apply NoDup_app_inv in N2 as (NX & NB & _). cbn in L. fold (top (fun c : nat * ct * expr => height (snd c)) l) in L.
      destruct (ok_under N (next_rt s) m vs fs _ [id] (ELetVar l b) (next_rt s) HO) as [OB FB]; [exact SB| | |lia|].
      { constructor; [|exact NB]. intro J. apply NI, in_or_app. auto. }
      { intros d D. apply I1. destruct D as [<-|D]; [left; reflexivity|right; apply in_or_app; auto]. }
      inversion FB as [|? ? FI _]; subst.
      pose proof (typed_typed s id t m vs fs TI (proj1 FI)) as TI0.
      destruct (IH x ltac:(cbn; lia) fuel (typed id t s) m vs fs) as (s3 & x' & E3 & R3); [lia| |destruct TI0 as [A1 A2]; split; [intros u I; apply A1; right; exact I|exact A2]|].
      { eapply ok_sub; [exact HO|exact SX|exact NX| |cbn; lia]. intros d D. apply I1. right. apply in_or_app. auto. }
      pose proof (norm_grows _ _ _ _ _ E3) as G3. pose proof (rt_mono _ _ G3) as L3. cbn in L3.
      destruct (IH (ELetVar l b) ltac:(cbn; lia) (S fuel) s3 m (id :: vs) fs) as (s2 & z & E2 & R2); [cbn; lia|eapply ok_mono; [|exact OB]; lia|eapply typed_grows; eauto|].
      pose proof (norm_grows _ _ _ _ _ E2) as G2. pose proof (rt_mono _ _ G2) as L2.
      cbn [app norm] in E2. apply bind_ret in E2 as ([s4 l'] & E4 & E2). apply bind_ret in E2 as ([s5 b'] & E5 & E2). injection E2 as <- <-.
      exists s5, (ELetVar ((id, t, x') :: l') b'). split; [cbn [app norm map norm_vars fst snd]; rewrite E3; cbn [bind]; rewrite E4; cbn [bind]; rewrite E5; reflexivity|].
      cbn. rewrite <- Nat.add_assoc. apply (result_fuel fuel (S fuel)) in R3; [|lia]. eapply result_trans; [exact L2|exact (result_typed _ _ _ _ _ _ R3)|exact R2].
  - change (app m (ELetLocal l b)) with (ELetLocal (map (app_fun m) l) (app m b)). cbn [height] in L. cbn [norm].
    assert (EC : exists s2 x2, convert s (map (app_fun m) l) (app m b) = Ret (s2, x2)).
    { unfold convert. fold (vars_of m l). destruct (types_of_total (types s) (vars_of m l)) as [ps ->]; [|do 2 eexists; reflexivity].
      intros t I. destruct (vars_sources N (next_rt s) m vs fs l b HO t I) as [(u & Iu & ->)|(f & g & If & E)]; [apply (proj1 TI), Iu|eapply (proj2 TI); eauto]. }
    destruct EC as (s2 & x2 & EC). rewrite EC. cbn [bind].
    destruct (convert_spec s m vs fs l b s2 x2 EC) as (tys0 & LT & Es & Ex). cbv zeta in Es, Ex. set (c := capture_of m vs fs (next_rt s) (next_ct s) tys0 l) in *.
    assert (NS : next_rt s2 = next_of (next_rt s) (vars_of m l)) by (rewrite Es; reflexivity).
    pose proof (convert_grows _ _ _ _ _ EC) as GC. pose proof (rt_mono _ _ GC) as LC.
    assert (R1 : result (S fuel) s s2 (sum (fun f => S (nloc (snd f))) l)).
    { exists (combine (List.seq (next_ct s) (List.length l)) (map (lifted_fun m c) l)). split; [rewrite Es; reflexivity|]. split.
      - apply Forall_forall. intros [g f'] I. apply in_combine_r in I. apply in_map_iff in I as (f & <- & If). cbn [snd].
        destruct (fun_ok N (next_rt s) (next_ct s) m vs fs l b tys0 HO LT f (next_rt s2) If) as (FB & NE & OF); [rewrite NS; lia|rewrite NS; lia|]. fold c in FB, NE, OF.
        do 4 eexists. split; [reflexivity|]. split; [exact OF|]. split.
        + destruct (group_captures N (next_rt s) (next_ct s) m vs fs l b tys0 HO LT) as (L1 & L2 & _ & EN0 & _ & CV & CF & _). fold c in L1, L2, EN0, CV, CF.
          assert (NW : forall t, In t (vars c) -> In (renamed (vars c) (news c) t) (bound (lifted_fun m c f))).
          { intros t I. pose proof (renamed_in (vars c) (news c) t L1 I) as J. unfold bound. apply in_or_app. right. unfold lifted_fun, fun_env. cbn [f_env].
            destruct (en c) as [e|]; [|rewrite EN0 in I by reflexivity; destruct I]. right. cbn. rewrite map_fst_combine; [exact J|]. exact (eq_trans (eq_sym L1) L2). }
          rewrite Forall_forall in FB. split.
          * intros u I. apply in_app_or in I as [I|I]; [destruct (FB u I) as [-> _]; apply in_or_app; left; exact I|]. change (In (renamed (vars c) (news c) (sv m u)) (bound (lifted_fun m c f))). apply NW, CV, I.
          * intros f0 g0 e I E. pose proof (sf_inner (next_rt s) (next_ct s) m vs fs l tys0 f0) as SI. fold c in SI. rewrite SI in E. clear SI. apply in_app_or in I as [I|I].
            -- apply in_map_iff in I as (f1 & <- & If1). destruct (group_ids N (next_rt s) m vs fs l b HO f1 If1) as [S0 _]. rewrite S0 in E.
               destruct (assoc (fid f1) (lt c)); [|discriminate E]. assert (EE : en c = Some e) by congruence. unfold bound. apply in_or_app. right. unfold lifted_fun, fun_env. cbn [f_env]. rewrite EE. left. reflexivity.
            -- destruct (CF f0 I) as [If0 CF0]. destruct (sf m f0) as [[g1 [e1|]]|] eqn:S0; cbn in E.
               ++ injection E as <- <-. apply NW. eapply CF0. reflexivity.
               ++ discriminate E.
               ++ destruct (HF f0 If0) as (g2 & e2 & K & _). congruence.
        + pose proof (top_in (fun f => height (snd f)) l f If) as TL. cbn in TL. unfold param in *. lia.
      - unfold weight. clearbody c. clear - l. generalize (next_ct s). induction l as [|f l IHl]; intro n; [reflexivity|]. unfold sum in *. cbn [map List.length List.seq combine fold_right snd]. rewrite IHl. unfold lifted_fun at 1. cbn [f_body]. rewrite nloc_app. reflexivity. }
    assert (OB := body_ok N (next_rt s) (next_ct s) m vs fs l b tys0 HO LT). fold c in OB.
    assert (GB : forall s3, next_rt s3 = next_rt s2 -> pending s3 = pending s2 -> (forall id, In id (map fst (types s2)) -> In id (map fst (types s3))) -> (forall e, en c = Some e -> In e (map fst (types s3))) -> forall k, (height b <= k)%nat ->
      exists s' z, norm k s3 (app (for_body m (lt c) (en c)) b) = Ret (s', z) /\ (result k s2 s' (nloc b) /\ (next_rt s2 <= next_rt s')%nat)).
    { intros s3 Er Ep Et Ee k K. destruct (IH b ltac:(cbn; lia) k s3 (for_body m (lt c) (en c)) vs (map fid l ++ fs) K) as (s' & z & E & R).
      - rewrite Er, NS. exact OB.
      - split; [intros u I; apply Et; apply (typed_grows _ _ _ _ _ GC TI), I|]. intros f g e I E. pose proof (sf_body (next_rt s) (next_ct s) m vs fs l tys0 f) as SI. fold c in SI. rewrite SI in E. clear SI. destruct (sf m f) as [[g1 e1]|] eqn:S0.
        + injection E as <- ->. apply in_app_or in I as [I|I].
          * apply in_map_iff in I as (f1 & <- & If1). destruct (group_ids N (next_rt s) m vs fs l b HO f1 If1) as [S1 _]. congruence.
          * apply Et. eapply (proj2 (typed_grows _ _ _ _ _ GC TI)); eauto.
        + destruct (assoc f (lt c)); [|discriminate E]. apply Ee. congruence.
      - exists s', z. split; [exact E|]. split; [destruct R as (q & P & R); exists q; rewrite <- Ep; auto|]. pose proof (rt_mono _ _ (norm_grows _ _ _ _ _ E)). lia. }
    destruct (en c) as [e|] eqn:EN; rewrite Ex.
    + destruct (norm_let_var_total (height b) fuel s2 e c (app (for_body m (lt c) (Some e)) b) (fun k s' => result k s2 s' (nloc b) /\ (next_rt s2 <= next_rt s')%nat)) as (s' & y & E & R & LR); [| |lia|].
      * apply GB; [reflexivity|reflexivity|intros id I; right; exact I|]. intros e0 E0. injection E0 as <-. left. reflexivity.
      * intros k k' s' K [R LR]. split; [eapply result_fuel; eauto|exact LR].
      * exists s', y. split; [exact E|]. eapply result_trans; [exact LR|exact R1|eapply result_fuel; [|exact R]; lia].
    + destruct (GB s2 eq_refl eq_refl (fun _ I => I)) with (k := fuel) as (s' & y & E & R & LR); [discriminate|lia|].
      exists s', y. split; [exact E|]. eapply result_trans; [exact LR|exact R1|eapply result_fuel; [|exact R]; lia].
  - destruct l as [|[[id ps] x] l].
    + inversion SC; subst. cbn in L. cbn [app norm map norm_conts bind]. cbn in ND. one IH HO b TI s1 y1 E1 R1 TI1. do 2 eexists. split; [reflexivity|exact R1].
    + inversion SC as [| | | | | | | | | | | | | |? ? ? ? SK SB]; subst. inversion SK as [|? ? SX SL]; subst. cbn [fst snd] in SX.
      pose proof (rt_mono _ _ (grows_params ps s)) as L0.
      assert (N1 : NoDup ((map fst ps ++ defs x) ++ defs (ELetCont l b))) by (cbn in ND |- *; rewrite <- app_assoc in ND; exact ND).
      assert (I1 : forall d, In d ((map fst ps ++ defs x) ++ defs (ELetCont l b)) -> In d (defs (ELetCont ((id, ps, x) :: l) b))) by (intros d D; cbn in D |- *; rewrite <- app_assoc; exact D).
      apply NoDup_app_inv in N1 as (NX & NB & _). cbn in L. fold (top (fun c : nat * list param * expr => height (snd c)) l) in L.
      destruct (ok_under N (next_rt s) m vs fs _ (map fst ps) x (next_rt (typed_params ps s)) HO SX NX) as [OX FX]; [|lia|].
      { intros d D. apply I1, in_or_app. auto. }
      destruct (IH x ltac:(cbn; lia) fuel (typed_params ps s) m (map fst ps ++ vs) fs) as (s3 & x' & E3 & R3); [lia|exact OX|apply typed_params_in; [exact TI|]; eapply Forall_impl; [|exact FX]; intros d D; apply D|].
      pose proof (norm_grows _ _ _ _ _ E3) as G3. pose proof (rt_mono _ _ G3) as L3.
      destruct (IH (ELetCont l b) ltac:(cbn; lia) (S fuel) s3 m vs fs) as (s2 & z & E2 & R2); [cbn; lia| |eapply typed_grows; [exact (grows_trans _ _ _ (grows_params ps s) G3)|exact TI]|].
      { eapply ok_sub; [exact HO|constructor; assumption|exact NB| |lia]. intros d D. apply I1, in_or_app. auto. }
      pose proof (norm_grows _ _ _ _ _ E2) as G2. pose proof (rt_mono _ _ G2) as L2.
      cbn [app norm] in E2. apply bind_ret in E2 as ([s4 l'] & E4 & E2). apply bind_ret in E2 as ([s5 b'] & E5 & E2). injection E2 as <- <-.
      exists s5, (ELetCont ((id, ps, x') :: l') b'). split; [cbn [app norm map norm_conts fst snd]; rewrite E3; cbn [bind]; rewrite E4; cbn [bind]; rewrite E5; reflexivity|].
      cbn. rewrite <- Nat.add_assoc. apply (result_fuel fuel (S fuel)) in R3; [|lia]. eapply result_trans; [exact L2|exact (result_params _ _ _ _ _ R3)|exact R2].
Qed.

Definition start (s : state) (f : function) : state :=
  let s := State (next_rt s) (next_ct s) (pending s) [] in
  let s := match f_env f with Some (id, ps) => typed_params ps (typed id CtEnv s) | None => s end in typed_params (f_params f) s.
Lemma next_rt_params : forall ps s, next_rt (typed_params ps s) = next_rt s.
Proof. unfold typed_params. induction ps as [|p ps IH]; intro s; [reflexivity|]. cbn. rewrite IH. reflexivity. Qed.
Lemma next_ct_params : forall ps s, next_ct (typed_params ps s) = next_ct s.
Proof. unfold typed_params. induction ps as [|p ps IH]; intro s; [reflexivity|]. cbn. rewrite IH. reflexivity. Qed.
Lemma start_rt : forall s f, next_rt (start s f) = next_rt s.
Proof. intros s f. unfold start. rewrite next_rt_params. destruct (f_env f) as [[id ps]|]; [rewrite next_rt_params|]; reflexivity. Qed.
Lemma start_ct : forall s f, next_ct (start s f) = next_ct s.
Proof. intros s f. unfold start. rewrite next_ct_params. destruct (f_env f) as [[id ps]|]; [rewrite next_ct_params|]; reflexivity. Qed.
Lemma start_pending : forall s f, pending (start s f) = pending s.
Proof. intros s f. unfold start. rewrite pending_typed_params. destruct (f_env f) as [[id ps]|]; [rewrite pending_typed_params|]; reflexivity. Qed.
Lemma start_types : forall s f id, In id (bound f) -> In id (map fst (types (start s f))).
Proof.
  intros s f id I. unfold start, bound in *. apply types_params. apply in_app_or in I as [I|I]; [left; exact I|right].
  destruct (f_env f) as [[e ps]|]; [|destruct I]. apply types_params. destruct I as [<-|I]; [right; left; reflexivity|left; exact I].
Qed.

Lemma function_total : forall fuel s f, ready (next_rt s) fuel f -> exists s' f', norm_function fuel s f = Ret (s', f') /\ result fuel s s' (nloc (f_body f)) /\ (next_rt s <= next_rt s')%nat.
Proof.
  intros fuel s f (m & vs & fs & x & EB & HO & TI & H).
  destruct (total x fuel (start s f) m vs fs H) as (s' & y & E & R).
  - rewrite start_rt. exact HO.
  - destruct TI as [A1 A2]. split; [intros u I; apply start_types, A1, I|]. intros f0 g e I K. apply start_types. eapply A2; eauto.
  - exists s', (Function (f_env f) (f_params f) (f_ret f) y). unfold norm_function. fold (start s f). rewrite EB, E. split; [reflexivity|]. rewrite nloc_app. split.
    + destruct R as (l & P & R). exists l. rewrite start_pending in P. auto.
    + pose proof (rt_mono _ _ (norm_grows _ _ _ _ _ E)) as L. rewrite start_rt in L. exact L.
Qed.

Lemma drain_total : forall fuel rounds s done, (weight (pending s) <= rounds)%nat -> Forall (fun p => ready (next_rt s) fuel (snd p)) (pending s) ->
  exists out, drain rounds fuel s done = Ret out.
Proof.
  intros fuel. induction rounds as [|rounds IH]; intros s done W R.
  - cbn. destruct (pending s) as [|[id f] rest]; [eexists; reflexivity|]. unfold weight, sum in W. cbn in W. lia.
  - cbn [drain]. destruct (pending s) as [|[id f] rest] eqn:EP; [eexists; reflexivity|]. inversion R as [|? ? RF RR]; subst. cbn in RF.
    destruct (function_total fuel (State (next_rt s) (next_ct s) rest (types s)) f RF) as (s' & f' & E & (l & P & RL & WL) & LR). rewrite E. cbn [bind]. cbn in P, LR. apply IH.
    + assert (W1 : weight ((id, f) :: rest) = (S (nloc (f_body f)) + weight rest)%nat) by reflexivity. rewrite P. unfold weight in *. rewrite sum_app, WL. lia.
    + rewrite P. apply Forall_app. split; [|exact RL]. eapply Forall_impl; [|exact RR]. intros p. apply ready_mono; lia.
Qed.
End Total.

Lemma well_formed_ok : forall n f, well_formed n f -> ok n n unchanged (bound f) [] (f_body f).
Proof.
  intros n f (SC & ND & LT). apply NoDup_app_inv in ND as (_ & ND & DJ). rewrite Forall_forall in LT. constructor; [exact SC|exact ND| | | |lia].
  - intros d D. split; [|split; [reflexivity|apply LT, in_or_app; auto]]. split; [reflexivity|]. split; [intros []|]. split; [intros u I E; cbn in E; subst; exact (DJ _ I D)|intros f0 g e []].
  - intros u I. apply LT, in_or_app. auto.
  - intros f0 [].
Qed.

Lemma normalize_total : forall n k fs, Forall (fun p => well_formed n (snd p)) fs ->
  exists limit, forall rounds fuel, (limit <= rounds)%nat -> (limit <= fuel)%nat -> exists out, normalize rounds fuel n k fs = Ret out.
Proof.
  intros n k fs WF. exists (Nat.max (weight fs) (top (fun p => height (f_body (snd p))) fs)). intros rounds fuel L1 L2. unfold normalize.
  apply (drain_total n); [change (weight fs <= rounds)%nat; lia|]. cbn. apply Forall_forall. intros p I. rewrite Forall_forall in WF. specialize (WF p I).
  exists unchanged, (bound (snd p)), [], (f_body (snd p)). split; [symmetry; apply app_unchanged|]. split; [apply well_formed_ok, WF|].
  split; [split; [intros u J; exact J|intros f0 g e []]|]. pose proof (top_in (fun p => height (f_body (snd p))) fs p I). lia.
Qed.
