(** * Related programs do the same *)
From Verif.Base Require Import Base.
From Verif.Ir Require Import Model.
From Verif.Closure Require Import Model Spec Rel.

Scheme ev_ind2 := Induction for ev Sort Prop with evs_ind2 := Induction for evs Sort Prop.
Combined Scheme ev_evs_ind from ev_ind2, evs_ind2.

(** ** Association lists *)
Lemma assoc_app : forall {A} id (a b : list (nat * A)), assoc id (a ++ b) = match assoc id a with Some x => Some x | None => assoc id b end.
Proof. intros A id a b. induction a as [|[k x] a IH]; [reflexivity|]. cbn. destruct (id =? k)%nat; [reflexivity|apply IH]. Qed.

Lemma assoc_none : forall {A} id (l : list (nat * A)), ~ In id (map fst l) -> assoc id l = None.
Proof.
  intros A id l. induction l as [|[k x] l IH]; intro H; [reflexivity|]. cbn in *. destruct (Nat.eqb_spec id k) as [->|N]; [tauto|apply IH; tauto].
Qed.

Lemma assoc_in_keys : forall {A} id (l : list (nat * A)) x, assoc id l = Some x -> In id (map fst l).
Proof.
  intros A id l x. induction l as [|[k y] l IH]; intro H; [discriminate H|]. cbn in *. destruct (Nat.eqb_spec id k) as [->|N]; [left; reflexivity|right; apply IH, H].
Qed.

Lemma assoc_some : forall {A} id (l : list (nat * A)), In id (map fst l) -> exists x, assoc id l = Some x.
Proof.
  intros A id l. induction l as [|[k x] l IH]; intro H; [destruct H|]. cbn in *. destruct (Nat.eqb_spec id k) as [->|N]; [eexists; reflexivity|].
  apply IH. destruct H as [H|H]; [congruence|exact H].
Qed.

Lemma map_fst_combine : forall {A B} (a : list A) (b : list B), List.length a = List.length b -> map fst (combine a b) = a.
Proof. induction a as [|x a IH]; intros [|y b] H; cbn in *; try discriminate H; [reflexivity|]. rewrite IH; [reflexivity|lia]. Qed.

Lemma keys_combine : forall (ps : list param) (vs : list value), List.length ps = List.length vs -> map fst (combine (map fst ps) vs) = map fst ps.
Proof. intros ps vs H. apply map_fst_combine. rewrite map_length. exact H. Qed.

Lemma map_snd_combine : forall {A B} (a : list A) (b : list B), List.length a = List.length b -> map snd (combine a b) = b.
Proof. induction a as [|x a IH]; intros [|y b] H; cbn in *; try discriminate H; [reflexivity|]. rewrite IH; [reflexivity|lia]. Qed.

Lemma Forall2_len : forall {A B} (R : A -> B -> Prop) a b, Forall2 R a b -> List.length a = List.length b.
Proof. intros A B R a b H. induction H; cbn; lia. Qed.

(** The same ids on both sides. *)
Lemma assoc_related : forall (V : value -> value -> Prop) ids vs ws, Forall2 V vs ws -> List.length ids = List.length vs ->
  forall id, In id ids -> exists v w, assoc id (combine ids vs) = Some v /\ assoc id (combine ids ws) = Some w /\ V v w.
Proof.
  intros V ids. induction ids as [|k ids IH]; intros vs ws H L id I; [destruct I|]. destruct H as [|v w vs ws HV H]; [discriminate L|].
  cbn in *. destruct (Nat.eqb_spec id k) as [->|N]; [exists v, w; auto|]. apply IH; [exact H|lia|destruct I; [congruence|assumption]].
Qed.

Section Sim.
Variable prim : strict -> heap -> list value -> option (heap * res).
Variable equals : const -> value -> option bool.
Hypothesis Hprim : prims_opaque prim.
Hypothesis Heq : equals_opaque equals.
Variable FS F : nat -> option function.

Notation C := (crel F).
Notation V := (alike (crel F)).

Definition fun_conv (f f' : function) : Prop :=
  f_env f' = f_env f /\ f_params f' = f_params f /\ conv F unchanged (bound f) [] (f_body f) (f_body f').
Hypothesis Hfuns : forall g f, FS g = Some f -> exists f', F g = Some f' /\ fun_conv f f'.

Lemma C_functions : forall v v', C v v' -> is_function v /\ is_function v'.
Proof. intros v v' H. destruct H; cbn; auto. Qed.

Definition fhead (v : value) : bool := match v with VFun _ _ | VLocal _ _ _ => true | _ => false end.
Lemma V_inv : forall v w, V v w -> match v with
  | VAtom a => w = VAtom a
  | VPtr a => w = VPtr a
  | VData i vs => exists ws, w = VData i ws /\ Forall2 V vs ws
  | VStruct t vs => exists ws, w = VStruct t ws /\ Forall2 V vs ws
  | VSyntax v => exists x, w = VSyntax x /\ V v x
  | VEnv vs => exists ws, w = VEnv ws /\ Forall2 V vs ws
  | VFun _ _ | VLocal _ _ _ => C v w
  end.
Proof.
  intros v w H. inversion H; subst; eauto. 
  match goal with H : crel F v w |- _ => pose proof (C_functions _ _ H) as [K _] end. destruct v; cbn in K; try contradiction; assumption.
Qed.

(** ** Environments *)
Lemma env_rel_extend : forall m vs fs e e' ids bs bs', env_rel V m vs fs e (lookup e') ->
  Forall (fresh m vs fs) ids -> map fst bs = ids -> map fst bs' = ids ->
  (forall id, In id ids -> exists v w, assoc id bs = Some v /\ assoc id bs' = Some w /\ V v w) ->
  env_rel V m (ids ++ vs) fs (bs ++ e) (lookup (bs' ++ e')).
Proof.
  intros m vs fs e e' ids bs bs' [H1 H2] HF E E' HB. rewrite Forall_forall in HF. unfold env_rel, lookup in *. split.
  - intros u Hu. rewrite !assoc_app. destruct (in_dec Nat.eq_dec u ids) as [I|I].
    + destruct (HF u I) as [S _]. rewrite S. destruct (HB u I) as (v & w & -> & -> & R). eauto.
    + apply in_app_or in Hu as [?|Hu]; [contradiction|]. rewrite (assoc_none u bs) by (rewrite E; exact I).
      rewrite (assoc_none (sv m u) bs'); [apply H1, Hu|]. rewrite E'. intro K. destruct (HF _ K) as (_ & _ & N & _). exact (N u Hu eq_refl).
  - intros f Hf. destruct (H2 f Hf) as (v & g & en & w & L & S & K & R). exists v, g, en, w. rewrite assoc_app.
    rewrite (assoc_none f bs). 2:{ rewrite E. intro I. destruct (HF _ I) as (_ & N & _). exact (N Hf). }
    split; [exact L|]. split; [exact S|]. split; [|exact R]. unfold closure_of in *. destruct en as [en0|]; [|exact K].
    rewrite assoc_app, (assoc_none en0 bs'); [exact K|]. rewrite E'. intro I. destruct (HF _ I) as (_ & _ & _ & N). exact (N f g en0 Hf S eq_refl).
Qed.

Lemma env_rel_extend1 : forall m vs fs e e' id v w, env_rel V m vs fs e (lookup e') -> fresh m vs fs id -> V v w ->
  env_rel V m (id :: vs) fs ((id, v) :: e) (lookup ((id, w) :: e')).
Proof.
  intros m vs fs e e' id v w H K R. apply (env_rel_extend m vs fs e e' [id] [(id, v)] [(id, w)] H); [constructor; auto|reflexivity|reflexivity|].
  intros i [<-|[]]. exists v, w. cbn. rewrite Nat.eqb_refl. auto.
Qed.

Lemma env_rel_combine : forall m vs fs e e' ids xs ys, env_rel V m vs fs e (lookup e') -> Forall (fresh m vs fs) ids -> Forall2 V xs ys ->
  List.length ids = List.length xs -> env_rel V m (ids ++ vs) fs (combine ids xs ++ e) (lookup (combine ids ys ++ e')).
Proof.
  intros m vs fs e e' ids xs ys H K R L. apply env_rel_extend; auto.
  - apply map_fst_combine, L.
  - apply map_fst_combine. apply Forall2_len in R. lia.
  - apply assoc_related; assumption.
Qed.

(** ** Patterns *)
Definition binds_rel (bs bs' : list (nat * value)) : Prop := Forall2 (fun b b' => fst b = fst b' /\ V (snd b) (snd b')) bs bs'.
Definition matched_rel (a b : matched) (ids : list nat) : Prop :=
  match a with
  | MYes bs => exists bs', b = MYes bs' /\ binds_rel bs bs' /\ map fst bs = ids
  | MNo => b = MNo
  | MUndefined => True
  end.

Lemma load_rel : forall h h' a v, Forall2 (alike_cell C) h h' -> load h a = Some v -> exists w, load h' a = Some w /\ V v w.
Proof.
  intros h h' a v H. revert a. unfold load. induction H as [|c c' h h' HC H IH]; intros a L; [destruct a; discriminate L|].
  destruct a as [|a]; cbn in *; [|apply IH, L]. destruct HC as [|x y HV]; [discriminate L|]. injection L as <-. eauto.
Qed.

Section PatInd.
Variable P : rtpat -> Prop.
Hypothesis Hall : forall p, (match p with
  | PVar _ _ (Some q) | PDeref q | PNonNull q | PReinterpret _ q | PSyntax q => P q
  | PData _ _ ps | PStruct _ ps => Forall P ps
  | _ => True end) -> P p.
Fixpoint pat_ind (p : rtpat) : P p.
Proof.
  apply Hall. destruct p as [id t [q|]|t|q|q|q|t i ps|t ps|t q|q|c]; try exact I; try apply pat_ind.
  - induction ps as [|q ps IH]; constructor; [apply pat_ind|exact IH].
  - induction ps as [|q ps IH]; constructor; [apply pat_ind|exact IH].
Qed.
End PatInd.

Lemma pmatch_rel : forall h h' p, Forall2 (alike_cell C) h h' -> forall v w, V v w ->
  matched_rel (pmatch equals h p v) (pmatch equals h' p w) (pat_defs p).
Proof.
  intros h h' p HH. 
  assert (HF : forall ps, Forall (fun p => forall v w, V v w -> matched_rel (pmatch equals h p v) (pmatch equals h' p w) (pat_defs p)) ps ->
     forall vs ws, Forall2 V vs ws -> matched_rel (pmatch_fields (pmatch equals h) ps vs) (pmatch_fields (pmatch equals h') ps ws) (flat_map pat_defs ps)).
  { intros ps K. induction K as [|p0 ps Kp K IH]; intros vs ws R; [cbn; exists []; repeat split; constructor|].
    destruct R as [|v w vs ws RV R]; [exact I|]. cbn. specialize (Kp v w RV). specialize (IH vs ws R). 
    destruct (pmatch equals h p0 v) as [b| |]; cbn in *; [|rewrite Kp; reflexivity|exact I].
    destruct Kp as (b' & -> & B & M). cbn. destruct (pmatch_fields (pmatch equals h) ps vs) as [bs| |]; cbn in *; [|rewrite IH; reflexivity|exact I].
    destruct IH as (bs' & -> & BS & MS). cbn. exists (b' ++ bs'). split; [reflexivity|]. split; [apply Forall2_app; assumption|]. rewrite map_app, M, MS. reflexivity. }
  induction p as [p IHp] using pat_ind. intros v w R.
  destruct p as [id t [q|]|t|q|q|q|t i ps|t ps|t q|q|c]; cbn in *.
  - specialize (IHp v w R). destruct (pmatch equals h q v) as [b| |]; cbn in *; [|rewrite IHp; reflexivity|exact I].
    destruct IHp as (b' & -> & B & M). cbn. eexists. split; [reflexivity|]. split; [constructor; [split; [reflexivity|exact R]|exact B]|]. cbn. rewrite M. reflexivity.
  - eexists. split; [reflexivity|]. split; [constructor; [split; [reflexivity|exact R]|constructor]|reflexivity].
  - eexists. split; [reflexivity|]. split; [constructor|reflexivity].
  - apply V_inv in R. destruct v; try exact I. subst w. destruct (load h a) as [x|] eqn:L; [|exact I].
    destruct (load_rel h h' a x HH L) as (y & -> & R). apply IHp, R.
  - apply V_inv in R. destruct v as [[]| | | | | | |]; try exact I; subst w; [reflexivity|]. destruct (load h a) as [x|] eqn:L; [|exact I].
    destruct (load_rel h h' a x HH L) as (y & -> & R). apply IHp, R.
  - apply V_inv in R. destruct v as [[]| | | | | | |]; try exact I; subst w; [|reflexivity]. eexists. split; [reflexivity|]. split; [constructor|reflexivity].
  - apply V_inv in R. destruct v; try exact I. destruct R as (ws & -> & R). destruct (i =? i0)%nat; [|reflexivity]. apply HF; assumption.
  - apply V_inv in R. destruct v; try exact I. destruct R as (ws & -> & R). apply HF; assumption.
  - exact I.
  - apply V_inv in R. destruct v; try exact I. destruct R as (x & -> & R). apply IHp, R.
  - destruct (equals c v) as [b|] eqn:E; [|exact I]. rewrite (Heq C C_functions c v w b R E). destruct b; [|reflexivity].
    eexists. split; [reflexivity|]. split; [constructor|reflexivity].
Qed.

Lemma first_match_rel : forall h h' v w, Forall2 (alike_cell C) h h' -> V v w -> forall (K : rtpat * expr -> rtpat * expr -> Prop) cs cs',
  Forall2 K cs cs' -> (forall c c', K c c' -> fst c = fst c') -> forall b x, first_match equals h v cs = Some (b, x) ->
  exists b' x' p, first_match equals h' w cs' = Some (b', x') /\ binds_rel b b' /\ map fst b = pat_defs p /\ K (p, x) (p, x').
Proof.
  intros h h' v w HH R K cs cs' HK HP b x. induction HK as [|[p y] [p' y'] cs cs' Kc HK IH]; intro E; [discriminate E|].
  pose proof (HP _ _ Kc) as EP. cbn in EP. subst p'. cbn in *.
  pose proof (pmatch_rel h h' p HH v w R) as M. destruct (pmatch equals h p v) as [bs| |]; cbn in M; [|rewrite M; apply IH, E|discriminate E].
  destruct M as (bs' & -> & B & ME). injection E as <- <-. exists bs', y', p. auto.
Qed.

Lemma binds_rel_keys : forall bs bs', binds_rel bs bs' -> map fst bs = map fst bs'.
Proof. intros bs bs' H. induction H as [|b b' bs bs' [E _] H IH]; [reflexivity|]. cbn. congruence. Qed.

Lemma binds_rel_assoc : forall bs bs', binds_rel bs bs' -> forall id, In id (map fst bs) ->
  exists v w, assoc id bs = Some v /\ assoc id bs' = Some w /\ V v w.
Proof.
  intros bs bs' H. induction H as [|[k v] [k' v'] bs bs' [E R] H IH]; intros id I; [destruct I|]. cbn in *. subst k'.
  destruct (Nat.eqb_spec id k) as [->|N]; [eauto|]. apply IH. destruct I; [congruence|assumption].
Qed.

(** ** Operations *)
Lemma perform_rel : forall o h h' vs vs' h1 r, Forall2 (alike_cell C) h h' -> Forall2 V vs vs' -> perform prim o h vs = Some (h1, r) ->
  exists h1' r', perform prim o h' vs' = Some (h1', r') /\ Forall2 (alike_cell C) h1 h1' /\ alike_res C r r'.
Proof.
  intros o h h' vs vs' h1 r HH HV E.
  assert (G : prim o h vs = Some (h1, r) -> exists h1' r', prim o h' vs' = Some (h1', r') /\ Forall2 (alike_cell C) h1 h1' /\ alike_res C r r')
   by (apply Hprim; [exact C_functions|exact HH|exact HV]).
  destruct o; try (apply G, E); cbn in *.
  - injection E as <- <-. do 2 eexists. split; [reflexivity|]. split; [exact HH|]. constructor. apply alike_env, HV.
  - destruct HV as [|v v' vs vs' RV HV]; [discriminate E|]. destruct HV; [|discriminate E]. injection E as <- <-. do 2 eexists. split; [reflexivity|]. split; [exact HH|]. constructor. exact RV.
  - injection E as <- <-. do 2 eexists. split; [reflexivity|]. split; [exact HH|]. constructor. exact HV.
  - destruct HV as [|v v' vs vs' RV HV].
    + injection E as <- <-. do 2 eexists. split; [reflexivity|]. split; [exact HH|]. constructor. apply alike_fun, crel_static.
    + destruct HV; [|discriminate E]. injection E as <- <-. do 2 eexists. split; [reflexivity|]. split; [exact HH|]. constructor. apply alike_fun, crel_static_env, RV.
Qed.

(** ** Local functions *)
Lemma assoc_renamed : forall (vs ns : list nat) (ws : list value), List.length vs = List.length ns -> List.length vs = List.length ws -> NoDup ns ->
  forall t w, assoc t (combine vs ws) = Some w -> In (renamed vs ns t) ns /\ assoc (renamed vs ns t) (combine ns ws) = Some w.
Proof.
  unfold renamed. induction vs as [|v vs IH]; intros [|n ns] [|x ws] L1 L2 ND t w E; cbn in *; try discriminate; try lia.
  destruct (Nat.eqb_spec t v) as [->|N].
  - rewrite Nat.eqb_refl. auto.
  - inversion ND as [|? ? NI ND']; subst. destruct (IH ns ws ltac:(lia) ltac:(lia) ND' t w E) as [I A].
    split; [right; exact I|]. destruct (Nat.eqb_spec (match assoc t (combine vs ns) with Some n => n | None => t end) n) as [EQ|_]; [|exact A].
    exfalso. apply NI. rewrite <- EQ. exact I.
Qed.

Lemma group_lookup : forall l (e : env) u, assoc u (group l e ++ e) = if in_dec Nat.eq_dec u (map fid l) then Some (VLocal l u e) else assoc u e.
Proof.
  intros l e u. rewrite assoc_app.
  assert (H : forall l0 l, assoc u (map (fun f => (fid f, VLocal l0 (fid f) e)) l) = if in_dec Nat.eq_dec u (map fid l) then Some (VLocal l0 u e) else None).
  { intros l0 l1. induction l1 as [|f l1 IH]; [reflexivity|]. cbn [map assoc].
    destruct (in_dec Nat.eq_dec u (fid f :: map fid l1)) as [J|J], (Nat.eqb_spec u (fid f)) as [->|N]; try reflexivity.
    - rewrite IH. destruct (in_dec Nat.eq_dec u (map fid l1)) as [I|I]; [reflexivity|]. destruct J as [J|J]; [congruence|contradiction].
    - exfalso. apply J. left. reflexivity.
    - rewrite IH. destruct (in_dec Nat.eq_dec u (map fid l1)) as [I|I]; [|reflexivity]. exfalso. apply J. right. exact I. }
  unfold group. change (map (fun f => (fst (fst (fst f)), VLocal l (fst (fst (fst f))) e)) l) with (map (fun f => (fid f, VLocal l (fid f) e)) l).
  rewrite H. destruct (in_dec Nat.eq_dec u (map fid l)); reflexivity.
Qed.

Definition cenv_of (c : capture) (ws : list value) : option value := match en c with Some _ => Some (VEnv ws) | None => None end.

Lemma local_related : forall m vs fs c l e ws id, group_conv F (conv F) m vs fs c l -> List.length ws = List.length (vars c) ->
  env_rel V m (vs1 c) (fs1 c) e (fun t => assoc t (combine (vars c) ws)) -> In id (map fid l) ->
  exists g, assoc id (lt c) = Some g /\ V (VLocal l id e) (VFun g (cenv_of c ws)).
Proof.
  intros m vs fs c l e ws id G L R I. pose proof G as (_ & _ & HF). rewrite Forall_forall in HF.
  apply in_map_iff in I as (f & <- & I). destruct (HF f I) as (g & y & A & _). exists g. split; [exact A|].
  apply alike_fun. eapply crel_local; eauto. apply in_map, I.
Qed.

Lemma entered_local_rel : forall m vs fs c l e ws id ps ret body args args', group_conv F (conv F) m vs fs c l -> List.length ws = List.length (vars c) ->
  env_rel V m (vs1 c) (fs1 c) e (fun t => assoc t (combine (vars c) ws)) -> In (id, ps, ret, body) l -> List.length ps = List.length args -> Forall2 V args args' ->
  forall g, assoc id (lt c) = Some g ->
  exists e' f' m' vs' fs', F g = Some f' /\ callee f' (cenv_of c ws) args' = Some e' /\
    env_rel V m' vs' fs' (combine (map fst ps) args ++ group l e ++ e) (lookup e') /\ conv F m' vs' fs' body (f_body f').
Proof.
  intros m vs fs c l e ws id ps ret body args args' G L R I LP RA g A.
  pose proof G as (HC & HD & HF). rewrite Forall_forall in HF. destruct (HF _ I) as (g' & y & A' & FG & FR & EN & CV). clear HF.
  unfold fid, fparams, fret in A', FG, FR, EN, CV. cbn [fst snd] in A', FG, FR, EN, CV. rewrite A in A'. injection A' as <-.
  destruct HC as (L1 & L2 & ND & EN0 & EN1 & HV & HF & _).
  set (m' := for_funs m (lt c) (vars c) (news c) (en c)) in *.
  set (base := match en c with Some i => (i, VEnv ws) :: combine (news c) ws | None => [] end).
  assert (LA : List.length args = List.length args') by (eapply Forall2_len; eauto).
  exists (combine (map fst ps) args' ++ base), (Function (fun_env (en c) (news c) (tys c)) ps ret y), m', (map fst ps ++ vs1 c), (map fid l ++ fs1 c).
  split; [exact FG|]. split.
  { unfold callee, cenv_of, fun_env, base. cbn [f_params f_env]. rewrite (proj2 (Nat.eqb_eq (List.length ps) (List.length args'))) by lia.
    destruct (en c) as [i|]; cbn [option_map]; [|rewrite app_nil_r; reflexivity].
    match goal with |- context [Nat.eqb ?a ?b] => destruct (Nat.eqb_spec a b) as [_|N] end; [|exfalso; apply N; etransitivity; [apply combine_length|lia]].
    do 4 f_equal. apply map_fst_combine. lia. }
  split; [|exact CV].
  assert (LK : forall t w, assoc t (combine (vars c) ws) = Some w -> lookup base (renamed (vars c) (news c) t) = Some w).
  { intros t w E. destruct (assoc_renamed (vars c) (news c) ws L1 ltac:(lia) ND t w E) as [J K]. unfold base, lookup.
    destruct (en c) as [i|] eqn:EC.
    - cbn. destruct (Nat.eqb_spec (renamed (vars c) (news c) t) i) as [EQ|_]; [|exact K]. exfalso. destruct (EN1 i eq_refl) as [NI _]. apply NI. rewrite <- EQ. exact J.
    - rewrite (EN0 eq_refl) in E. discriminate E. }
  apply env_rel_combine; [|exact FR|exact RA|rewrite map_length; exact LP].
  destruct R as [R1 R2]. split.
  - intros u Hu. destruct (HV u Hu) as [Iu Jv]. destruct (R1 u Hu) as (v & w & E1 & E2 & RV). exists v, w. unfold lookup at 1. rewrite group_lookup.
    destruct (in_dec Nat.eq_dec u (map fid l)) as [K|K].
    { exfalso. apply in_map_iff in K as (f & <- & K). destruct (HD f K) as (_ & N & _). exact (N Iu). }
    split; [exact E1|]. split; [apply LK, E2|exact RV].
  - intros f Hf. unfold lookup at 1. setoid_rewrite group_lookup. destruct (in_dec Nat.eq_dec f (map fid l)) as [K|K].
    + destruct (local_related m vs fs c l e ws f G L (conj R1 R2) K) as (h & AH & RH).
      assert (SN : sf m f = None) by (apply in_map_iff in K as (x & <- & K); exact (proj1 (HD x K))).
      exists (VLocal l f e), h, (en c), (VFun h (cenv_of c ws)). split; [reflexivity|]. split; [|split; [|exact RH]].
      * cbn. rewrite SN, AH. reflexivity.
      * unfold cenv_of, closure_of, base, lookup. destruct (en c) as [i|]; [|reflexivity]. cbn. rewrite Nat.eqb_refl. reflexivity.
    + apply in_app_or in Hf as [?|Hf]; [contradiction|]. destruct (R2 f Hf) as (v & h & i & w & E1 & E2 & E3 & RV).
      exists v, h, (option_map (renamed (vars c) (news c)) i), w. split; [exact E1|]. split; [cbn; rewrite E2; reflexivity|]. split; [|exact RV].
      unfold closure_of in *. destruct i as [i|]; [|exact E3]. cbn. destruct (assoc i (combine (vars c) ws)) as [x|] eqn:EI; [|discriminate E3].
      rewrite (LK i x EI). exact E3.
Qed.

Lemma captured_values : forall m vs fs c l e e', group_conv F (conv F) m vs fs c l -> env_rel V m vs fs e (lookup e') ->
  exists ws, Forall2 (fun t w => lookup e' t = Some w) (vars c) ws.
Proof.
  intros m vs fs c l e e' ((_ & _ & _ & _ & _ & _ & _ & HT) & _) [R1 R2].
  assert (H : forall t, In t (vars c) -> exists w, lookup e' t = Some w).
  { intros t I. destruct (HT t I) as [(u & Iu & ->)|(f & g & If & SF)].
    - destruct (R1 u Iu) as (v & w & _ & E & _). eauto.
    - destruct (R2 f If) as (v & h & i & w & _ & SF' & E & _). rewrite SF in SF'. injection SF' as <- <-. cbn in E. destruct (lookup e' t) as [x|]; [eauto|discriminate E]. }
  clear HT. induction (vars c) as [|t ts IH]; [exists []; constructor|]. destruct (H t (or_introl eq_refl)) as [w E].
  destruct IH as [ws K]; [intros x I; apply H; right; exact I|]. exists (w :: ws). constructor; assumption.
Qed.

Lemma captured_assoc : forall (e' : env) ts ws, Forall2 (fun t w => lookup e' t = Some w) ts ws ->
  forall t, In t ts -> assoc t (combine ts ws) = lookup e' t.
Proof.
  intros e' ts ws H. induction H as [|t w ts ws E H IH]; intros x I; [destruct I|]. cbn. destruct (Nat.eqb_spec x t) as [->|N]; [symmetry; exact E|].
  apply IH. destruct I; [congruence|assumption].
Qed.

Lemma body_related : forall m vs fs c l e e' ws, group_conv F (conv F) m vs fs c l -> env_rel V m vs fs e (lookup e') ->
  Forall2 (fun t w => lookup e' t = Some w) (vars c) ws ->
  env_rel V (for_body m (lt c) (en c)) vs (map fid l ++ fs) (group l e ++ e)
    (lookup (match en c with Some i => (i, VEnv ws) :: e' | None => e' end)).
Proof.
  intros m vs fs c l e e' ws G R W. pose proof G as (HC & HD & _). destruct HC as (L1 & L2 & ND & EN0 & EN1 & HV & HF & _).
  pose proof (captured_assoc e' _ _ W) as CA.
  assert (LW : List.length ws = List.length (vars c)) by (symmetry; eapply Forall2_len; eauto).
  destruct R as [R1 R2].
  assert (RL : env_rel V m (vs1 c) (fs1 c) e (fun t => assoc t (combine (vars c) ws))).
  { split.
    - intros u I. destruct (HV u I) as [Iu Jv]. destruct (R1 u Iu) as (v & w & E1 & E2 & RV). exists v, w. rewrite CA by exact Jv. auto.
    - intros f I. destruct (HF f I) as [If Je]. destruct (R2 f If) as (v & g & i & w & E1 & E2 & E3 & RV). exists v, g, i, w.
      split; [exact E1|]. split; [exact E2|]. split; [|exact RV]. unfold closure_of in *. destruct i as [i|]; [|exact E3]. rewrite CA by (eapply Je; eauto). exact E3. }
  split.
  - intros u Iu. destruct (R1 u Iu) as (v & w & E1 & E2 & RV). exists v, w. unfold lookup at 1. rewrite group_lookup.
    destruct (in_dec Nat.eq_dec u (map fid l)) as [K|K].
    { exfalso. apply in_map_iff in K as (f & <- & K). destruct (HD f K) as (_ & N & _). exact (N Iu). }
    split; [exact E1|]. split; [|exact RV]. cbn [sv for_body]. destruct (en c) as [i|]; [|exact E2]. destruct (EN1 i eq_refl) as (_ & N & _).
    unfold lookup. cbn. destruct (Nat.eqb_spec (sv m u) i) as [EQ|_]; [|exact E2]. exfalso. exact (N u Iu EQ).
  - intros f Hf. unfold lookup at 1. setoid_rewrite group_lookup. destruct (in_dec Nat.eq_dec f (map fid l)) as [K|K].
    + destruct (local_related m vs fs c l e ws f G LW RL K) as (h & AH & RH).
      assert (SN : sf m f = None) by (apply in_map_iff in K as (x & <- & K); exact (proj1 (HD x K))).
      exists (VLocal l f e), h, (en c), (VFun h (cenv_of c ws)). split; [reflexivity|]. split; [|split; [|exact RH]].
      * cbn. unfold lifting. rewrite SN, AH. reflexivity.
      * unfold cenv_of, closure_of, lookup. destruct (en c) as [i|]; [|reflexivity]. cbn. rewrite Nat.eqb_refl. reflexivity.
    + apply in_app_or in Hf as [?|Hf]; [contradiction|]. destruct (R2 f Hf) as (v & h & i & w & E1 & E2 & E3 & RV).
      exists v, h, i, w. split; [exact E1|]. split; [cbn; unfold lifting; rewrite E2; reflexivity|]. split; [|exact RV].
      unfold closure_of in *. destruct i as [i|]; [|exact E3]. destruct (en c) as [j|]; [|exact E3]. destruct (EN1 j eq_refl) as (_ & _ & N).
      unfold lookup in *. cbn. destruct (Nat.eqb_spec i j) as [EQ|_]; [|exact E3]. exfalso. exact (N f h i Hf E2 EQ).
Qed.

(** ** Calls *)
Lemma entered_rel : forall v args e body, entered FS v args e body -> forall w args', V v w -> Forall2 V args args' ->
  exists e' body' m vs fs, entered F w args' e' body' /\ env_rel V m vs fs e (lookup e') /\ conv F m vs fs body body'.
Proof.
  intros v args e body H. destruct H as [g cenv args f e EF EC|l id e ps ret body args I LP]; intros w args' R RA.
  - destruct (Hfuns g f EF) as (f' & EF' & EE & EP & CV).
    assert (K : exists cenv', w = VFun g cenv' /\ match cenv, cenv' with None, None => True | Some a, Some b => V a b | _, _ => False end).
    { apply V_inv in R. inversion R; subst; eexists; (split; [reflexivity|]); cbn; auto. }
    destruct K as (cenv' & -> & KC).
    assert (LA : List.length args = List.length args') by (eapply Forall2_len; eauto).
    assert (KE : exists e', callee f' cenv' args' = Some e' /\ env_rel V unchanged (bound f) [] e (lookup e')).
    { unfold callee in *. rewrite EP, EE, <- LA. destruct (List.length (f_params f) =? List.length args)%nat eqn:EL; [|discriminate EC]. apply Nat.eqb_eq in EL.
      assert (B0 : env_rel V unchanged [] [] [] (lookup [])) by (split; intros ? []).
      unfold bound. destruct (f_env f) as [[id ps]|], cenv as [c0|], cenv' as [c1|]; try discriminate EC; try contradiction.
      - destruct c0 as [| | | | |xs| |]; try discriminate EC. apply V_inv in KC as (ys & -> & RX).
        destruct (List.length ps =? List.length xs)%nat eqn:ELX; [|discriminate EC]. apply Nat.eqb_eq in ELX. injection EC as <-.
        pose proof (Forall2_len _ _ _ RX) as LX. rewrite (proj2 (Nat.eqb_eq _ _)) by lia. eexists. split; [reflexivity|].
        pose proof (env_rel_extend unchanged [] [] [] [] (map fst (f_params f) ++ id :: map fst ps)
          (combine (map fst (f_params f)) args ++ (id, VEnv xs) :: combine (map fst ps) xs) (combine (map fst (f_params f)) args' ++ (id, VEnv ys) :: combine (map fst ps) ys) B0) as X.
        rewrite !app_nil_r in X. apply X.
        + apply Forall_forall. intros d _. repeat split; intros; try contradiction; intros [].
        + rewrite map_app. cbn. rewrite !keys_combine by lia. reflexivity.
        + rewrite map_app. cbn. rewrite !keys_combine by lia. reflexivity.
        + intros d I.
          assert (BR : binds_rel (combine (map fst (f_params f)) args ++ (id, VEnv xs) :: combine (map fst ps) xs) (combine (map fst (f_params f)) args' ++ (id, VEnv ys) :: combine (map fst ps) ys)).
          { assert (BC : forall ids a b, Forall2 V a b -> binds_rel (combine ids a) (combine ids b)).
            { intros ids a b K. revert ids. induction K as [|x y a b KV K IH]; intros [|i ids]; cbn; try constructor; [split; [reflexivity|exact KV]|apply IH]. }
            apply Forall2_app; [apply BC, RA|]. constructor; [split; [reflexivity|apply alike_env, RX]|apply BC, RX]. }
          apply (binds_rel_assoc _ _ BR). rewrite map_app. cbn. rewrite !keys_combine by lia. exact I.
      - injection EC as <-. eexists. split; [reflexivity|].
        pose proof (env_rel_combine unchanged [] [] [] [] (map fst (f_params f)) args args' B0) as X. rewrite !app_nil_r in X. rewrite app_nil_r. apply X; [|exact RA|rewrite map_length; exact EL].
        apply Forall_forall. intros d _. repeat split; intros; try contradiction; intros []. }
    destruct KE as (e' & EC' & RE). exists e', (f_body f'), unchanged, (bound f), []. split; [|split; [exact RE|exact CV]]. econstructor; eassumption.
  - apply find_some in I as [I _]. apply V_inv in R. inversion R as [| |m vs fs c l0 e0 f g ws G IL A LW RE]; subst. 
    destruct (entered_local_rel m vs fs c l e ws (fid f) ps ret body args args' G LW RE I LP RA g A) as (e' & f' & m' & vs' & fs' & FG & CA & RE' & CV).
    exists e', (f_body f'), m', vs', fs'. split; [econstructor; eassumption|auto].
Qed.

(** ** Evaluation *)
Notation HR := (Forall2 (alike_cell (crel F))).
Notation Ev := (ev prim equals F).
Notation Evs := (evs prim equals F).
Definition sum_rel (a b : list value + res) : Prop :=
  match a, b with inl vs, inl ws => Forall2 V vs ws | inr r, inr r' => alike_res C r r' | _, _ => False end.

Lemma bool_rel : forall b r', alike_res C (RsVal (v_bool b)) r' -> r' = RsVal (v_bool b).
Proof. intros b r' H. inversion H as [v w K| | |]; subst. apply V_inv in K. cbn in K. subst w. reflexivity. Qed.
Lemma abrupt_rel : forall r r', alike_res C r r' -> abrupt r -> abrupt r'.
Proof. intros r r' H A. destruct H; [destruct A|exact I|exact I|exact I]. Qed.
Lemma returned_rel : forall r r' x, alike_res C r r' -> returned r = Some x -> exists x', returned r' = Some x' /\ alike_res C x x'.
Proof. intros r r' x H E. destruct H; cbn in E; try discriminate E; injection E as <-; eexists; (split; [reflexivity|]); constructor; assumption. Qed.

Lemma evs_construct : forall h (e' : env) ts tys ws, Forall2 (fun t w => lookup e' t = Some w) ts ws -> List.length ts = List.length tys ->
  Evs h e' (map (fun p => EVar (fst p) (snd p)) (combine ts tys)) h (inl ws).
Proof.
  intros h e' ts tys ws H. revert tys. induction H as [|t w ts ws E H IH]; intros [|ty tys] L; cbn in *; try discriminate L; [constructor|].
  econstructor; [constructor; exact E|]. apply IH. lia.
Qed.

Local Ltac use IH h' r' X RH RR := edestruct IH as (h' & r' & X & RH & RR); [eassumption|eassumption|eassumption|].

Lemma simulation :
  (forall h e x h1 r, ev prim equals FS h e x h1 r -> forall m vs fs y e' h', conv F m vs fs x y -> env_rel V m vs fs e (lookup e') -> HR h h' ->
     exists h1' r', Ev h' e' y h1' r' /\ HR h1 h1' /\ alike_res C r r') /\
  (forall h e xs h1 s, evs prim equals FS h e xs h1 s -> forall m vs fs ys e' h', Forall2 (conv F m vs fs) xs ys -> env_rel V m vs fs e (lookup e') -> HR h h' ->
     exists h1' s', Evs h' e' ys h1' s' /\ HR h1 h1' /\ sum_rel s s').
Proof.
  apply (ev_evs_ind prim equals FS
   (fun h e x h1 r _ => forall m vs fs y e' h', conv F m vs fs x y -> env_rel V m vs fs e (lookup e') -> HR h h' ->
     exists h1' r', Ev h' e' y h1' r' /\ HR h1 h1' /\ alike_res C r r')
   (fun h e xs h1 s _ => forall m vs fs ys e' h', Forall2 (conv F m vs fs) xs ys -> env_rel V m vs fs e (lookup e') -> HR h h' ->
     exists h1' s', Evs h' e' ys h1' s' /\ HR h1 h1' /\ sum_rel s s')).
  - (* var *) intros h e id t v E m vs fs y e' h' CV RE RH. inversion CV; subst. destruct RE as [R1 _]. destruct (R1 id) as (v0 & w & E1 & E2 & R); [assumption|].
    rewrite E in E1. injection E1 as <-. do 2 eexists. split; [constructor; exact E2|]. split; [exact RH|constructor; exact R].
  - (* local *) intros h e id t v E m vs fs y e' h' CV RE RH. inversion CV; subst.
    match goal with H : In id fs |- _ => rename H into If end. match goal with H : sf m id = Some (_, _) |- _ => rename H into SF end.
    destruct RE as [_ R2]. destruct (R2 id If) as (v0 & g0 & i0 & w & E1 & E2 & E3 & R). rewrite E in E1. injection E1 as <-. rewrite SF in E2. injection E2 as <- <-.
    eexists _, (RsVal w). split; [|split; [exact RH|constructor; exact R]]. unfold closure_of in E3. match type of SF with _ = Some (_, ?o) => destruct o as [i|] end.
    + destruct (lookup e' i) as [x|] eqn:EI; [|discriminate E3]. injection E3 as <-. eapply ev_op; [econstructor; [constructor; exact EI|constructor]|]. reflexivity.
    + injection E3 as <-. eapply ev_op; [constructor|]. reflexivity.
  - (* op *) intros h e o es h1 xs h2 r _ IH EP m vs fs y e' h' CV RE RH. inversion CV; subst. use IH h1' s' X RH1 RS. destruct s' as [ws|]; [|destruct RS].
    destruct (perform_rel o h1 h1' xs ws h2 r RH1 RS EP) as (h2' & r' & EP' & RH2 & RR). exists h2', r'. split; [econstructor; eassumption|auto].
  - (* op stop *) intros h e o es h1 r _ IH m vs fs y e' h' CV RE RH. inversion CV; subst. use IH h1' s' X RH1 RS. destruct s' as [|r']; [destruct RS|].
    exists h1', r'. split; [apply ev_op_stop; assumption|auto].
  - (* call *) intros h e f args h1 v xs e1 body h2 r r' _ IH EN _ IHb ER m vs fs y e' h' CV RE RH. inversion CV; subst.
    edestruct IH as (h1' & s' & X & RH1 & RS); [constructor; eassumption|eassumption|eassumption|]. destruct s' as [ws|]; [|destruct RS]. cbn in RS. inversion RS as [|? w ? ws0 RV RW]; subst.
    destruct (entered_rel v xs e1 body EN w ws0 RV RW) as (e1' & body' & m' & vs' & fs' & EN' & RE1 & CVb). use IHb h2' r2 Xb RH2 RR.
    destruct (returned_rel r r2 r' RR ER) as (r3 & ER' & RR'). exists h2', r3. split; [econstructor; eassumption|auto].
  - (* call stop *) intros h e f args h1 r _ IH m vs fs y e' h' CV RE RH. inversion CV; subst.
    edestruct IH as (h1' & s' & X & RH1 & RS); [constructor; eassumption|eassumption|eassumption|]. destruct s' as [|r']; [destruct RS|].
    exists h1', r'. split; [apply ev_call_stop; assumption|auto].
  - (* seq *) intros h e ss x h1 xs h2 r _ IH _ IHx m vs fs y e' h' CV RE RH. inversion CV; subst. use IH h1' s' X RH1 RS. destruct s' as [ws|]; [|destruct RS].
    use IHx h2' r' Xx RH2 RR. exists h2', r'. split; [econstructor; eassumption|auto].
  - intros h e ss x h1 r _ IH m vs fs y e' h' CV RE RH. inversion CV; subst. use IH h1' s' X RH1 RS. destruct s' as [|r']; [destruct RS|].
    exists h1', r'. split; [apply ev_seq_stop; assumption|auto].
  - (* if *) intros h e c t f h1 b h2 r _ IH _ IHb m vs fs y e' h' CV RE RH. inversion CV; subst. use IH h1' s' X RH1 RS. apply bool_rel in RS. subst s'.
    match goal with Ht : conv F m vs fs t ?t', Hf : conv F m vs fs f ?f' |- _ => assert (CB : conv F m vs fs (if b then t else f) (if b then t' else f')) by (destruct b; assumption) end.
    use IHb h2' r' Xx RH2 RR. exists h2', r'. split; [econstructor; eassumption|auto].
  - intros h e c t f h1 r _ IH AB m vs fs y e' h' CV RE RH. inversion CV; subst. use IH h1' s' X RH1 RS. exists h1', s'.
    split; [apply ev_if_stop; [assumption|eapply abrupt_rel; eassumption]|auto].
  - (* while *) intros h e c b h1 _ IH m vs fs y e' h' CV RE RH. inversion CV; subst. use IH h1' s' X RH1 RS. apply bool_rel in RS. subst s'.
    do 2 eexists. split; [apply ev_while_end; eassumption|]. split; [assumption|]. constructor. constructor.
  - intros h e c b h1 h2 v h3 r _ IHc _ IHb _ IHw m vs fs y e' h' CV RE RH. pose proof CV as CV0. inversion CV; subst. use IHc h1' s' X RH1 RS. apply bool_rel in RS. subst s'.
    use IHb h2' s2 X2 RH2 RS2. inversion RS2 as [? w RV| | |]; subst. edestruct IHw as (h3' & r' & X3 & RH3 & RR); [exact CV0|eassumption|eassumption|].
    exists h3', r'. split; [eapply ev_while_next; eassumption|auto].
  - intros h e c b h1 r _ IH AB m vs fs y e' h' CV RE RH. inversion CV; subst. use IH h1' s' X RH1 RS. exists h1', s'.
    split; [apply ev_while_stop_cond; [assumption|eapply abrupt_rel; eassumption]|auto].
  - intros h e c b h1 h2 r _ IHc _ IHb AB m vs fs y e' h' CV RE RH. inversion CV; subst. use IHc h1' s' X RH1 RS. apply bool_rel in RS. subst s'.
    use IHb h2' s2 X2 RH2 RS2. exists h2', s2. split; [eapply ev_while_stop; [eassumption|eassumption|eapply abrupt_rel; eassumption]|auto].
  - (* and *) intros h e a b h1 h2 r _ IHc _ IHb m vs fs y e' h' CV RE RH. inversion CV; subst. use IHc h1' s' X RH1 RS. apply bool_rel in RS. subst s'.
    use IHb h2' s2 X2 RH2 RS2. exists h2', s2. split; [eapply ev_and_true; eassumption|auto].
  - intros h e a b h1 _ IHc m vs fs y e' h' CV RE RH. inversion CV; subst. use IHc h1' s' X RH1 RS. pose proof RS as RS'. apply bool_rel in RS. subst s'.
    do 2 eexists. split; [eapply ev_and_false; eassumption|auto].
  - intros h e a b h1 r _ IH AB m vs fs y e' h' CV RE RH. inversion CV; subst. use IH h1' s' X RH1 RS. exists h1', s'.
    split; [apply ev_and_stop; [assumption|eapply abrupt_rel; eassumption]|auto].
  - (* or *) intros h e a b h1 _ IHc m vs fs y e' h' CV RE RH. inversion CV; subst. use IHc h1' s' X RH1 RS. pose proof RS as RS'. apply bool_rel in RS. subst s'.
    do 2 eexists. split; [eapply ev_or_true; eassumption|auto].
  - intros h e a b h1 h2 r _ IHc _ IHb m vs fs y e' h' CV RE RH. inversion CV; subst. use IHc h1' s' X RH1 RS. apply bool_rel in RS. subst s'.
    use IHb h2' s2 X2 RH2 RS2. exists h2', s2. split; [eapply ev_or_false; eassumption|auto].
  - intros h e a b h1 r _ IH AB m vs fs y e' h' CV RE RH. inversion CV; subst. use IH h1' s' X RH1 RS. exists h1', s'.
    split; [apply ev_or_stop; [assumption|eapply abrupt_rel; eassumption]|auto].
  - (* match *) intros h e target clauses h1 v binds body h2 r _ IH EM _ IHb m vs fs y e' h' CV RE RH. inversion CV; subst. use IH h1' s' X RH1 RS. inversion RS as [? w RV| | |]; subst.
    match goal with H : Forall2 ?K clauses ?cs' |- _ => destruct (first_match_rel h1 h1' v w RH1 RV K clauses cs' H (fun c c' k => proj1 k) binds body EM) as (b' & body' & p & EM' & BR & BP & (_ & FR & CB)) end.
    cbn [fst snd] in FR, CB.
    assert (RE1 : env_rel V m (pat_defs p ++ vs) fs (binds ++ e) (lookup (b' ++ e'))).
    { apply env_rel_extend; auto; [rewrite <- BP; symmetry; apply binds_rel_keys, BR|]. intros id I. apply binds_rel_assoc; [exact BR|rewrite BP; exact I]. }
    use IHb h2' r' X2 RH2 RR. exists h2', r'. split; [eapply ev_match; eassumption|auto].
  - intros h e target clauses h1 r _ IH AB m vs fs y e' h' CV RE RH. inversion CV; subst. use IH h1' s' X RH1 RS. exists h1', s'.
    split; [apply ev_match_stop; [assumption|eapply abrupt_rel; eassumption]|auto].
  - (* let *) intros h e x h1 r _ IH m vs fs y e' h' CV RE RH. inversion CV; subst. use IH h1' s' X RH1 RS. exists h1', s'. split; [apply ev_let_nil; assumption|auto].
  - intros h e id t init vars x h1 v h2 r _ IH _ IHb m vs fs y e' h' CV RE RH. inversion CV; subst. use IH h1' s' X RH1 RS. inversion RS as [? w RV| | |]; subst.
    match goal with H : fresh m vs fs id |- _ => pose proof (env_rel_extend1 m vs fs e e' id v w RE H RV) as RE1 end.
    use IHb h2' r' X2 RH2 RR. exists h2', r'. split; [eapply ev_let; eassumption|auto].
  - intros h e id t init vars x h1 r _ IH AB m vs fs y e' h' CV RE RH. inversion CV; subst. use IH h1' s' X RH1 RS. exists h1', s'.
    split; [apply ev_let_stop; [assumption|eapply abrupt_rel; eassumption]|auto].
  - (* local functions *) intros h e l x h1 r _ IH m vs fs y e' h' CV RE RH. inversion CV; subst.
    + match goal with H : group_conv F (conv F) m vs fs ?c l |- _ => destruct (captured_values m vs fs c l e e' H RE) as [ws W]; pose proof (body_related m vs fs c l e e' ws H RE W) as RB end.
      match goal with H : en ?c = _ |- _ => rewrite H in RB end. use IH h1' s' X RH1 RS. exists h1', s'. auto.
    + match goal with H : group_conv F (conv F) m vs fs ?c l |- _ => pose proof H as G; destruct (captured_values m vs fs c l e e' H RE) as [ws W]; pose proof (body_related m vs fs c l e e' ws H RE W) as RB end.
      match goal with H : en ?c = _ |- _ => rewrite H in RB end. use IH h1' s' X RH1 RS. exists h1', s'. split; [|auto].
      destruct G as ((_ & L2 & _) & _). eapply ev_let; [eapply ev_op; [apply evs_construct; eassumption|reflexivity]|]. apply ev_let_nil. exact X.
    + match goal with H : group_conv F (conv F) m vs fs ?c l |- _ => pose proof H as G; destruct (captured_values m vs fs c l e e' H RE) as [ws W]; pose proof (body_related m vs fs c l e e' ws H RE W) as RB end.
      match goal with H : en ?c = _ |- _ => rewrite H in RB end. use IH h1' s' X RH1 RS. exists h1', s'. split; [|auto].
      destruct G as ((_ & L2 & _) & _). eapply ev_let; [eapply ev_op; [apply evs_construct; eassumption|reflexivity]|]. exact X.
  - (* continuations *) intros h e x h1 r _ IH m vs fs y e' h' CV RE RH. inversion CV; subst. use IH h1' s' X RH1 RS. exists h1', s'. split; [apply ev_cont_nil; assumption|auto].
  - intros h e id params body conts x h1 xs h2 r _ IH EL _ IHb m vs fs y e' h' CV RE RH. inversion CV; subst. use IH h1' s' X RH1 RS. inversion RS as [| |? ? ws RW|]; subst.
    assert (RE1 : env_rel V m (map fst params ++ vs) fs (combine (map fst params) xs ++ e) (lookup (combine (map fst params) ws ++ e'))).
    { apply env_rel_combine; auto. rewrite map_length. symmetry. exact EL. }
    use IHb h2' r' X2 RH2 RR. exists h2', r'. split; [eapply ev_cont_jump; [eassumption| |eassumption]|auto]. rewrite <- EL. symmetry. eapply Forall2_len; eassumption.
  - intros h e id params body conts x h1 r _ IH NJ m vs fs y e' h' CV RE RH. inversion CV; subst. use IH h1' s' X RH1 RS. exists h1', s'.
    split; [apply ev_cont_other; [assumption|]|auto]. intros ws EQ. subst s'. inversion RS; subst. eapply NJ. reflexivity.
  - (* lists *) intros h e m vs fs ys e' h' CV RE RH. inversion CV; subst. exists h', (inl []). split; [constructor|]. split; [exact RH|constructor].
  - intros h e x xs h1 v h2 xv _ IH _ IHs m vs fs ys e' h' CV RE RH. inversion CV; subst. use IH h1' s' X RH1 RS. inversion RS as [? w RV| | |]; subst.
    use IHs h2' s2 X2 RH2 RS2. destruct s2 as [ws|]; [|destruct RS2]. exists h2', (inl (w :: ws)). split; [econstructor; eassumption|]. split; [assumption|]. constructor; assumption.
  - intros h e x xs h1 r _ IH AB m vs fs ys e' h' CV RE RH. inversion CV; subst. use IH h1' s' X RH1 RS. exists h1', (inr s').
    split; [apply evs_stop; [assumption|eapply abrupt_rel; eassumption]|auto].
  - intros h e x xs h1 v h2 r _ IH _ IHs m vs fs ys e' h' CV RE RH. inversion CV; subst. use IH h1' s' X RH1 RS. inversion RS as [? w RV| | |]; subst.
    use IHs h2' s2 X2 RH2 RS2. destruct s2 as [|r']; [destruct RS2|]. exists h2', (inr r'). split; [eapply evs_stop_later; eassumption|auto].
Qed.
End Sim.
