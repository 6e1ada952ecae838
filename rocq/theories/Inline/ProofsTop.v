From Verif.Base Require Import Base.
From Verif.Ir Require Import Model.
From Verif.Closure Require Import Model Spec ProofsSim ProofsScope ProofsGroup.
From Verif.Inline Require Import Model Spec Proofs ProofsNew.

(** ** Scopes *)
Lemma rn_scoped : forall x r y, rn r x y -> scoped (map snd r) [] y.
Proof.
  intro x. induction x as [x IH] using expr_size_ind. intros r y H.
  assert (FF : forall r es es', (forall a, In a es -> (size a < size x)%nat) -> Forall2 (rn r) es es' -> Forall (scoped (map snd r) []) es').
  { clear - IH. intros r es es' HS H. induction H as [|a b es es' H1 H IHl]; constructor; [eapply IH; [apply HS; left; reflexivity|exact H1]|]. apply IHl. intros c I. apply HS. right. exact I. }
  destruct H; cbn [size] in *.
  - constructor. apply in_map_iff. exists (u, u'). auto.
  - constructor. eapply FF; [|eassumption]. intros a I. pose proof (size_in size _ a I). lia.
  - constructor; [eapply IH; [|eassumption]; lia|]. eapply FF; [|eassumption]. intros a I. pose proof (size_in size _ a I). lia.
  - constructor; [|eapply IH; [|eassumption]; lia]. eapply FF; [|eassumption]. intros a I. pose proof (size_in size _ a I). lia.
  - constructor; (eapply IH; [|eassumption]; lia).
  - constructor; (eapply IH; [|eassumption]; lia).
  - constructor; (eapply IH; [|eassumption]; lia).
  - constructor; (eapply IH; [|eassumption]; lia).
  - constructor; [eapply IH; [|eassumption]; lia|].
    match goal with X : Forall2 _ cs cs' |- _ => rename X into HC end.
    assert (IH' : forall c, In c cs -> forall r y', rn r (snd c) y' -> scoped (map snd r) [] y') by (intros c I; apply IH; pose proof (size_in (fun c => size (snd c)) _ c I); cbn in *; lia).
    clear - HC IH'. induction HC as [|c c' cs cs' (H1 & (_ & _ & H2 & _) & H3) HC IHl]; constructor.
    + pose proof (IH' c (or_introl eq_refl) _ _ H3) as S. rewrite map_app in S. replace (map snd (combine (pat_defs (fst c)) (pat_defs (fst c')))) with (pat_defs (fst c')) in S; [exact S|].
      clear - H2. revert H2. generalize (pat_defs (fst c)) (pat_defs (fst c')). intros a. induction a as [|x a IHa]; intros [|y b] E; try discriminate E; [reflexivity|]. cbn. f_equal. apply IHa. injection E as E. exact E.
    + apply IHl. intros d I. apply IH'. right. exact I.
  - constructor.
  - constructor. eapply IH; [|eassumption]. lia.
  - constructor; [eapply IH; [|eassumption]; cbn; lia|]. change (id' :: map snd r) with (map snd ((id, id') :: r)). eapply IH; [|eassumption]. cbn. lia.
Qed.

Section Top.
Variables (prim : strict -> heap -> list value -> option (heap * res)) (equals : const -> value -> option bool) (FS : nat -> option function).

(** ** Simple expressions give values *)
Definition plain (r : res) : Prop := match r with RsVal _ | RsPanic _ => True | _ => False end.
Lemma simple_plain : prims_plain prim ->
  (forall h e x h1 r, ev prim equals FS h e x h1 r -> simple x -> plain r) /\
  (forall h e xs h1 s, evs prim equals FS h e xs h1 s -> fold_right (fun x P => simple x /\ P) True xs -> match s with inl _ => True | inr r => plain r end).
Proof.
  intro PP. apply (ev_evs_ind prim equals FS
    (fun h e x h1 r _ => simple x -> plain r)
    (fun h e xs h1 s _ => fold_right (fun x P => simple x /\ P) True xs -> match s with inl _ => True | inr r => plain r end)); intros; cbn [simple fold_right] in *;
    repeat match goal with K : _ /\ _ |- _ => destruct K end; try exact I; try contradiction; auto.
  - match goal with K : perform _ _ _ _ = Some _ |- _ => rename K into EP end. match goal with K : match o with _ => _ end |- _ => rename K into SO end.
    destruct o; cbn in EP; try contradiction; try (apply PP in EP; exact EP).
    + injection EP as <- <-. exact I.
    + destruct vs as [|v [|w vs]]; try discriminate EP; injection EP as <- <-; exact I.
  - destruct o; auto; contradiction.
  - destruct r; cbn in *; try discriminate; match goal with K : Some _ = Some _ |- _ => injection K as <- end; exact I.
  - destruct b; auto.
  - match goal with K : first_match _ _ _ clauses = Some _ |- _ => rename K into FM end. match goal with K : simple body -> plain r |- _ => apply K end.
    match goal with K : fold_right _ _ clauses |- _ => rename K into FC end. clear - FM FC. induction clauses as [|[p y] cs IH]; cbn in *; [discriminate FM|]. destruct FC as [F0 FC].
    destruct (pmatch equals h1 p v); [injection FM as <- <-; exact F0|auto|discriminate FM].
Qed.

(** ** Arguments *)
Lemma evs_variables : forall e vars vs h, Forall2 (fun a v => lookup e (fst a) = Some v) vars vs -> evs prim equals FS h e (variables vars) h (inl vs).
Proof. intros e vars vs h H. induction H as [|a v vars vs E H IH]; cbn; [constructor|]. econstructor; [constructor; exact E|exact IH]. Qed.
Lemma variables_evs : forall e vars vs h h1 q, Forall2 (fun a v => lookup e (fst a) = Some v) vars vs -> evs prim equals FS h e (variables vars) h1 q -> h1 = h /\ q = inl vs.
Proof.
  intros e vars vs h h1 q H. revert q. induction H as [|a v vars vs E H IH]; cbn; intros q X.
  - inversion X; subst. auto.
  - inversion X; subst.
    + match goal with K : ev _ _ _ _ _ (EVar _ _) _ _ |- _ => inversion K; subst end. match goal with K : evs _ _ _ _ _ _ _ _ |- _ => destruct (IH _ K) as [-> EQ]; injection EQ as -> end.
      split; [reflexivity|]. congruence.
    + match goal with K : ev _ _ _ _ _ (EVar _ _) _ _ |- _ => inversion K; subst end. contradiction.
    + match goal with K : ev _ _ _ _ _ (EVar _ _) _ _ |- _ => inversion K; subst end. match goal with K : evs _ _ _ _ _ _ _ _ |- _ => destruct (IH _ K) as [-> EQ]; discriminate EQ end.
Qed.

Lemma bound_values : forall e (vars : list (nat * ct)), (forall a, In a vars -> lookup e (fst a) <> None) -> exists vs, Forall2 (fun a v => lookup e (fst a) = Some v) vars vs.
Proof.
  intros e vars. induction vars as [|a vars IH]; intro H; [exists []; constructor|]. destruct IH as [vs HV]; [intros b I; apply H; right; exact I|].
  destruct (lookup e (fst a)) as [v|] eqn:E; [|destruct (H a (or_introl eq_refl) E)]. exists (v :: vs). constructor; assumption.
Qed.

Lemma call_meaning : prims_plain prim -> forall g f ty vars e vs h h1 r, FS g = Some f -> f_env f = None -> simple (f_body f) -> List.length vars = List.length (f_params f) ->
  Forall2 (fun a v => lookup e (fst a) = Some v) vars vs ->
  (ev prim equals FS h e (call_of g ty (variables vars)) h1 r <-> ev prim equals FS h (combine (map fst (f_params f)) vs) (f_body f) h1 r).
Proof.
  intros PP g f ty vars e vs h h1 r EF EE SI EL HV.
  assert (LV : List.length vars = List.length vs) by (clear - HV; induction HV; cbn; auto).
  assert (CE : callee f None vs = Some (combine (map fst (f_params f)) vs)). { unfold callee. rewrite EE. replace (List.length (f_params f) =? List.length vs)%nat with true; [reflexivity|]. symmetry. apply Nat.eqb_eq. congruence. }
  assert (RT : forall r, plain r -> returned r = Some r) by (intros [] P; try destruct P; reflexivity).
  split; intro X.
  - unfold call_of in X. inversion X; subst.
    + match goal with K : evs _ _ _ _ _ (_ :: _) _ _ |- _ => inversion K; subst end.
      match goal with K : ev _ _ _ _ _ (EOp _ _) _ _ |- _ => inversion K; subst end; match goal with K : evs _ _ _ _ _ [] _ _ |- _ => inversion K; subst end.
      match goal with K : perform _ _ _ _ = _ |- _ => cbn in K; injection K as <- <- end. match goal with K : evs _ _ _ _ _ (variables vars) _ _ |- _ => destruct (variables_evs _ _ _ _ _ _ HV K) as [-> EQ]; injection EQ as -> end.
      match goal with K : entered _ _ _ _ _ |- _ => inversion K; subst end. match goal with K : FS g = Some ?f' |- _ => rewrite EF in K; injection K as <- end.
      match goal with K : callee _ _ _ = Some _ |- _ => rewrite CE in K; injection K as <- end.
      match goal with K : ev _ _ _ _ _ (f_body f) _ _ |- _ => pose proof (proj1 (simple_plain PP) _ _ _ _ _ K SI) as PL; rewrite (RT _ PL) in *; match goal with Q : Some _ = Some _ |- _ => injection Q as <- end; exact K end.
    + exfalso. match goal with K : evs _ _ _ _ _ (_ :: _) _ _ |- _ => inversion K; subst end.
      * match goal with K : ev _ _ _ _ _ (EOp _ _) _ _ |- _ => inversion K; subst end; match goal with K : evs _ _ _ _ _ [] _ _ |- _ => inversion K; subst end.
        match goal with K : perform _ _ _ _ = _ |- _ => cbn in K; injection K as <- <- end. contradiction.
      * match goal with K : evs _ _ _ _ _ (variables vars) _ _ |- _ => destruct (variables_evs _ _ _ _ _ _ HV K) as [_ EQ]; discriminate EQ end.
  - eapply ev_call; [|eapply entered_fun; [exact EF|exact CE]|exact X|apply RT; exact (proj1 (simple_plain PP) _ _ _ _ _ X SI)].
    econstructor; [|apply evs_variables; exact HV]. eapply ev_op; [constructor|reflexivity].
Qed.

Lemma params_env : forall ps (vars : list (nat * ct)) vs e s, NoDup ps -> List.length vars = List.length ps -> Forall2 (fun a v => lookup e (fst a) = Some v) vars vs ->
  env_ok (rel (combine ps (variables vars)) s ps) (combine ps vs) e.
Proof.
  intros ps vars vs e s N EL HV u u' I. unfold rel in I. apply in_map_iff in I. destruct I as (w & EQ & I). injection EQ as -> <-. unfold img, lookup in *.
  revert vars vs EL HV. induction ps as [|p ps IH]; [destruct I|]. intros [|a vars] vs EL HV; [discriminate EL|]. inversion HV; subst. cbn. destruct (Nat.eqb_spec u p) as [->|NE]; [auto|].
  destruct I as [->|I]; [contradiction|]. inversion N; subst. eapply IH; try eassumption. injection EL as EL. exact EL.
Qed.
Lemma rel_args : forall ps (vars : list (nat * ct)) s, NoDup ps -> List.length vars = List.length ps -> map snd (rel (combine ps (variables vars)) s ps) = map fst vars.
Proof.
  intros ps vars s N EL. unfold rel. rewrite map_map. cbn [snd]. unfold img.
  revert vars EL. induction ps as [|p ps IH]; intros [|a vars] EL; try discriminate EL; [reflexivity|]. inversion N as [|? ? N1 N2]; subst. cbn. rewrite Nat.eqb_refl. f_equal.
  rewrite <- (IH N2 vars ltac:(injection EL as EL; exact EL)). apply map_ext_in. intros u I. destruct (Nat.eqb_spec u p) as [->|NE]; [contradiction|reflexivity].
Qed.
Lemma params_args : forall ps (vars : list (nat * ct)), Forall (fun p : nat * expr => match snd p with EVar a _ => In a (map fst vars) | _ => False end) (combine ps (variables vars)).
Proof.
  intros ps vars. apply Forall_forall. intros [p x] I. apply in_combine_r in I. unfold variables in I. apply in_map_iff in I. destruct I as (a & <- & I). cbn. apply in_map, I.
Qed.

Lemma transparent : forall n g f vars ty, prims_plain prim -> FS g = Some f -> f_env f = None -> well_formed n f -> simple (f_body f) ->
  List.length vars = List.length (f_params f) -> Forall (fun a => fst a < n /\ ~ In (fst a) (defs (f_body f)))%nat vars ->
  exists x, call_transparent n f (variables vars) = Ret ((n + List.length (defs (f_body f)))%nat, x) /\
  scoped (map fst vars) [] x /\ defs x = List.seq n (List.length (defs (f_body f))) /\
  forall h e h1 r, (forall a, In a vars -> lookup e (fst a) <> None) ->
  (ev prim equals FS h e (call_of g ty (variables vars)) h1 r <-> ev prim equals FS h e x h1 r).
Proof.
  intros n g f vars ty PP EF EE (W1 & W2 & W3) SI EL HV. unfold bound in *. rewrite EE, app_nil_r in *.
  set (ps := map fst (f_params f)) in *. assert (EL' : List.length vars = List.length ps) by (unfold ps; rewrite map_length; exact EL).
  pose proof (NoDup_app_inv _ _ W2) as (N1 & N2 & N3).
  set (M := combine ps (variables vars)). pose proof (params_args ps vars) as HM. fold M in HM.
  assert (MP : map fst M = ps). { unfold M. clear - EL'. revert vars EL'. induction ps as [|p l IH]; intros [|a vars] E; try discriminate E; [reflexivity|]. cbn. f_equal. apply IH. injection E as E. exact E. }
  assert (HK : K M (map fst vars) (defs (f_body f)) (Renaming n []) ps).
  { split; [exact N2|]. split; [|split].
    - intros d I. split; [intro J; exact (N3 d J I)|]. split; [intros []|]. split; [rewrite MP; intro J; exact (N3 d J I)|]. intro J. apply in_map_iff in J. destruct J as (a & <- & J).
      rewrite Forall_forall in HV. apply (HV a J), I.
    - intros a _ [].
    - intros u I. cbn. assert (J : In (img M (Renaming n []) u) (map fst vars)). { rewrite <- (rel_args ps vars (Renaming n []) N1 EL'). unfold rel. rewrite map_map. cbn. apply in_map_iff. exists u. split; [reflexivity|exact I]. }
      apply in_map_iff in J. destruct J as (a & <- & J). rewrite Forall_forall in HV. apply (HV a J). }
  destruct (body_goal M (map fst vars) HM (f_body f) (Renaming n []) ps W1 SI HK) as (s' & x & E & (A1 & _) & D & R). exists x.
  split; [|split; [|split]].
  - unfold call_transparent. rewrite EE. replace (List.length (f_params f) =? List.length (variables vars))%nat with true by (symmetry; apply Nat.eqb_eq; unfold variables; rewrite map_length; congruence).
    fold ps M. rewrite E. cbn. f_equal. f_equal. exact A1.
  - apply rn_scoped in R. unfold M in R. rewrite rel_args in R; assumption.
  - exact D.
  - intros h e h1 r HB. destruct (bound_values e vars HB) as [vs HVS]. rewrite (call_meaning PP g f ty vars e vs h h1 r EF EE SI EL HVS). fold ps.
    pose proof (params_env ps vars vs e (Renaming n []) N1 EL' HVS) as OK. fold M in OK. split; intro X.
    + exact (proj1 (rn_ev prim equals FS) _ _ _ _ _ X _ _ _ R OK).
    + apply (proj1 (rn_ev prim equals FS) _ _ _ _ _ X _ _ _ (rn_flip _ _ _ R)). intros u u' I. unfold flip in I. apply in_map_iff in I. destruct I as ([a b] & EQ & I). injection EQ as <- <-. symmetry. apply OK, I.
Qed.
End Top.
