(** Values have the types that are computed for the expressions. *)
From Verif.Base Require Import Base.
From Verif.Ir Require Import Model Spec Typing Proofs.

Scheme typed_mut := Minimality for typed Sort Prop
  with typeds_mut := Minimality for typeds Sort Prop
  with clauses_mut := Minimality for typed_clauses Sort Prop.
Combined Scheme typed_ind3 from typed_mut, typeds_mut, clauses_mut.

Section Typing.
Variable fields : ct -> option (list ct).
Variable member : ct -> ct -> Prop.
Variable sigs : nat -> option (list ct * ct * list ct).
Variable array_val : val -> ct -> Prop.
Hypothesis TOK : types_ok fields member.
Notation vty := (vty fields member sigs array_val).
Notation sval := (sval fields member sigs array_val).
Notation heap_ok := (heap_ok fields member sigs array_val).
Notation env_ok := (env_ok fields member sigs array_val).
Notation typed := (typed fields member sigs).
Notation typeds := (typeds fields member sigs).
Notation typed_clauses := (typed_clauses fields member sigs).

(** ** The computed type is the declared one *)

Lemma const_ty_sig c t : const_sig c t -> const_ty c = t.
Proof. intros []; reflexivity. Qed.

Lemma nullary_ty_sig o t : nullary_sig o t -> nullary_ty o = t.
Proof. intros []; reflexivity. Qed.

Lemma unary_ty_sig o a t : unary_sig fields member o a t -> unary_ty o (Ret (Some a)) = Ret (Some t).
Proof.
  intros []; try reflexivity. cbn in *.
  repeat match goal with H : _ \/ _ |- _ => destruct H as [<-|H] end; try reflexivity. contradiction.
Qed.

Lemma binary_ty_sig o a b t : o <> BFGe -> binary_sig o a b t ->
  binary_ty o (Ret (Some a)) (Ret (Some b)) = Ret (Some t).
Proof.
  intros N B; revert N; destruct B; intros N; try reflexivity;
    match goal with H : In _ _ |- _ => cbn in H;
      repeat (destruct H as [<-|H]; [first [reflexivity|congruence]|]); destruct H end.
Qed.

Ltac bools := repeat match goal with
  | H : _ && _ = true |- _ => apply andb_prop in H; destruct H
  end.

Lemma rt_ty_match x p b cs :
  rt_ty (RMatch x ((p, b) :: cs)) =
  let* ty := rt_ty b in match ty with Some ty => Ret (Some ty) | None => rt_ty (RMatch x cs) end.
Proof. reflexivity. Qed.

Ltac ih := repeat match goal with
  | IH : ?b = true -> _, H : ?b = true |- _ => specialize (IH H)
  end.
Ltac rewrite_ty := repeat match goal with H : rt_ty _ = Ret _ |- _ => rewrite H; clear H; cbn [bind option_map] end.
Ltac again := match goal with
  | IH : _ -> rt_ty ?x = _ |- rt_ty ?x = _ => apply IH; cbn; rewrite ?andb_true_iff; auto
  | IH : _ -> ?g |- ?g => apply IH; cbn; rewrite ?andb_true_iff; auto
  end.

Lemma computed :
  (forall G K R x t, typed G K R x t -> no_fge x = true -> rt_ty x = Ret (option_map erase t)) /\
  (forall G K R xs ss, typeds G K R xs ss -> forallb no_fge xs = true ->
     Forall2 (fun x s => rt_ty x = Ret (Some (erase s))) xs ss) /\
  (forall G K R t cs r, typed_clauses G K R t cs r -> forallb (fun c => no_fge (snd c)) cs = true ->
     forall x, rt_ty (RMatch x cs) = Ret (option_map erase r)).
Proof.
  apply (typed_ind3 fields member sigs
    (fun G K R x t => no_fge x = true -> rt_ty x = Ret (option_map erase t))
    (fun G K R xs ss => forallb no_fge xs = true ->
       Forall2 (fun x s => rt_ty x = Ret (Some (erase s))) xs ss)
    (fun G K R t cs r => forallb (fun c => no_fge (snd c)) cs = true ->
       forall x, rt_ty (RMatch x cs) = Ret (option_map erase r))).
  all: intros; try reflexivity.
  all: try solve [cbn in *; auto].
  - cbn. unfold some_ty. do 2 f_equal. apply const_ty_sig. assumption.
  - cbn in *. bools. ih. rewrite_ty. reflexivity.
  - cbn. unfold some_ty. do 2 f_equal. apply nullary_ty_sig. assumption.
  - cbn in *. ih. rewrite_ty. apply unary_ty_sig. assumption.
  - assert (o <> BFGe) by (intros ->; discriminate).
    assert (no_fge x = true /\ no_fge y = true) as [NX NY].
    { destruct o; cbn in *; bools; auto; discriminate. }
    ih. cbn. rewrite_ty. apply binary_ty_sig; assumption.
  - cbn in *. ih. rewrite_ty. reflexivity.
  - cbn in *. ih. rewrite_ty. reflexivity.
  - cbn in *. bools. again.
  - cbn in *. bools. ih. rewrite_ty. cbn.
    match goal with J : join _ _ _ |- _ => inv J end;
      [destruct t as [s|]; reflexivity|reflexivity|destruct t as [s|]; reflexivity].
  - cbn [no_fge] in *. bools. auto.
  - cbn in *. bools. again.
  - cbn in *. bools. again.
  - cbn in *. bools. constructor; auto.
  - cbn [forallb snd] in *. bools. ih. rewrite rt_ty_match. rewrite_ty. cbn.
    match goal with J : join _ _ _ |- _ => inv J end;
      [destruct r as [s|]; cbn; [reflexivity|]|cbn|destruct r as [s|]; cbn; [reflexivity|]];
      match goal with H : forall x : rt, _ |- _ => exact (H x) end.
Qed.

(** ** Values keep their types *)

Lemma extends_refl S : extends S S.
Proof. exists []. rewrite app_nil_r. reflexivity. Qed.

Lemma extends_trans A B C : extends A B -> extends B C -> extends A C.
Proof. intros [U ->] [V ->]. exists (U ++ V). rewrite app_assoc. reflexivity. Qed.

Section ValInd.
Variable P : val -> Prop.
Hypothesis HI : forall n, P (VInt n).
Hypothesis HF : forall f, P (VFloat f).
Hypothesis HS : forall s, P (VString s).
Hypothesis HU : P VUnit.
Hypothesis HN : P VNull.
Hypothesis HP : forall a, P (VPtr a).
Hypothesis HT : forall t vs, Forall P vs -> P (VStruct t vs).
Hypothesis HR : forall t vs, Forall P vs -> P (VRein t vs).
Hypothesis HX : forall v, P v -> P (VSyntax v).
Hypothesis HE : forall vs, Forall P vs -> P (VEnv vs).
Hypothesis HC : forall f c, (match c with Some (VEnv vs) => Forall P vs | _ => True end) -> P (VClos f c).
Fixpoint val_ind' (v : val) : P v :=
  let all := fix all (vs : list val) : Forall P vs :=
    match vs with [] => Forall_nil P | v :: vs => Forall_cons v (val_ind' v) (all vs) end in
  match v with
  | VInt n => HI n | VFloat f => HF f | VString s => HS s | VUnit => HU | VNull => HN | VPtr a => HP a
  | VStruct t vs => HT t vs (all vs)
  | VRein t vs => HR t vs (all vs)
  | VSyntax v => HX v (val_ind' v)
  | VEnv vs => HE vs (all vs)
  | VClos f c => HC f c (match c with Some (VEnv vs) => all vs | _ => I end)
  end.
End ValInd.

Lemma all2_mono (P Q : val -> ct -> Prop) vs : Forall (fun v => forall t, P v t -> Q v t) vs ->
  forall ts, all2 P vs ts -> all2 Q vs ts.
Proof.
  induction 1 as [|v vs H F IH]; intros [|t ts]; cbn; auto. intros [A B]. auto.
Qed.

Lemma vty_mono S U v : forall t, vty S v t -> vty (S ++ U) v t.
Proof.
  induction v as [n|f|s| | |a|s vs F|s vs F|w IH|vs F|g c F] using val_ind'; intros t H;
    destruct t; cbn [Typing.vty] in H |- *; auto;
    try (destruct H as (u & E & N); exists u; split; [exact E|];
         rewrite nth_error_app1; [exact N|apply nth_error_Some; congruence]);
    try (destruct H as (E & ts & Fd & A); split; [exact E|]; exists ts; split; [exact Fd|];
         exact (all2_mono _ _ _ F _ A));
    try (destruct H as (u & E & N); exists u; split; [exact E|]; apply IH; exact N);
    try (destruct H as (xa & xr & xc & E & Sg & C); exists xa, xr, xc;
         split; [exact E|]; split; [exact Sg|];
         destruct c as [[]|]; auto; exact (all2_mono _ _ _ F _ C)).
Qed.

Lemma vty_ext S S' v t : extends S S' -> vty S v t -> vty S' v t.
Proof. intros [U ->]. apply vty_mono. Qed.

Lemma all2_forall2 P vs ts : all2 P vs ts <-> Forall2 P vs ts.
Proof.
  split.
  - revert ts. induction vs as [|v vs IH]; intros [|t ts]; cbn; try contradiction; [constructor|].
    intros [A B]. constructor; auto.
  - induction 1; cbn; auto.
Qed.

Lemma vtys_ext S S' vs ts : extends S S' -> Forall2 (vty S) vs ts -> Forall2 (vty S') vs ts.
Proof. intros X. induction 1; constructor; auto. eapply vty_ext; eassumption. Qed.

Lemma env_ext S S' G e : extends S S' -> env_ok S G e -> env_ok S' G e.
Proof.
  intros X. induction 1 as [|g b G e [A B] F IH]; constructor; auto. split; [exact A|].
  eapply vty_ext; eassumption.
Qed.

Lemma env_lookup S G e id t v : env_ok S G e -> assoc G id = Some t -> lookup e id = Some v -> vty S v t.
Proof.
  induction 1 as [|[i u] [j w] G e [A B] F IH]; cbn in *; [discriminate|]. subst j.
  destruct (i =? id)%nat; [|exact IH]. intros X Y; inv X; inv Y. exact B.
Qed.

Lemma env_combine S ids ts vs : Forall2 (vty S) vs ts -> env_ok S (combine ids ts) (combine ids vs).
Proof.
  intros F. revert ids. induction F as [|v t vs ts A F IH]; intros [|i ids]; cbn; constructor; cbn; auto.
  apply IH.
Qed.

Lemma sval_ct S vs ts : Forall2 (sval S) vs (map SCt ts) -> Forall2 (vty S) vs ts.
Proof.
  revert vs. induction ts as [|t ts IH]; intros vs F; inv F; constructor; auto.
Qed.

(** ** The heap *)

Lemma heap_load S h a v t : heap_ok S h -> load h a = Some v -> nth_error S a = Some t -> vty S v t.
Proof.
  intros [_ H] L N. unfold load in L. destruct (nth_error h a) as [[w|]|] eqn:E; try discriminate.
  inv L. eapply H; eassumption.
Qed.

Lemma write_length h a c : List.length (write h a c) = List.length h.
Proof. revert a. induction h as [|x h IH]; intros [|a]; cbn; auto. Qed.

Lemma write_nth h a c b : nth_error (write h a c) b =
  if (a =? b)%nat then (match nth_error h b with Some _ => Some c | None => None end) else nth_error h b.
Proof.
  revert a b. induction h as [|x h IH]; intros [|a] [|b]; cbn; auto; try (destruct (_ =? _)%nat; reflexivity).
Qed.

Lemma heap_write S h a v t : heap_ok S h -> nth_error S a = Some t -> vty S v t ->
  heap_ok S (write h a (Some v)).
Proof.
  intros [L H] N V. split; [rewrite write_length; exact L|].
  intros b w u. rewrite write_nth. destruct (Nat.eqb_spec a b) as [<-|_].
  - destruct (nth_error h a); [|discriminate]. intros X Y; inv X. congruence.
  - apply H.
Qed.

Lemma heap_free S h a : heap_ok S h -> heap_ok S (write h a None).
Proof.
  intros [L H]. split; [rewrite write_length; exact L|].
  intros b w u. rewrite write_nth. destruct (Nat.eqb_spec a b) as [<-|_]; [|apply H].
  destruct (nth_error h a); discriminate.
Qed.

Lemma heap_alloc S h v t : heap_ok S h -> vty S v t -> heap_ok (S ++ [t]) (h ++ [Some v]).
Proof.
  intros [L H] V. split; [rewrite !app_length, L; reflexivity|]. intros a w u A B.
  destruct (Nat.lt_ge_cases a (List.length h)) as [Lt|Ge].
  - rewrite nth_error_app1 in A by exact Lt. rewrite nth_error_app1 in B by lia.
    apply vty_mono. eapply H; eassumption.
  - rewrite nth_error_app2 in A by exact Ge. rewrite nth_error_app2 in B by lia. rewrite <- L in B.
    destruct (a - List.length h)%nat as [|k]; [|destruct k; discriminate].
    cbn in A, B. inv A. inv B. apply vty_mono. exact V.
Qed.

Lemma not_array_fields s ts : fields s = Some ts -> forall u, s <> CtArray u.
Proof. intros F u ->. rewrite (proj1 TOK) in F. discriminate. Qed.

Lemma struct_vty S s vs ts : fields s = Some ts -> Forall2 (vty S) vs ts -> vty S (VStruct s vs) s.
Proof.
  intros F A. apply all2_forall2 in A. destruct s; cbn; try (split; [reflexivity|]; exists ts; auto).
  rewrite (proj1 TOK) in F. discriminate.
Qed.

Lemma vty_struct S s vs t : vty S (VStruct s vs) t -> (forall u, t <> CtArray u) ->
  t = s /\ exists ts, fields s = Some ts /\ Forall2 (vty S) vs ts.
Proof.
  intros V N. destruct t; cbn in V;
    try (destruct V as (E & ts & F & A); apply all2_forall2 in A; split; [exact E|]; eauto).
  exfalso. eapply N; reflexivity.
Qed.

Lemma vty_rein S s vs t : vty S (VRein s vs) t -> (forall u, t <> CtArray u) ->
  member t s /\ exists ts, fields s = Some ts /\ Forall2 (vty S) vs ts.
Proof.
  intros V N. destruct t; cbn in V;
    try (destruct V as (E & ts & F & A); apply all2_forall2 in A; split; [exact E|]; eauto).
  exfalso. eapply N; reflexivity.
Qed.

(** ** Patterns *)

Scheme pat_mut := Minimality for pat_sig Sort Prop
  with pats_mut := Minimality for pats_sig Sort Prop.
Combined Scheme pat_ind2 from pat_mut, pats_mut.

Lemma pat_ty_sig p t g : pat_sig fields member p t g -> pat_ty p = t.
Proof.
  induction 1; cbn; auto; try (f_equal; assumption). apply const_ty_sig. assumption.
Qed.

Variable round32 : fp -> fp.

Lemma pat_binds S h : heap_ok S h ->
  (forall p t g, pat_sig fields member p t g -> forall v binds, vty S v t ->
     pmatch round32 h p v = MYes binds -> env_ok S g binds) /\
  (forall ps ts g, pats_sig fields member ps ts g -> forall vs binds, Forall2 (vty S) vs ts ->
     pmatch_fields (pmatch round32 h) ps vs = MYes binds -> env_ok S g binds).
Proof.
  intros HO. apply (pat_ind2 fields member
    (fun p t g => forall v binds, vty S v t -> pmatch round32 h p v = MYes binds -> env_ok S g binds)
    (fun ps ts g => forall vs binds, Forall2 (vty S) vs ts ->
       pmatch_fields (pmatch round32 h) ps vs = MYes binds -> env_ok S g binds)).
  - intros id t v binds V M. inv M. constructor; [auto|constructor].
  - intros id t p g _ IH v binds V M. cbn in M. destruct (pmatch round32 h p v) eqn:E; try discriminate.
    inv M. constructor; [auto|]. eapply IH; eassumption.
  - intros t v binds V M. inv M. constructor.
  - intros p t g _ IH v binds V M. cbn in M. destruct v; try discriminate.
    destruct (load h a) eqn:L; try discriminate. eapply IH; [|exact M].
    cbn in V. destruct V as (u & E & N). inv E. eapply heap_load; eassumption.
  - intros p t g _ IH v binds V M. cbn in M. destruct v; try discriminate.
    destruct (load h a) eqn:L; try discriminate. eapply IH; [|exact M].
    cbn in V. destruct V as (u & E & N). inv E. eapply heap_load; eassumption.
  - intros t v binds V M. cbn in M. destruct v; try discriminate. inv M. constructor.
  - intros s ts ps g F _ IH v binds V M. cbn in M. destruct v; try discriminate.
    eapply IH; [|exact M].
    destruct (vty_struct _ _ _ _ V (not_array_fields _ _ F)) as (-> & ts' & F' & A).
    rewrite F in F'. inv F'. exact A.
  - intros u s p g Mu Sg IH v binds V M. cbn in M. destruct v; try discriminate.
    destruct (ct_eq_dec t (pat_ty p)) as [->|]; [|discriminate].
    rewrite (pat_ty_sig _ _ _ Sg) in *. eapply IH; [|exact M].
    assert (NU : forall u', u <> CtArray u') by (intros u' ->; exact (proj1 (proj1 (proj2 TOK) _ _) Mu)).
    destruct (vty_rein _ _ _ _ V NU) as (_ & ts & F & A). eapply struct_vty; eassumption.
  - intros p t g _ IH v binds V M. cbn in M. destruct v; try discriminate.
    cbn in V. destruct V as (u & E & V). inv E. eapply IH; eassumption.
  - intros c t _ v binds V M. cbn in M. destruct (equals_const round32 c v) as [[]|]; try discriminate.
    inv M. constructor.
  - intros ts vs binds F M. cbn in M. inv M. constructor.
  - intros p ps t ts g gs _ IH1 _ IH2 vs binds F M. inv F. cbn in M.
    destruct (pmatch round32 h p x) as [b| |] eqn:E1; try discriminate. cbn in M.
    destruct (pmatch_fields (pmatch round32 h) ps l) as [bs| |] eqn:E2; try discriminate. inv M.
    apply Forall2_app; [eapply IH1; eassumption|eapply IH2; eassumption].
Qed.

(** ** Operations *)

Variable prim : prim_op -> heap -> list val -> option (heap * val).
Hypothesis POK : prims_ok fields member sigs array_val prim.
Notation prim_sig := (prim_sig fields member).

(** What the result of an expression of type [t] may be. *)
Definition res_ok (S : store_ty) (K : list (nat * list ct)) (R : ct) (t : option sty) (r : res) : Prop :=
  match r with
  | RsVal v => exists s, t = Some s /\ sval S v s
  | RsReturn v => vty S v R
  | RsJump k vs => exists ts, assoc K k = Some ts /\ Forall2 (vty S) vs ts
  | RsPanic _ => True
  end.

Definition outcome_ok S K R t h r : Prop :=
  exists S', extends S S' /\ heap_ok S' h /\ res_ok S' K R t r.

Lemma by_prim_ok S K R q ts t h vs h' r : prim_sig q ts t -> heap_ok S h -> Forall2 (vty S) vs ts ->
  by_prim prim q h vs = Some (h', r) -> outcome_ok S K R (Some (SCt t)) h' r.
Proof.
  unfold by_prim. intros Q HO F E. destruct (prim q h vs) as [[h1 v]|] eqn:P; [|discriminate]. inv E.
  destruct (POK _ _ _ _ _ _ _ _ Q HO F P) as (S' & X & HO' & V). exists S'.
  split; [exact X|]. split; [exact HO'|]. cbn. eauto.
Qed.

Lemma pure_ok S K R s h v h' r : heap_ok S h -> sval S v s -> pure h v = Some (h', r) ->
  outcome_ok S K R (Some s) h' r.
Proof.
  intros HO V E. inv E. exists S. split; [apply extends_refl|]. split; [exact HO|]. cbn. eauto.
Qed.

Lemma bool_ok S K R h b h' r : heap_ok S h -> of_bool h b = Some (h', r) ->
  outcome_ok S K R (Some (SCt (CtU 1))) h' r.
Proof.
  intros HO E. unfold of_bool in E. destruct b as [b|]; [|discriminate].
  eapply pure_ok; [exact HO| |exact E]. destruct b; cbn; lia.
Qed.

Lemma const_ok S c t v : const_sig c t -> const_val round32 c = Some v -> vty S v t.
Proof.
  intros [ty s n [k Hk]|ty f Hf| | | |]; cbn; intros E.
  - destruct Hk as [Hk|Hk]; subst ty; inv E; cbn; apply N.mod_lt, N.pow_nonzero; discriminate.
  - destruct Hf as [Hf|Hf]; subst ty; inv E; cbn; unfold float_ty; auto.
  - inv E. reflexivity.
  - inv E. exact I.
  - discriminate.
  - inv E. reflexivity.
Qed.

Ltac forall2s := repeat match goal with
  | H : Forall2 _ [] _ |- _ => inv H
  | H : Forall2 _ _ [] |- _ => inv H
  | H : Forall2 _ (_ :: _) _ |- _ => inv H
  | H : Forall2 _ _ (_ :: _) |- _ => inv H
  end.

Lemma nullary_ok S K R o t h h' r : heap_ok S h -> nullary_sig o t ->
  perform round32 prim (ONullary o) h [] = Some (h', r) -> outcome_ok S K R (Some (SCt t)) h' r.
Proof.
  intros HO Sg E. destruct Sg; cbn in E;
    try (eapply by_prim_ok; [constructor; constructor|exact HO|constructor|exact E]).
  eapply pure_ok; [exact HO| |exact E]. cbn. eauto.
Qed.

Lemma forall2_nth S vs ts i v t : Forall2 (vty S) vs ts -> nth_error vs i = Some v ->
  nth_error ts i = Some t -> vty S v t.
Proof.
  intros F. revert i. induction F as [|w u vs ts A F IH]; intros [|i]; cbn; try discriminate.
  - congruence.
  - apply IH.
Qed.

Lemma unary_ok S K R o a t h v h' r : heap_ok S h -> unary_sig fields member o a t -> vty S v a ->
  perform round32 prim (OUnary o) h [v] = Some (h', r) -> outcome_ok S K R (Some (SCt t)) h' r.
Proof.
  intros HO Sg V E.
  assert (BP : by_prim prim (QUnary o) h [v] = Some (h', r) -> outcome_ok S K R (Some (SCt t)) h' r).
  { intros E'. eapply by_prim_ok; [constructor; exact Sg|exact HO|constructor; [exact V|constructor]|exact E']. }
  destruct Sg; try (apply BP; exact E).
  - clear BP. cbn in E. destruct v; try discriminate. destruct n as [|[| |]]; try discriminate;
      (eapply pure_ok; [exact HO| |exact E]; cbn; lia).
  - clear BP. cbn in E. destruct v; try discriminate. destruct (load h a) eqn:L; [|discriminate].
    eapply pure_ok; [exact HO| |exact E]. cbn in V. destruct V as (u & Eq & N). inv Eq.
    cbn. eapply heap_load; eassumption.
  - clear BP. cbn in E. destruct v; try discriminate. destruct (nth_error vs i) eqn:L; [|discriminate].
    eapply pure_ok; [exact HO| |exact E].
    destruct (vty_struct _ _ _ _ V (not_array_fields _ _ H)) as (-> & ts' & F' & A).
    rewrite H in F'. inv F'. cbn. eapply forall2_nth; eassumption.
  - cbn in E.
    assert (NA : forall u', s <> CtArray u') by (intros u' ->; exact (proj2 (proj1 (proj2 TOK) _ _) H)).
    assert (NU : forall u', u <> CtArray u') by (intros u' ->; exact (proj1 (proj1 (proj2 TOK) _ _) H)).
    destruct v; try (apply BP; exact E).
    + destruct (vty_struct _ _ _ _ V NA) as (-> & ts & F & A). apply all2_forall2 in A.
      eapply pure_ok; [exact HO| |exact E]. cbn.
      destruct u; cbn; try (split; [exact H|]; exists ts; auto). exfalso. eapply NU; reflexivity.
    + destruct (ct_eq_dec t u) as [->|]; [|discriminate].
      destruct (vty_rein _ _ _ _ V NA) as (_ & ts & F & A).
      eapply pure_ok; [exact HO| |exact E]. cbn. eapply struct_vty; eassumption.
  - cbn in E.
    assert (NU : forall u', u <> CtArray u') by (intros u' ->; exact (proj1 (proj1 (proj2 TOK) _ _) H)).
    destruct v; try (apply BP; exact E).
    + destruct (vty_struct _ _ _ _ V NU) as (-> & ts & F & A).
      rewrite (proj2 (proj2 TOK) _ _ H) in F. discriminate.
    + destruct (ct_eq_dec t s) as [->|]; [|discriminate].
      destruct (vty_rein _ _ _ _ V NU) as (_ & ts & F & A).
      eapply pure_ok; [exact HO| |exact E]. cbn. eapply struct_vty; eassumption.
  - clear BP. cbn in E. destruct v; try discriminate. eapply pure_ok; [exact HO| |exact E].
    cbn in V. destruct V as (u & Eq & W). inv Eq. exact W.
  - apply BP. cbn in H. repeat (destruct H as [<-|H]; [exact E|]). destruct H.
Qed.

Lemma binary_ok S K R o a b t h v w h' r : heap_ok S h -> binary_sig o a b t -> vty S v a -> vty S w b ->
  perform round32 prim (OBinary o) h [v; w] = Some (h', r) -> outcome_ok S K R (Some (SCt t)) h' r.
Proof.
  intros HO Sg V W E.
  assert (BP : by_prim prim (QBinary o) h [v; w] = Some (h', r) -> outcome_ok S K R (Some (SCt t)) h' r).
  { intros E'. eapply by_prim_ok; [constructor; exact Sg|exact HO| |exact E'].
    constructor; [exact V|constructor; [exact W|constructor]]. }
  destruct Sg; try (apply BP; exact E).
  - clear BP. cbn in E. destruct w; try (destruct v; discriminate E).
    destruct (load h a) eqn:L; [|destruct v; discriminate E].
    assert (E' : pure (write h a (Some v)) VUnit = Some (h', r)) by (destruct v; exact E). clear E.
    cbn in W. destruct W as (u & Eq & N). inv Eq.
    eapply pure_ok with (s := SCt CtUnit) (v := VUnit); [|cbn; reflexivity|exact E']. eapply heap_write; eassumption.
  - cbn in H. destruct H as [<-|H]; [eapply bool_ok; [exact HO|exact E]|].
    apply BP. repeat (destruct H as [<-|H]; [exact E|]). destruct H.
  - cbn in E. destruct v; try discriminate E. destruct w; try discriminate E.
    refine (bool_ok _ _ _ _ (Some _) _ _ HO E).
  - apply BP. cbn in H. repeat (destruct H as [<-|H]; [exact E|]). destruct H.
  - apply BP. cbn in H. repeat (destruct H as [<-|H]; [exact E|]). destruct H.
  - apply BP. cbn in H. repeat (destruct H as [<-|H]; [exact E|]). destruct H.
  - apply BP. cbn in H. repeat (destruct H as [<-|H]; [exact E|]). destruct H.
  - apply BP. cbn in H. repeat (destruct H as [<-|H]; [exact E|]). destruct H.
  - cbn in H. destruct H as [<-|H].
    { cbn in E. destruct v as [|[|]| | | | | | | | |]; try discriminate E;
        destruct w as [|[|]| | | | | | | | |]; try discriminate E;
        first [refine (bool_ok _ _ _ _ (Some false) _ _ HO E)|refine (bool_ok _ _ _ _ (Some _) _ _ HO E)]. }
    apply BP. repeat (destruct H as [<-|H]; [exact E|]). destruct H.
  - apply BP. cbn in H. repeat (destruct H as [<-|H]; [exact E|]). destruct H.
  - cbn in E. destruct v; try discriminate E. destruct w; try discriminate E.
    refine (bool_ok _ _ _ _ (Some _) _ _ HO E).
Qed.

Lemma ternary_ok S K R o a b c h u v w h' r : heap_ok S h -> ternary_sig o a b c ->
  vty S u a -> vty S v b -> vty S w c ->
  perform round32 prim (OTernary o) h [u; v; w] = Some (h', r) ->
  outcome_ok S K R (Some (SCt CtUnit)) h' r.
Proof.
  intros HO Sg U V W E. eapply by_prim_ok; [constructor; exact Sg|exact HO| |exact E].
  constructor; [exact U|constructor; [exact V|constructor; [exact W|constructor]]].
Qed.

(** ** Evaluation *)

Variable scoped : bool.
Variable funs : nat -> option (list nat * list nat * rt).
Hypothesis FOK : funs_ok fields member sigs funs.
Notation ev := (ev scoped round32 prim funs).
Notation evs := (evs scoped round32 prim funs).

Lemma res_abrupt S K R t t' r : abrupt r -> res_ok S K R t r -> res_ok S K R t' r.
Proof. destruct r; cbn; auto. contradiction. Qed.

Lemma outcome_abrupt S K R t t' h r : abrupt r -> outcome_ok S K R t h r -> outcome_ok S K R t' h r.
Proof.
  intros A (S' & X & HO & RO). exists S'. split; [exact X|]. split; [exact HO|].
  eapply res_abrupt; eassumption.
Qed.

Lemma outcome_ext S S' K R t h r : extends S S' -> outcome_ok S' K R t h r -> outcome_ok S K R t h r.
Proof.
  intros X (S2 & X2 & HO & RO). exists S2. split; [eapply extends_trans; eassumption|]. auto.
Qed.

Lemma outcome_join S K R a b t h r : join a b t ->
  (outcome_ok S K R a h r -> outcome_ok S K R t h r) /\ (outcome_ok S K R b h r -> outcome_ok S K R t h r).
Proof.
  intros J. split; intros (S' & X & HO & RO); exists S'; (split; [exact X|]); (split; [exact HO|]).
  - destruct r; cbn in *; auto. destruct RO as (s & -> & V). inv J; eauto.
  - destruct r; cbn in *; auto. destruct RO as (s & -> & V). inv J; eauto.
Qed.

Lemma release_ok S init v h : heap_ok S h -> heap_ok S (release scoped init v h).
Proof.
  intros HO. unfold release. destruct scoped; [|exact HO]. destruct init; try exact HO.
  destruct l; try exact HO. destruct v; try exact HO. apply heap_free. exact HO.
Qed.

Definition list_ok (S : store_ty) (K : list (nat * list ct)) (R : ct) (ss : list sty) (h : heap)
  (r : list val + res) : Prop :=
  match r with
  | inl vs => exists S', extends S S' /\ heap_ok S' h /\ Forall2 (sval S') vs ss
  | inr r => abrupt r /\ outcome_ok S K R None h r
  end.

Lemma sval_ext S S' v s : extends S S' -> sval S v s -> sval S' v s.
Proof.
  intros X. destruct s as [t|ts]; cbn; [apply vty_ext; exact X|].
  destruct v; auto. intros A. apply all2_forall2. apply all2_forall2 in A. eapply vtys_ext; eassumption.
Qed.

Lemma operation_typed G K R x t o xs : typed G K R x t -> operation x = Some (o, xs) ->
  exists ss, typeds G K R xs ss /\
  forall S h vs h' r, heap_ok S h -> Forall2 (sval S) vs ss ->
    perform round32 prim o h vs = Some (h', r) -> outcome_ok S K R t h' r.
Proof.
  intros T O. destruct T; cbn in O; try discriminate O; inv O.
  - exists []. split; [constructor|]. intros S h vs h' r HO F E. forall2s. cbn in E.
    eapply pure_ok; [exact HO| |exact E]. cbn. exists args, ret, []. auto.
  - exists [SEnv caps]. split; [constructor; [assumption|constructor]|].
    intros S h vs h' r HO F E. forall2s. cbn in E.
    eapply pure_ok; [exact HO| |exact E]. cbn. exists args, ret, caps.
    split; [reflexivity|]. split; [assumption|]. destruct x0; cbn in *; auto.
  - exists []. split; [constructor|]. intros S h vs h' r HO F E. forall2s.
    destruct c; cbn in E;
      try (match type of E with context [match ?q with Some _ => _ | None => _ end] =>
             destruct q eqn:Q; [|discriminate E] end;
           eapply pure_ok; [exact HO| |exact E]; eapply const_ok; eassumption);
      try (eapply pure_ok; [exact HO| |exact E]; eapply const_ok; [eassumption|reflexivity]).
    match goal with H : const_sig _ _ |- _ => inv H end.
    eapply by_prim_ok; [constructor|exact HO|constructor|exact E].
  - exists (map SCt ts). split; [assumption|]. intros S h vs h' r HO F E. apply sval_ct in F.
    eapply by_prim_ok; [constructor|exact HO|exact F|exact E].
  - exists (map SCt ts). split; [assumption|]. intros S h vs h' r HO F E. apply sval_ct in F.
    eapply by_prim_ok; [constructor|exact HO|exact F|exact E].
  - exists (map SCt ts). split; [assumption|]. intros S h vs h' r HO F E. apply sval_ct in F. cbn in E. inv E.
    exists S. split; [apply extends_refl|]. split; [exact HO|]. cbn. eauto.
  - exists []. split; [constructor|]. intros S h vs h' r HO F E. forall2s. eapply nullary_ok; eassumption.
  - exists [SCt a]. split; [constructor; [assumption|constructor]|].
    intros S h vs h' r HO F E. forall2s. eapply unary_ok; eassumption.
  - exists [SCt CtString]. split; [constructor; [assumption|constructor]|].
    intros S h vs h' r HO F E. forall2s. cbn in E. destruct x0; try discriminate E. inv E.
    exists S. split; [apply extends_refl|]. split; [exact HO|]. exact I.
  - exists [SCt a; SCt b]. split; [constructor; [assumption|constructor; [assumption|constructor]]|].
    intros S h vs h' r HO F E. forall2s. eapply binary_ok; eassumption.
  - exists [SCt a; SCt b; SCt c].
    split; [constructor; [assumption|constructor; [assumption|constructor; [assumption|constructor]]]|].
    intros S h vs h' r HO F E. forall2s. cbn [Typing.sval] in *.
    match goal with A : vty S ?x a, B : vty S ?y b, C : vty S ?z c |- _ =>
      exact (ternary_ok S K R _ a b c h x y z h' r HO ltac:(eassumption) A B C E) end.
  - exists [SCt t]. split; [constructor; [assumption|constructor]|].
    intros S h vs h' r HO F E. forall2s. cbn in E. inv E.
    exists (S ++ [t]). split; [eexists; reflexivity|]. split; [apply heap_alloc; assumption|].
    cbn. exists (SCt (CtPtr t)). split; [reflexivity|]. cbn. exists t. split; [reflexivity|].
    rewrite (proj1 HO). rewrite nth_error_app2, Nat.sub_diag by lia. reflexivity.
  - exists [SCt (CtU 64)]. split; [constructor; [assumption|constructor]|].
    intros S h vs h' r HO F E. forall2s. eapply by_prim_ok; [constructor|exact HO| |exact E].
    constructor; [assumption|constructor].
  - exists (map SCt ts). split; [assumption|]. intros S h vs h' r HO F E. apply sval_ct in F. cbn in E.
    assert (E' : pure h (VEnv vs) = Some (h', r)) by (destruct vs; exact E).
    eapply pure_ok; [exact HO| |exact E']. cbn. apply all2_forall2. exact F.
  - exists (map SCt ts). split; [assumption|]. intros S h vs h' r HO F E. apply sval_ct in F. cbn in E.
    assert (E' : pure h (VStruct s vs) = Some (h', r)) by (destruct vs; exact E).
    eapply pure_ok; [exact HO| |exact E']. cbn. eapply struct_vty; eassumption.
  - exists [SCt t]. split; [constructor; [assumption|constructor]|].
    intros S h vs h' r HO F E. forall2s. cbn in E. eapply pure_ok; [exact HO| |exact E]. cbn. eauto.
  - exists [SCt R]. split; [constructor; [assumption|constructor]|].
    intros S h vs h' r HO F E. forall2s. cbn in E. inv E.
    exists S. split; [apply extends_refl|]. split; [exact HO|]. assumption.
Qed.

Lemma clause_typed G K R t cs r p body : typed_clauses G K R t cs r -> In (p, body) cs ->
  exists g a, pat_sig fields member p t g /\ typed (g ++ G) K R body a /\
    forall S h q, outcome_ok S K R a h q -> outcome_ok S K R r h q.
Proof.
  induction 1 as [|G K R t p' g body' cs a b r P B _ IH J]; intros I; [destruct I|].
  destruct I as [I|I].
  - inv I. exists g, a. split; [exact P|]. split; [exact B|]. intros S h q. apply (outcome_join S K R _ _ _ h q J).
  - destruct (IH I) as (g' & a' & P' & B' & F). exists g', a'. split; [exact P'|]. split; [exact B'|].
    intros S h q X. apply (outcome_join S K R _ _ _ h q J). apply F. exact X.
Qed.

Lemma first_match_binds h v cs binds body : first_match round32 h v cs = Some (binds, body) ->
  exists p, In (p, body) cs /\ pmatch round32 h p v = MYes binds.
Proof.
  induction cs as [|[p b] cs IH]; cbn; [discriminate|].
  destruct (pmatch round32 h p v) eqn:E; try discriminate.
  - intros X; inv X. eauto.
  - intros X. destruct (IH X) as (q & I & M). eauto.
Qed.

Lemma preserved :
  (forall h e x h' r, ev h e x h' r -> forall S G K R t, typed G K R x t -> env_ok S G e -> heap_ok S h ->
     outcome_ok S K R t h' r) /\
  (forall h e xs h' r, evs h e xs h' r -> forall S G K R ss, typeds G K R xs ss -> env_ok S G e ->
     heap_ok S h -> list_ok S K R ss h' r).
Proof.
  apply (ev_evs_ind scoped round32 prim funs
    (fun h e x h' r => forall S G K R t, typed G K R x t -> env_ok S G e -> heap_ok S h ->
       outcome_ok S K R t h' r)
    (fun h e xs h' r => forall S G K R ss, typeds G K R xs ss -> env_ok S G e -> heap_ok S h ->
       list_ok S K R ss h' r)).
  - intros h e id t v L S G K R t' T EO HO. inv T. exists S. split; [apply extends_refl|].
    split; [exact HO|]. cbn. exists (SCt t). split; [reflexivity|]. cbn. eapply env_lookup; eassumption.
  - intros h e x o es h1 vs h2 r O _ IH P S G K R t T EO HO.
    destruct (operation_typed _ _ _ _ _ _ _ T O) as (ss & TS & F).
    destruct (IH _ _ _ _ _ TS EO HO) as (S1 & X1 & HO1 & V).
    eapply outcome_ext; [exact X1|]. eapply F; eassumption.
  - intros h e x o es h1 r O _ IH S G K R t T EO HO.
    destruct (operation_typed _ _ _ _ _ _ _ T O) as (ss & TS & F).
    destruct (IH _ _ _ _ _ TS EO HO) as (A & OK). eapply outcome_abrupt; eassumption.
  - intros h e f args h1 g cenv vs params captured body e' r h3 r' _ IH F C _ IB RT S G K R t T EO HO.
    inv T. 
    match goal with A : typed _ _ _ f _, B : typeds _ _ _ args _ |- _ =>
      destruct (IH _ _ _ _ _ (ts_cons _ _ _ _ _ _ _ _ _ _ A B) EO HO) as (S1 & X1 & HO1 & V) end.
    inversion V as [|? ? ? ? VC VA]; subst. cbn in VC.
    destruct VC as (xa & xr & xc & Eq & Sg & CE). inv Eq. apply sval_ct in VA.
    destruct (FOK _ _ _ _ _ _ _ F Sg) as (a & TB & J).
    assert (EO' : env_ok S1 (combine params xa ++ combine captured xc) e').
    { unfold callee_env in C. destruct (_ =? _)%nat; [|discriminate].
      destruct cenv as [[]|]; try contradiction.
      - destruct (_ =? _)%nat; [|destruct captured; discriminate]. 
        assert (C' : Some (combine params vs ++ combine captured vs0) = Some e') by (destruct captured; exact C).
        inv C'. apply Forall2_app; apply env_combine; [exact VA|apply all2_forall2; exact CE].
      - subst xc. destruct captured; [|discriminate]. inv C. cbn. rewrite app_nil_r.
        apply env_combine. exact VA. }
    eapply outcome_ext; [exact X1|].
    destruct (IB _ _ _ _ _ TB EO' HO1) as (S2 & X2 & HO2 & RO).
    exists S2. split; [exact X2|]. split; [exact HO2|].
    destruct r; cbn in RT; inv RT; cbn in *; auto.
    + destruct RO as (s & -> & W). inv J; eauto.
    + eauto.
  - intros h e f args h1 r _ IH S G K R t T EO HO. inv T.
    match goal with A : typed _ _ _ f _, B : typeds _ _ _ args _ |- _ =>
      destruct (IH _ _ _ _ _ (ts_cons _ _ _ _ _ _ _ _ _ _ A B) EO HO) as (A1 & OK) end.
    eapply outcome_abrupt; eassumption.
  - intros h e x h' r _ IH S G K R t T EO HO. inv T. eapply IH; eassumption.
  - intros h e s ss x h1 v h2 r _ I1 _ I2 S G K R t T EO HO. inv T.
    destruct (I1 _ _ _ _ _ ltac:(eassumption) EO HO) as (S1 & X1 & HO1 & _).
    eapply outcome_ext; [exact X1|]. eapply I2; [eassumption|eapply env_ext; eassumption|exact HO1].
  - intros h e s ss x h1 r _ I1 A S G K R t T EO HO. inv T.
    eapply outcome_abrupt; [exact A|]. eapply I1; eassumption.
  - intros h e c x y h1 b h2 r _ I1 _ I2 S G K R t T EO HO. inv T.
    destruct (I1 _ _ _ _ _ ltac:(eassumption) EO HO) as (S1 & X1 & HO1 & _).
    eapply outcome_ext; [exact X1|].
    match goal with J : join _ _ _ |- _ => destruct (outcome_join S1 K R _ _ _ h2 r J) as [JL JR] end.
    destruct b; [apply JL|apply JR]; (eapply I2; [eassumption|eapply env_ext; eassumption|exact HO1]).
  - intros h e c x y h1 r _ I1 A S G K R t T EO HO. inv T.
    eapply outcome_abrupt; [exact A|]. eapply I1; eassumption.
  - intros h e c x h1 _ I1 S G K R t T EO HO. inv T.
    destruct (I1 _ _ _ _ _ ltac:(eassumption) EO HO) as (S1 & X1 & HO1 & _).
    exists S1. split; [exact X1|]. split; [exact HO1|]. cbn. eexists. split; [reflexivity|]. reflexivity.
  - intros h e c x h1 h2 v h3 r _ I1 _ I2 _ I3 S G K R t T EO HO. pose proof T as T0. inv T.
    destruct (I1 _ _ _ _ _ ltac:(eassumption) EO HO) as (S1 & X1 & HO1 & _).
    eapply outcome_ext; [exact X1|].
    destruct (I2 S1 _ _ _ _ ltac:(eassumption) (env_ext _ _ _ _ X1 EO) HO1) as (S2 & X2 & HO2 & _).
    eapply outcome_ext; [exact X2|].
    eapply I3; [eassumption| |exact HO2]. eapply env_ext; [|exact EO]. eapply extends_trans; eassumption.
  - intros h e c x h1 r _ I1 A S G K R t T EO HO. inv T.
    eapply outcome_abrupt; [exact A|]. eapply I1; eassumption.
  - intros h e c x h1 h2 r _ I1 _ I2 A S G K R t T EO HO. inv T.
    destruct (I1 _ _ _ _ _ ltac:(eassumption) EO HO) as (S1 & X1 & HO1 & _).
    eapply outcome_ext; [exact X1|]. eapply outcome_abrupt; [exact A|].
    eapply I2; [eassumption|eapply env_ext; eassumption|exact HO1].
  - intros h e x y h1 h2 r _ I1 _ I2 S G K R t T EO HO. inv T.
    destruct (I1 _ _ _ _ _ ltac:(eassumption) EO HO) as (S1 & X1 & HO1 & _).
    eapply outcome_ext; [exact X1|].
    match goal with J : join _ _ _ |- _ => destruct (outcome_join S1 K R _ _ _ h2 r J) as [JL JR] end.
    apply JR. eapply I2; [eassumption|eapply env_ext; eassumption|exact HO1].
  - intros h e x y h1 _ I1 S G K R t T EO HO. inv T. eapply I1; eassumption.
  - intros h e x y h1 r _ I1 A S G K R t T EO HO. inv T.
    eapply outcome_abrupt; [exact A|]. eapply I1; eassumption.
  - intros h e x y h1 _ I1 S G K R t T EO HO. inv T. eapply I1; eassumption.
  - intros h e x y h1 h2 r _ I1 _ I2 S G K R t T EO HO. inv T.
    destruct (I1 _ _ _ _ _ ltac:(eassumption) EO HO) as (S1 & X1 & HO1 & _).
    eapply outcome_ext; [exact X1|].
    match goal with J : join _ _ _ |- _ => destruct (outcome_join S1 K R _ _ _ h2 r J) as [JL JR] end.
    apply JR. eapply I2; [eassumption|eapply env_ext; eassumption|exact HO1].
  - intros h e x y h1 r _ I1 A S G K R t T EO HO. inv T.
    eapply outcome_abrupt; [exact A|]. eapply I1; eassumption.
  - intros h e x cs h1 v binds body h2 r _ I1 FM _ I2 S G K R t T EO HO. inv T.
    destruct (I1 _ _ _ _ _ ltac:(eassumption) EO HO) as (S1 & X1 & HO1 & (s & Eq & V)). inv Eq.
    eapply outcome_ext; [exact X1|].
    destruct (first_match_binds _ _ _ _ _ FM) as (p & Ip & PM).
    match goal with C : typed_clauses _ _ _ _ _ _ |- _ =>
      destruct (clause_typed _ _ _ _ _ _ _ _ C Ip) as (g & a & P & B & F) end.
    apply F. eapply I2; [exact B| |exact HO1].
    apply Forall2_app; [|eapply env_ext; eassumption].
    exact (proj1 (pat_binds S1 h1 HO1) _ _ _ P _ _ V PM).
  - intros h e x cs h1 r _ I1 A S G K R t T EO HO. inv T.
    eapply outcome_abrupt; [exact A|]. eapply I1; eassumption.
  - intros h e x h' r _ IH S G K R t T EO HO. inv T. eapply IH; eassumption.
  - intros h e id u init vars x h1 v h2 r _ I1 _ I2 S G K R t T EO HO. inv T.
    destruct (I1 _ _ _ _ _ ltac:(eassumption) EO HO) as (S1 & X1 & HO1 & (s & -> & V)).
    eapply outcome_ext; [exact X1|].
    assert (V' : vty S1 v u) by (match goal with J : join _ _ _ |- _ => inv J end; exact V).
    assert (EO1 : env_ok S1 ((id, u) :: G) ((id, v) :: e)).
    { constructor; [split; [reflexivity|exact V']|]. exact (env_ext _ _ _ _ X1 EO). }
    destruct (I2 S1 _ _ _ _ ltac:(eassumption) EO1 HO1) as (S2 & X2 & HO2 & RO).
    exists S2. split; [exact X2|]. split; [apply release_ok; exact HO2|exact RO].
  - intros h e id u init vars x h1 r _ I1 A S G K R t T EO HO. inv T.
    eapply outcome_abrupt; [exact A|]. eapply I1; eassumption.
  - intros h e x h' r _ IH S G K R t T EO HO. inv T. eapply IH; eassumption.
  - intros h e id params body conts x h1 vs h2 r _ I1 _ _ I2 S G K R t T EO HO. inv T.
    destruct (I1 _ _ _ _ _ ltac:(eassumption) EO HO) as (S1 & X1 & HO1 & (ts & Ea & V)).
    cbn in Ea. rewrite Nat.eqb_refl in Ea. inv Ea.
    eapply outcome_ext; [exact X1|].
    match goal with J : join _ _ _ |- _ => destruct (outcome_join S1 K R _ _ _ h2 r J) as [JL JR] end.
    apply JR. eapply I2; [eassumption| |exact HO1].
    apply Forall2_app; [|eapply env_ext; eassumption].
    clear - V. revert vs V. induction params as [|[i u] ps IHp]; intros vs V; cbn in *; inv V; cbn; constructor; cbn; auto.
  - intros h e id params body conts x h1 r _ I1 N S G K R t T EO HO. inv T.
    destruct (I1 _ _ _ _ _ ltac:(eassumption) EO HO) as (S1 & X1 & HO1 & RO).
    exists S1. split; [exact X1|]. split; [exact HO1|].
    destruct r; cbn in *; auto. destruct RO as (ts & Ea & V).
    destruct (Nat.eqb_spec id cont) as [->|]; [exfalso; exact (N vs eq_refl)|]. eauto.
  - intros h e S G K R ss T EO HO. inv T. exists S. split; [apply extends_refl|]. split; [exact HO|constructor].
  - intros h e x xs h1 v h2 vs _ I1 _ I2 S G K R ss T EO HO. inv T.
    destruct (I1 _ _ _ _ _ ltac:(eassumption) EO HO) as (S1 & X1 & HO1 & (s' & Eq & V)). inv Eq.
    destruct (I2 S1 _ _ _ _ ltac:(eassumption) (env_ext _ _ _ _ X1 EO) HO1) as (S2 & X2 & HO2 & W).
    exists S2. split; [eapply extends_trans; eassumption|]. split; [exact HO2|].
    constructor; [eapply sval_ext; eassumption|exact W].
  - intros h e x xs h1 r _ I1 A S G K R ss T EO HO. inv T. split; [exact A|].
    eapply outcome_abrupt; [exact A|]. eapply I1; eassumption.
  - intros h e x xs h1 v h2 r _ I1 _ I2 S G K R ss T EO HO. inv T.
    destruct (I1 _ _ _ _ _ ltac:(eassumption) EO HO) as (S1 & X1 & HO1 & _).
    destruct (I2 S1 _ _ _ _ ltac:(eassumption) (env_ext _ _ _ _ X1 EO) HO1) as (A & OK).
    split; [exact A|]. eapply outcome_ext; eassumption.
Qed.

Theorem values_typed S G K R x t h e h' v :
  typed G K R x t -> no_fge x = true -> env_ok S G e -> heap_ok S h -> ev h e x h' (RsVal v) ->
  exists s S', t = Some s /\ rt_ty x = Ret (Some (erase s)) /\
    extends S S' /\ heap_ok S' h' /\ sval S' v s.
Proof.
  intros T N EO HO E. destruct (proj1 preserved _ _ _ _ _ E _ _ _ _ _ T EO HO) as (S' & X & HO' & s & -> & V).
  exists s, S'. split; [reflexivity|]. split; [exact (proj1 computed _ _ _ _ _ T N)|]. auto.
Qed.

End Typing.

(** ** The type computed for [>=] *)

Definition ge_prim (q : prim_op) (h : heap) (vs : list val) : option (heap * val) :=
  match q with QBinary BFGe => Some (h, v_true) | _ => None end.
Definition ge_expr : rt := RBinary BFGe (RConst (KFPNumber CtF64 (FNum 1))) (RConst (KFPNumber CtF64 (FNum 0))).

Theorem ge_refuted round32 :
  let fields := fun _ => None in let member := fun _ _ => False in let sigs := fun _ => None in
  let array_val := fun _ _ => False in
  types_ok fields member /\ prims_ok fields member sigs array_val ge_prim /\
  typed fields member sigs [] [] CtUnit ge_expr (Some (SCt (CtU 1))) /\
  ev false round32 ge_prim (fun _ => None) [] [] ge_expr [] (RsVal v_true) /\
  exists t, rt_ty ge_expr = Ret (Some t) /\ forall S, ~ vty fields member sigs array_val S v_true t.
Proof.
  cbn zeta. split; [|split; [|split; [|split]]].
  - repeat split; auto.
  - intros S q ts t h vs h' v Q HO F E. destruct q as [| |[]| | | | | |]; try discriminate E. inv E.
    exists S. split; [apply extends_refl|]. split; [exact HO|]. inv Q.
    match goal with H : binary_sig _ _ _ _ |- _ => inv H end;
      try (cbn; reflexivity); match goal with H : In _ _ |- _ => cbn in H;
        repeat (destruct H as [H|H]; [discriminate H|]); destruct H end.
  - eapply t_binary; [constructor; constructor; right; reflexivity|constructor; constructor; right; reflexivity|].
    apply bs_float_cmp; [cbn; auto 10|right; reflexivity].
  - eapply ev_operation; [reflexivity| |reflexivity].
    eapply evs_cons; [eapply ev_operation; [reflexivity|constructor|reflexivity]|].
    eapply evs_cons; [eapply ev_operation; [reflexivity|constructor|reflexivity]|constructor].
  - exists CtF64. split; [reflexivity|]. intros S V. exact V.
Qed.
