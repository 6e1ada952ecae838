(** Proofs about the parts of a pattern. *)
From Verif.Base Require Import Base.
From Verif.Ir Require Import Model Spec.
From Verif.Branch Require Import Model Spec.

(** The value of a part of the matched value. *)
Inductive pstate := PSat (v : val) | PNo | PUndef.

Section Parts.
Variable round32 : fp -> fp.
Variable h : heap.
Variable v0 : val.

Definition on_sat (s : pstate) (k : val -> pstate) : pstate :=
  match s with PSat v => k v | PNo => PNo | PUndef => PUndef end.

Definition loaded (v : val) : pstate :=
  match v with
  | VPtr a => match load h a with Some w => PSat w | None => PUndef end
  | _ => PUndef
  end.

Fixpoint partv (p : part) : pstate :=
  match p with
  | Root _ => PSat v0
  | Bind _ p => partv p
  | DerefElem p => on_sat (partv p) loaded
  | NonNullElem p => on_sat (partv p) (fun v => match v with VNull => PNo | _ => loaded v end)
  | Null p =>
      on_sat (partv p) (fun v => match v with VNull => PSat VUnit | VPtr _ => PNo | _ => PUndef end)
  | StructElem _ i p =>
      on_sat (partv p) (fun v =>
        match v with
        | VStruct _ vs => match nth_error vs i with Some w => PSat w | None => PUndef end
        | _ => PUndef
        end)
  | Reinterpret t p =>
      on_sat (partv p) (fun v =>
        match v with
        | VRein t' vs => if ct_eq_dec t' t then PSat (VStruct t' vs) else PUndef
        | _ => PUndef
        end)
  | SyntaxBody p => on_sat (partv p) (fun v => match v with VSyntax w => PSat w | _ => PUndef end)
  | Const c p =>
      on_sat (partv p) (fun v =>
        match equals_const round32 c v with
        | Some true => PSat VUnit
        | Some false => PNo
        | None => PUndef
        end)
  end.

(** Deciding parts one after the other, collecting the values bound. *)
Definition bound (p : part) (v : val) : list val := match p with Bind _ _ => [v] | _ => [] end.

Inductive run := RunYes (vs : list val) | RunNo | RunUndef.

Fixpoint run_parts (ps : list part) : run :=
  match ps with
  | [] => RunYes []
  | p :: ps =>
      match partv p with
      | PSat v => match run_parts ps with RunYes vs => RunYes (bound p v ++ vs) | r => r end
      | PNo => RunNo
      | PUndef => RunUndef
      end
  end.

Lemma run_app a b :
  run_parts (a ++ b) =
  match run_parts a with
  | RunYes vs => match run_parts b with RunYes ws => RunYes (vs ++ ws) | r => r end
  | r => r
  end.
Proof.
  induction a as [|p a IH]; cbn.
  - destruct (run_parts b); reflexivity.
  - rewrite IH. destruct (partv p); try reflexivity.
    destruct (run_parts a); try reflexivity.
    destruct (run_parts b); try reflexivity. rewrite app_assoc. reflexivity.
Qed.

Fixpoint part_ind_list (P : rtpat -> Prop)
  (Hvar : forall id ty, P (PVar id ty None))
  (Has : forall id ty p, P p -> P (PVar id ty (Some p)))
  (Hwild : forall ty, P (PWildcard ty))
  (Hderef : forall p, P p -> P (PDeref p))
  (Hnon : forall p, P p -> P (PNonNull p))
  (Hnull : forall ty, P (PNull ty))
  (Hdata : forall ty i ps, P (PData ty i ps))
  (Hstruct : forall ty ps, Forall P ps -> P (PStruct ty ps))
  (Hrein : forall ty p, P p -> P (PReinterpret ty p))
  (Hsyn : forall p, P p -> P (PSyntax p))
  (Hconst : forall c, P (PConst c)) (p : rtpat) {struct p} : P p :=
  let rec := part_ind_list P Hvar Has Hwild Hderef Hnon Hnull Hdata Hstruct Hrein Hsyn Hconst in
  match p with
  | PVar id ty None => Hvar id ty
  | PVar id ty (Some p) => Has id ty p (rec p)
  | PWildcard ty => Hwild ty
  | PDeref p => Hderef p (rec p)
  | PNonNull p => Hnon p (rec p)
  | PNull ty => Hnull ty
  | PData ty i ps => Hdata ty i ps
  | PStruct ty ps =>
      Hstruct ty ps
        ((fix go ps : Forall P ps :=
            match ps with [] => Forall_nil P | p :: ps => Forall_cons p (rec p) (go ps) end) ps)
  | PReinterpret ty p => Hrein ty p (rec p)
  | PSyntax p => Hsyn p (rec p)
  | PConst c => Hconst c
  end.

(** [q] is reached through [p]. *)
Fixpoint below (p q : part) : Prop :=
  p = q \/
  match q with
  | Root _ => False
  | Bind _ q | DerefElem q | NonNullElem q | Null q | StructElem _ _ q | Reinterpret _ q
  | SyntaxBody q | Const _ q => below p q
  end.

Lemma below_refl p : below p p.
Proof. destruct p; left; reflexivity. Qed.

Lemma below_no p q : below p q -> partv p = PNo -> partv q = PNo.
Proof.
  induction q; cbn; intros [->|B] N; try exact N; try contradiction;
    try (rewrite (IHq B N); reflexivity); exact (IHq B N).
Qed.

Lemma below_trans p q r : below p q -> below q r -> below p r.
Proof.
  intros A; induction r; intros [E|B]; try (subst q; exact A); try contradiction;
    right; exact (IHr B).
Qed.

(** What [collect] adds to the accumulator. *)
Definition collected (p : rtpat) : Prop :=
  forall par acc acc' b, collect p par acc = Ret (acc', b) ->
  exists parts binds, acc' = (fst acc ++ parts, snd acc ++ binds) /\
    map fst binds = pat_vars p /\
    Forall (below par) parts /\ (b = true -> parts <> []) /\ (b = false -> parts = []) /\
    (forall w, partv par = PSat w ->
       match pmatch round32 h p w with
       | MYes bs => run_parts parts = RunYes (map snd bs) /\ map fst bs = pat_vars p
       | MNo => run_parts parts = RunNo
       | MUndefined => True
       end).

Lemma run_below par parts :
  Forall (below par) parts -> parts <> [] -> partv par = PNo -> run_parts parts = RunNo.
Proof.
  destruct parts as [|p ps]; [congruence|].
  intros F _ N; cbn. inversion F as [|x y B F']; subst.
  rewrite (below_no par p B N). reflexivity.
Qed.

Lemma below_forall par q parts :
  below par q -> Forall (below q) parts -> Forall (below par) parts.
Proof.
  intros B F. eapply Forall_impl; [|exact F]. intros a A. exact (below_trans _ _ _ B A).
Qed.

Ltac step_below := cbn; right; apply below_refl.

Lemma collect_fields_exact ps : Forall collected ps ->
  forall i par acc acc' b, collect_fields collect ps i par acc = Ret (acc', b) ->
  exists parts binds, acc' = (fst acc ++ parts, snd acc ++ binds) /\
    map fst binds = flat_map pat_vars ps /\
    Forall (below par) parts /\ (b = true -> parts <> []) /\ (b = false -> parts = []) /\
    (forall t vs, partv par = PSat (VStruct t vs) ->
       match pmatch_fields (pmatch round32 h) ps (skipn i vs) with
       | MYes bs => run_parts parts = RunYes (map snd bs) /\ map fst bs = flat_map pat_vars ps
       | MNo => run_parts parts = RunNo
       | MUndefined => True
       end).
Proof.
  induction 1 as [|p ps HP HF IH]; intros i par acc acc' b E; cbn in E.
  - inversion E; subst. exists [], []. rewrite !app_nil_r. destruct acc'; cbn.
    split; [reflexivity|]. split; [reflexivity|]. split; [constructor|].
    split; [congruence|]. split; [reflexivity|]. intros t vs _.
    destruct (skipn i vs); cbn; split; reflexivity.
  - destruct (collect p (StructElem (pat_ty p) i par) acc) as [[acc1 b1]| |] eqn:E1;
      cbn in E; try discriminate.
    destruct (collect_fields collect ps (S i) par acc1) as [[acc2 b2]| |] eqn:E2;
      cbn in E; try discriminate.
    inversion E; subst.
    destruct (HP _ _ _ _ E1) as (pa & ba & -> & Va & Fa & Ta & Na & Ma).
    destruct (IH _ _ _ _ _ E2) as (pb & bb & -> & Vb & Fb & Tb & Nb & Mb).
    exists (pa ++ pb), (ba ++ bb). cbn. rewrite !app_assoc.
    split; [reflexivity|]. split; [rewrite map_app; f_equal; [exact Va|exact Vb]|].
    split.
    { apply Forall_app. split; [|exact Fb]. eapply below_forall; [|exact Fa]. step_below. }
    split.
    { destruct b1; cbn; [intros _ C; apply (Ta eq_refl); apply app_eq_nil in C; apply C|].
      intros ->; cbn. intros C. apply (Tb eq_refl). apply app_eq_nil in C; apply C. }
    split.
    { destruct b1; cbn; [discriminate|]. intros ->. rewrite (Na eq_refl), (Nb eq_refl). reflexivity. }
    intros t vs S.
    destruct (skipn i vs) as [|v rest] eqn:Ek; cbn; [exact I|].
    assert (nth_error vs i = Some v /\ skipn (Datatypes.S i) vs = rest) as [En Es].
    { clear - Ek. revert vs Ek. induction i as [|i IHi]; intros [|x vs] Ek; cbn in *;
        try discriminate; [inversion Ek; subst; split; reflexivity|apply IHi; exact Ek]. }
    assert (PS : partv (StructElem (pat_ty p) i par) = PSat v) by (cbn; rewrite S; cbn; rewrite En; reflexivity).
    specialize (Ma _ PS). specialize (Mb _ _ S). rewrite Es in Mb.
    rewrite run_app.
    destruct (pmatch round32 h p v) as [bs| |]; cbn; [|rewrite Ma; reflexivity|exact I].
    destruct Ma as [-> Fst1].
    destruct (pmatch_fields (pmatch round32 h) ps rest) as [cs| |]; cbn; [|rewrite Mb; reflexivity|exact I].
    destruct Mb as [-> Fst2]. rewrite !map_app, Fst1, Fst2. split; reflexivity.
Qed.

Lemma collect_exact p : collected p.
Proof.
  induction p using part_ind_list; intros par acc acc' b E; cbn in E.
  - inversion E; subst. exists [Bind id par], [(id, ty)]. cbn.
    split; [reflexivity|]. split; [reflexivity|]. split; [constructor; [step_below|constructor]|].
    split; [discriminate|]. split; [discriminate|].
    intros w S. cbn. rewrite S. split; reflexivity.
  - destruct (collect p par _) as [[acc1 b1]| |] eqn:E1; cbn in E; try discriminate.
    inversion E; subst. destruct (IHp _ _ _ _ E1) as (pa & ba & -> & Va & Fa & Ta & Na & Ma).
    cbn. exists (Bind id par :: pa), ((id, ty) :: ba). rewrite <- !app_assoc. cbn.
    split; [reflexivity|]. split; [f_equal; exact Va|].
    split; [constructor; [step_below|exact Fa]|]. split; [discriminate|]. split; [discriminate|].
    intros w S. specialize (Ma _ S). rewrite S.
    destruct (pmatch round32 h p w) as [bs| |]; cbn; [|rewrite Ma; reflexivity|exact I].
    destruct Ma as [-> <-]. split; reflexivity.
  - inversion E; subst. exists [], []. rewrite !app_nil_r. destruct acc'; cbn.
    split; [reflexivity|]. split; [reflexivity|]. split; [constructor|].
    split; [congruence|]. split; [reflexivity|]. intros; split; reflexivity.
  - destruct (IHp _ _ _ _ E) as (pa & ba & -> & Va & Fa & Ta & Na & Ma).
    exists pa, ba. split; [reflexivity|]. split; [exact Va|].
    split; [eapply below_forall; [|exact Fa]; step_below|]. split; [exact Ta|]. split; [exact Na|].
    intros w S. cbn. destruct w; try exact I. destruct (load h a) as [x|] eqn:L; [|exact I].
    apply Ma. cbn. rewrite S. cbn. rewrite L. reflexivity.
  - destruct (collect p (NonNullElem par) acc) as [[acc1 b1]| |] eqn:E1; cbn in E; try discriminate.
    destruct (IHp _ _ _ _ E1) as (pa & ba & -> & Va & Fa & Ta & Na & Ma).
    destruct b1; inversion E; subst; cbn.
    + exists pa, ba. split; [reflexivity|]. split; [exact Va|].
      split; [eapply below_forall; [|exact Fa]; step_below|]. split; [exact Ta|].
      split; [discriminate|].
      intros w S. destruct w; try exact I.
      * apply (run_below (NonNullElem par)); [exact Fa|exact (Ta eq_refl)|].
        cbn. rewrite S. reflexivity.
      * destruct (load h a) as [x|] eqn:L; [|exact I].
        apply Ma. cbn. rewrite S. cbn. rewrite L. reflexivity.
    + exists [NonNullElem par], ba. rewrite (Na eq_refl), app_nil_r.
      split; [reflexivity|]. split; [exact Va|].
      split; [constructor; [step_below|constructor]|]. split; [discriminate|]. split; [discriminate|].
      intros w S. cbn. rewrite S. cbn. destruct w; try exact I; [reflexivity|].
      cbn. destruct (load h a) as [x|] eqn:L; [|exact I].
      assert (PS : partv (NonNullElem par) = PSat x) by (cbn; rewrite S; cbn; rewrite L; reflexivity).
      specialize (Ma _ PS). rewrite (Na eq_refl) in Ma. cbn in Ma.
      destruct (pmatch round32 h p x) as [bs| |]; [|discriminate Ma|exact I].
      exact Ma.
  - inversion E; subst. exists [Null par], []. rewrite app_nil_r. cbn.
    split; [reflexivity|]. split; [reflexivity|]. split; [constructor; [step_below|constructor]|].
    split; [discriminate|]. split; [discriminate|].
    intros w S. rewrite S. destruct w; cbn; try exact I; [split; reflexivity|reflexivity].
  - discriminate E.
  - destruct (collect_fields_exact ps H _ _ _ _ _ E) as (pa & ba & -> & Va & Fa & Ta & Na & Ma).
    exists pa, ba. split; [reflexivity|]. split; [exact Va|]. split; [exact Fa|].
    split; [exact Ta|]. split; [exact Na|].
    intros w S. cbn. destruct w; try exact I. exact (Ma _ _ S).
  - destruct (IHp _ _ _ _ E) as (pa & ba & -> & Va & Fa & Ta & Na & Ma).
    exists pa, ba. split; [reflexivity|]. split; [exact Va|].
    split; [eapply below_forall; [|exact Fa]; step_below|]. split; [exact Ta|]. split; [exact Na|].
    intros w S. cbn. destruct w; try exact I. destruct (ct_eq_dec t (pat_ty p)) as [->|N]; [|exact I].
    apply Ma. cbn. rewrite S. cbn. destruct (ct_eq_dec (pat_ty p) (pat_ty p)); [reflexivity|congruence].
  - destruct (IHp _ _ _ _ E) as (pa & ba & -> & Va & Fa & Ta & Na & Ma).
    exists pa, ba. split; [reflexivity|]. split; [exact Va|].
    split; [eapply below_forall; [|exact Fa]; step_below|]. split; [exact Ta|]. split; [exact Na|].
    intros w S. cbn. destruct w; try exact I. apply Ma. cbn. rewrite S. reflexivity.
  - inversion E; subst. exists [Const c par], []. rewrite app_nil_r. cbn.
    split; [reflexivity|]. split; [reflexivity|]. split; [constructor; [step_below|constructor]|].
    split; [discriminate|]. split; [discriminate|].
    intros w S. rewrite S. cbn. destruct (equals_const round32 c w) as [[|]|]; cbn; try exact I;
      [split; reflexivity|reflexivity].
Qed.

Lemma flatten_exact p parts binds : flatten p = Ret (parts, binds) ->
  map fst binds = pat_vars p /\
  match pmatch round32 h p v0 with
  | MYes bs => run_parts parts = RunYes (map snd bs) /\ map fst bs = pat_vars p
  | MNo => run_parts parts = RunNo
  | MUndefined => True
  end.
Proof.
  unfold flatten. destruct (collect p (Root (pat_ty p)) ([], [])) as [[acc b]| |] eqn:E; cbn;
    try discriminate.
  destruct (collect_exact p _ _ _ _ E) as (pa & ba & -> & Va & _ & _ & _ & Ma); cbn.
  intros X; inversion X; subst. split; [exact Va|]. apply Ma. reflexivity.
Qed.

End Parts.

(** ** Static facts about the collected parts *)

(** Not a leaf of the pattern. *)
Definition inner (p : part) : Prop :=
  match p with Bind _ _ | Null _ | Const _ _ => False | _ => True end.

(** A part of a value of type [ty]: every step from the root is well typed. *)
Fixpoint wf_part (ty : ct) (p : part) : Prop :=
  match p with
  | Root t => t = ty
  | Bind _ p => (inner p /\ wf_part ty p) /\ exists t, part_ty p = Ret t
  | DerefElem p | NonNullElem p | Null p =>
      (inner p /\ wf_part ty p) /\ exists t, part_ty p = Ret (CtPtr t)
  | StructElem _ _ p | Reinterpret _ p => (inner p /\ wf_part ty p) /\ exists t, part_ty p = Ret t
  | SyntaxBody p => (inner p /\ wf_part ty p) /\ exists t, part_ty p = Ret (CtSyntax t)
  | Const c p => (inner p /\ wf_part ty p) /\ part_ty p = Ret (const_ty c) /\
                 match c with KSyntaxSexp _ _ => False | _ => True end
  end.

Definition leaf_ok (ty : ct) (cs : list const) (p : part) : Prop :=
  wf_part ty p /\ match p with Const c _ => In c cs | _ => True end.

Definition binds_of (ps : list part) : list nat :=
  flat_map (fun p => match p with Bind id _ => [id] | _ => [] end) ps.

Lemma binds_of_app a b : binds_of (a ++ b) = binds_of a ++ binds_of b.
Proof. apply flat_map_app. Qed.

Definition collects (ty : ct) (p : rtpat) : Prop :=
  forall par acc, wf_part ty par -> inner par -> part_ty par = Ret (pat_ty p) -> pat_ok p ->
  exists parts binds b, collect p par acc = Ret (fst acc ++ parts, snd acc ++ binds, b) /\
    Forall (leaf_ok ty (pat_consts p)) parts /\ binds_of parts = pat_vars p.

Lemma leaf_mono ty cs ds p : incl cs ds -> leaf_ok ty cs p -> leaf_ok ty ds p.
Proof.
  intros I (A & B). split; [exact A|]. destruct p; try exact B. exact (I _ B).
Qed.

Lemma collects_fields ty ps : Forall (collects ty) ps ->
  forall i par acc t, wf_part ty par -> inner par -> part_ty par = Ret t ->
  fold_right (fun p q => pat_ok p /\ q) True ps ->
  exists parts binds b, collect_fields collect ps i par acc = Ret (fst acc ++ parts, snd acc ++ binds, b) /\
    Forall (leaf_ok ty (flat_map pat_consts ps)) parts /\ binds_of parts = flat_map pat_vars ps.
Proof.
  induction 1 as [|p ps HP HF IH]; intros i par acc t W In T OK; cbn in *.
  - exists [], [], false. rewrite !app_nil_r. destruct acc. repeat split. constructor.
  - destruct OK as [O1 O2].
    destruct (HP (StructElem (pat_ty p) i par) acc) as (pa & ba & b1 & E1 & F1 & V1); auto.
    { cbn. split; [split; [exact In|exact W]|]. exists t. exact T. }
    { exact I. }
    rewrite E1; cbn.
    destruct (IH (S i) par (fst acc ++ pa, snd acc ++ ba) t W In T O2) as (pb & bb & b2 & E2 & F2 & V2).
    rewrite E2; cbn. exists (pa ++ pb), (ba ++ bb), (b1 || b2). rewrite !app_assoc.
    split; [reflexivity|]. split; [|rewrite binds_of_app, V1, V2; reflexivity].
    apply Forall_app. split.
    + eapply Forall_impl; [|exact F1]. intros q. apply leaf_mono. apply incl_appl, incl_refl.
    + eapply Forall_impl; [|exact F2]. intros q. apply leaf_mono. apply incl_appr, incl_refl.
Qed.

Lemma collects_all ty p : collects ty p.
Proof.
  induction p using part_ind_list; intros par acc W Inn T OK; cbn in *.
  - exists [Bind id par], [(id, ty0)], true. split; [reflexivity|]. split; [|reflexivity].
    constructor; [|constructor]. split; [cbn; split; [split; [exact Inn|exact W]|eexists; exact T]|].
    exact I.
  - destruct OK as [Ety OK]. subst ty0.
    destruct (IHp par (fst acc ++ [Bind id par], snd acc ++ [(id, pat_ty p)]) W Inn T OK)
      as (pa & ba & b & E & F & V). rewrite E; cbn.
    exists (Bind id par :: pa), ((id, pat_ty p) :: ba), true. rewrite <- !app_assoc.
    split; [reflexivity|]. split; [|cbn; f_equal; exact V].
    constructor; [|exact F]. split; [cbn; split; [split; [exact Inn|exact W]|eexists; exact T]|].
    exact I.
  - exists [], [], false. rewrite !app_nil_r. destruct acc. repeat split. constructor.
  - destruct (IHp (DerefElem par) acc) as (pa & ba & b & E & F & V); auto.
    { cbn. split; [split; [exact Inn|exact W]|]. eexists; exact T. } { exact I. } { cbn. rewrite T. reflexivity. }
    exists pa, ba, b. auto.
  - assert (WN : wf_part ty (NonNullElem par)) by (cbn; split; [split; [exact Inn|exact W]|eexists; exact T]).
    destruct (IHp (NonNullElem par) acc) as (pa & ba & b & E & F & V); auto.
    { exact I. } { cbn. rewrite T. reflexivity. }
    rewrite E; cbn. destruct b.
    + exists pa, ba, true. auto.
    + exists (pa ++ [NonNullElem par]), ba, true. rewrite <- app_assoc.
      split; [reflexivity|]. split; [|rewrite binds_of_app, V; cbn; rewrite app_nil_r; reflexivity].
      apply Forall_app. split; [exact F|]. constructor; [|constructor].
      split; [exact WN|]. exact I.
  - exists [Null par], [], true. rewrite app_nil_r. split; [reflexivity|]. split; [|reflexivity].
    constructor; [|constructor]. split; [cbn; split; [split; [exact Inn|exact W]|eexists; exact T]|].
    exact I.
  - contradiction.
  - destruct (collects_fields ty ps H 0 par acc _ W Inn T OK) as (pa & ba & b & E & F & V).
    exists pa, ba, b. auto.
  - destruct (IHp (Reinterpret (pat_ty p) par) acc) as (pa & ba & b & E & F & V); auto.
    { cbn. split; [split; [exact Inn|exact W]|]. eexists; exact T. } { exact I. }
    exists pa, ba, b. auto.
  - destruct (IHp (SyntaxBody par) acc) as (pa & ba & b & E & F & V); auto.
    { cbn. split; [split; [exact Inn|exact W]|]. eexists; exact T. } { exact I. } { cbn. rewrite T. reflexivity. }
    exists pa, ba, b. auto.
  - exists [Const c par], [], true. rewrite app_nil_r. split; [reflexivity|]. split; [|reflexivity].
    constructor; [|constructor]. split; [cbn; split; [split; [exact Inn|exact W]|split; [exact T|]]|].
    { destruct c; auto. }
    cbn; left; reflexivity.
Qed.

Lemma flatten_wf p ty : pat_ok p -> pat_ty p = ty ->
  exists parts binds, flatten p = Ret (parts, binds) /\
    Forall (leaf_ok ty (pat_consts p)) parts /\ binds_of parts = pat_vars p.
Proof.
  intros OK <-. unfold flatten.
  destruct (collects_all (pat_ty p) p (Root (pat_ty p)) ([], [])) as (pa & ba & b & E & F & V);
    auto; try exact I; try reflexivity.
  rewrite E; cbn. exists pa, ba. auto.
Qed.
