(** Kinds, types, patterns and expressions. *)
From Verif.Base Require Import Base BaseFacts Assoc.
From Verif.Scope Require Import Model Spec Proofs.
From Verif.Resolve Require Import Model Spec ProofsBase.

Section KindInd.
  Variable P : kind -> Prop.
  Hypothesis Huse : forall s, P (KUse s).
  Hypothesis Hfun : forall args ret, Forall P args -> P ret -> P (KFun args ret).
  Hypothesis H1 : P KType. Hypothesis H2 : P KConstraint. Hypothesis H3 : P KSatisfaction. Hypothesis H4 : P KValue. Hypothesis H5 : P KMacro.
  Fixpoint kind_ind' (k : kind) : P k :=
    match k with
    | KUse s => Huse s
    | KFun args ret => Hfun args ret ((fix go l : Forall P l := match l with [] => Forall_nil P | a :: l => Forall_cons a (kind_ind' a) (go l) end) args) (kind_ind' ret)
    | KType => H1 | KConstraint => H2 | KSatisfaction => H3 | KValue => H4 | KMacro => H5
    end.
End KindInd.
Section TyInd.
  Variable P : ty -> Prop.
  Hypothesis Huse : forall s, P (TUse s).
  Hypothesis Hcon : forall c, P (TCon c).
  Hypothesis Hgen : forall c, P (TGen c).
  Hypothesis Happ : forall t ts, P t -> Forall P ts -> P (TApp t ts).
  Fixpoint ty_ind' (t : ty) : P t :=
    match t with
    | TUse s => Huse s
    | TCon c => Hcon c
    | TGen c => Hgen c
    | TApp t ts => Happ t ts (ty_ind' t) ((fix go l : Forall P l := match l with [] => Forall_nil P | a :: l => Forall_cons a (ty_ind' a) (go l) end) ts)
    end.
End TyInd.
Definition each {A} (P : A -> Prop) (o : option A) : Prop := match o with Some a => P a | None => True end.
Section PatternInd.
  Variable P : pattern -> Prop.
  Hypothesis Hvar : forall b o, each P o -> P (PVar b o).
  Hypothesis Hwild : P PWildcard.
  Hypothesis Hdecon : forall u o, each (Forall P) o -> P (PDecon u o).
  Hypothesis Hconst : forall k, P (PConst k).
  Fixpoint pattern_ind' (p : pattern) : P p :=
    match p with
    | PVar b o => Hvar b o match o as o return each P o with Some p => pattern_ind' p | None => I end
    | PWildcard => Hwild
    | PDecon u o => Hdecon u o match o as o return each (Forall P) o with
        | Some l => (fix go l : Forall P l := match l with [] => Forall_nil P | a :: l => Forall_cons a (pattern_ind' a) (go l) end) l
        | None => I end
    | PConst k => Hconst k
    end.
End PatternInd.
Section ExprInd.
  Variable P : expr -> Prop.
  Variable Q : def -> Prop.
  Hypothesis Huse : forall u, P (EUse u).
  Hypothesis Hcon : forall c, P (ECon c).
  Hypothesis Hconst : forall k, P (EConst k).
  Hypothesis Happ : forall e es, P e -> Forall P es -> P (EApp e es).
  Hypothesis Hcapture : forall u, P (ECapture u).
  Hypothesis Hann : forall e t, P e -> P (EAnnotate e t).
  Hypothesis Hlet : forall ds e, Forall Q ds -> P e -> P (ELet ds e).
  Hypothesis Hseq : forall es e, Forall P es -> P e -> P (ESeq es e).
  Hypothesis Hif : forall c t e, P c -> P t -> P e -> P (EIf c t e).
  Hypothesis Hwhile : forall c e, P c -> P e -> P (EWhile c e).
  Hypothesis Hmatch : forall e cs, P e -> Forall (fun c => P (snd c)) cs -> P (EMatch e cs).
  Hypothesis Hreturn : forall o, each P o -> P (EReturn o).
  Hypothesis Hdvar : forall b t e, P e -> Q (DVar b t e).
  Hypothesis Hdfun : forall b a ps e, P e -> Q (DFun b a ps e).
  Fixpoint expr_ind' (e : expr) : P e :=
    match e with
    | EUse u => Huse u
    | ECon c => Hcon c
    | EConst k => Hconst k
    | EApp e es => Happ e es (expr_ind' e) ((fix go l : Forall P l := match l with [] => Forall_nil P | a :: l => Forall_cons a (expr_ind' a) (go l) end) es)
    | ECapture u => Hcapture u
    | EAnnotate e t => Hann e t (expr_ind' e)
    | ELet ds e => Hlet ds e ((fix go l : Forall Q l := match l with [] => Forall_nil Q | a :: l => Forall_cons a (def_ind' a) (go l) end) ds) (expr_ind' e)
    | ESeq es e => Hseq es e ((fix go l : Forall P l := match l with [] => Forall_nil P | a :: l => Forall_cons a (expr_ind' a) (go l) end) es) (expr_ind' e)
    | EIf c t e => Hif c t e (expr_ind' c) (expr_ind' t) (expr_ind' e)
    | EWhile c e => Hwhile c e (expr_ind' c) (expr_ind' e)
    | EMatch e cs => Hmatch e cs (expr_ind' e)
        ((fix go l : Forall (fun c => P (snd c)) l := match l with [] => Forall_nil _ | (p, e) :: l => Forall_cons (p, e) (expr_ind' e) (go l) end) cs)
    | EReturn o => Hreturn o match o as o return each P o with Some e => expr_ind' e | None => I end
    end
  with def_ind' (d : def) : Q d :=
    match d with
    | DVar b t e => Hdvar b t e (expr_ind' e)
    | DFun b a ps e => Hdfun b a ps e (expr_ind' e)
    end.
End ExprInd.

(** A value with several parts. *)
Ltac inv H := inversion H; subst; clear H.

Section Resolver.
Variable variant_of : N -> variant.
Variable order : stash -> stash.
Hypothesis Horder : forall st, Permutation (order st) st.

Lemma sem_kind k G : sem (resolve_kind order k) G (fun k' => kind_ok k /\ k' = k).
Proof.
  induction k as [s|args ret IHs IH| | | | | ] using kind_ind'; cbn [resolve_kind]; try (eapply sem_ext; [apply sem_ret|]; intros k'; split; [intros ->; split; [constructor|reflexivity]|intros (_ & ->); reflexivity]).
  - eapply sem_ext; [apply (sem_bind _ _ _ _ (fun _ _ => False) (sem_get order Horder s _ G)); intros c _; apply sem_fail|]. intros k'. split; [intros (? & _ & [])|]. intros (H & _). inv H.
  - eapply sem_ext; [eapply sem_bind; [apply sem_all; exact IHs|]; intros args' H; eapply sem_bind; [exact IH|]; intros ret' H'; apply sem_ret|]. intros k'. cbn. split.
    + intros (args' & Ha & ret' & (Hr & ->) & ->).
      assert (E : Forall kind_ok args /\ args' = args). { clear -Ha. induction Ha as [|a b l l' (Hk & ->) _ IH]; [split; [constructor|reflexivity]|]. destruct IH as (H & ->). split; [constructor; assumption|reflexivity]. }
      destruct E as (HF & ->). split; [constructor; assumption|reflexivity].
    + intros (H & ->). inv H. exists args. split; [|exists ret; auto]. match goal with HF : Forall kind_ok args |- _ => clear -HF; induction HF; constructor; auto end.
Qed.

Lemma type_con_true c : is_type_con (variant_of c) = true <-> a_type_con variant_of c.
Proof. unfold a_type_con. destruct (variant_of c); cbn; split; intros H; try discriminate; auto; destruct H; discriminate. Qed.
Lemma type_parameter_true c : is_type_parameter (variant_of c) = true <-> a_type_parameter variant_of c.
Proof. unfold a_type_parameter. destruct (variant_of c); cbn; split; intros H; try discriminate; auto. Qed.
Lemma value_con_true c : is_value_con (variant_of c) = true <-> a_value_con variant_of c.
Proof. unfold a_value_con. destruct (variant_of c); cbn; split; intros H; try discriminate; auto; destruct H; discriminate. Qed.
Lemma value_true c : is_value (variant_of c) = true <-> a_value variant_of c.
Proof. unfold a_value. destruct (variant_of c); cbn; split; intros H; try discriminate; try tauto; repeat (destruct H as [H|H]; try discriminate H); destruct H. Qed.
Lemma class_true c : is_class (variant_of c) = true <-> a_class variant_of c.
Proof. unfold a_class. destruct (variant_of c); cbn; split; intros H; try discriminate; auto. Qed.

Lemma sem_if {A} (b : bool) (m m' : M A) G P P' : (b = true -> sem m G P) -> (b = false -> sem m' G P') -> sem (if b then m else m') G (fun a => b = true /\ P a \/ b = false /\ P' a).
Proof. destruct b; intros H H'; [eapply sem_ext; [exact (H eq_refl)|]|eapply sem_ext; [exact (H' eq_refl)|]]; intros a; intuition discriminate. Qed.

Lemma sem_ty t : forall G, sem (resolve_ty variant_of order t) G (ty_ok variant_of G t).
Proof.
  induction t as [s|c|c|t ts IH IHs] using ty_ind'; intros G; cbn [resolve_ty].
  - eapply sem_ext; [eapply sem_bind; [apply sem_get; exact Horder|]; intros c _; apply sem_if; [intros _; apply sem_ret|intros _; apply sem_if; [intros _; apply sem_ret|intros _; apply sem_fail]]|].
    intros t. cbn. split.
    + intros (c & HG & [(Hb & ->)|(Hb & [(Hb' & ->)|(_ & [])])]); [apply to_con; [exact HG|apply type_con_true, Hb]|apply to_param; [exact HG|apply type_parameter_true, Hb']].
    + intros H. inv H; (exists c; split; [assumption|]).
      * left. split; [apply type_con_true; assumption|reflexivity].
      * right. assert (Hp : a_type_parameter variant_of c) by assumption. split; [unfold a_type_parameter in Hp; rewrite Hp; reflexivity|]. left. split; [apply type_parameter_true, Hp|reflexivity].
  - eapply sem_ext; [apply sem_ret|]. intros t. split; [intros ->; constructor|]. intros H. inv H. reflexivity.
  - eapply sem_ext; [apply sem_ret|]. intros t. split; [intros ->; constructor|]. intros H. inv H. reflexivity.
  - eapply sem_ext; [eapply sem_bind; [apply IH|]; intros t' _; eapply sem_bind; [apply sem_all; eapply Forall_impl; [|exact IHs]; intros a H; exact (H G)|]; intros ts' _; apply sem_ret|].
    intros x. cbn. split; [intros (t' & Ht & ts' & Hts & ->); constructor; assumption|]. intros H. inv H. do 2 (eexists; split; [eassumption|]). reflexivity.
Qed.
Lemma sem_tys ts G : sem (m_all (resolve_ty variant_of order) ts) G (Forall2 (ty_ok variant_of G) ts).
Proof. apply sem_all, Forall_forall. intros t _. apply sem_ty. Qed.

Lemma sem_use what fits sort u G : (forall c, fits (variant_of c) = true <-> sort c) -> sem (resolve_use variant_of order what fits u) G (use_ok sort G u).
Proof.
  intros Hs. destruct u as [s|c]; cbn [resolve_use].
  - eapply sem_ext; [eapply sem_bind; [apply sem_get; exact Horder|]; intros c _; apply sem_if; [intros _; apply sem_ret|intros _; apply sem_fail]|]. intros u. cbn. split.
    + intros (c & HG & [(Hb & ->)|(_ & [])]). constructor; [exact HG|apply Hs, Hb].
    + intros H. inv H. exists c. split; [assumption|]. left. split; [apply Hs; assumption|reflexivity].
  - eapply sem_ext; [apply sem_ret|]. intros t. split; [intros ->; constructor|]. intros H. inv H. reflexivity.
Qed.

Lemma sem_constr k G : sem (resolve_constr variant_of order k) G (constr_ok variant_of G k).
Proof.
  unfold resolve_constr. eapply sem_ext; [eapply sem_bind; [apply sem_use, class_true|]; intros c _; eapply sem_bind; [apply sem_tys|]; intros args _; apply sem_ret|].
  intros [c args]. unfold constr_ok. cbn. split; [intros (c' & Hc & args' & Ha & [= -> ->]); auto|]. intros (Hc & Ha). exists c. split; [exact Hc|]. exists args. auto.
Qed.
Lemma sem_constrs ks G : sem (m_all (resolve_constr variant_of order) ks) G (Forall2 (constr_ok variant_of G) ks).
Proof. apply sem_all, Forall_forall. intros t _. apply sem_constr. Qed.

Definition annotated (ps : list typaram) : Prop := forall p k, In p ps -> tp_ann p = Some k -> kind_ok k.
Lemma sem_typarams ps G : sem (m_all (resolve_typaram order) ps) G (fun ps' => annotated ps /\ ps' = ps).
Proof.
  eapply sem_ext; [apply (sem_all _ _ (fun p p' => (forall k, tp_ann p = Some k -> kind_ok k) /\ p' = p))|].
  - apply Forall_forall. intros p _. unfold resolve_typaram. eapply sem_ext; [eapply sem_bind; [apply sem_opt; intros k _; apply sem_kind|]; intros a _; apply sem_ret|]. intros [b o]. destruct p as [b0 o0]. cbn. split.
    + intros (a & Ha & [= -> ->]). inv Ha; [|split; [discriminate|reflexivity]]. match goal with HK : _ /\ _ |- _ => destruct HK as (HK & ->) end. split; [intros k [= <-]; assumption|reflexivity].
    + intros (Hk & [= -> ->]). exists o0. split; [|reflexivity]. destruct o0 as [k|]; constructor. split; [apply Hk; reflexivity|reflexivity].
  - intros ps'. unfold annotated. split.
    + intros H. induction H as [|p p' l l' (Hk & ->) _ IH]; [split; [intros p k []|reflexivity]|]. destruct IH as (IH & ->). split; [|reflexivity]. intros p0 k [<-|Hin] E; [exact (Hk k E)|exact (IH p0 k Hin E)].
    + intros (H & ->). induction ps as [|p ps IH]; constructor; [|apply IH; intros p0 k Hin; apply (H p0 k); right; exact Hin]. split; [|reflexivity]. intros k. apply H. left. reflexivity.
Qed.

Lemma sem_scheme s G : sem (resolve_scheme variant_of order s) G (scheme_ok variant_of G s).
Proof.
  unfold resolve_scheme. eapply sem_ext.
  - eapply sem_bind_eq; [apply sem_typarams|]. eapply sem_on; [exact Horder|apply Permutation_refl|]. eapply sem_bind; [apply sem_constrs|]. intros ks _. eapply sem_bind; [apply sem_ty|]. intros t _. apply sem_ret.
  - intros [ps ks t]. unfold scheme_ok, typarams_ok. cbn. split.
    + intros (Ha & HD & ks' & Hk & t' & Ht & [= -> -> ->]). repeat split; assumption.
    + intros ((HD & Ha) & -> & Hk & Ht). split; [exact Ha|]. split; [exact HD|]. do 2 (eexists; split; [eassumption|]). reflexivity.
Qed.
Lemma ann_quantified G o o' : optional (scheme_ok variant_of G) o o' -> ann_defs o' = quantified o /\ distinct (quantified o).
Proof. intros H. inv H; cbn; [|split; [reflexivity|constructor]]. match goal with HS : scheme_ok _ _ _ _ |- _ => destruct HS as ((HD & _) & E & _) end. unfold scheme_defs. rewrite E. auto. Qed.

Lemma sem_pattern p : forall G, sem (resolve_pattern variant_of order p) G (pattern_ok variant_of G p).
Proof.
  induction p as [b o IH| |u o IH|k] using pattern_ind'; intros G; cbn [resolve_pattern].
  - eapply sem_ext; [eapply sem_bind; [apply sem_opt; intros p ->; exact (IH G)|]; intros o' _; apply sem_ret|]. intros q. cbn. split; [intros (o' & Ho & ->); constructor; exact Ho|]. intros H. inv H. eexists. split; [eassumption|reflexivity].
  - eapply sem_ext; [apply sem_ret|]. intros q. split; [intros ->; constructor|]. intros H. inv H. reflexivity.
  - eapply sem_ext; [eapply sem_bind; [apply sem_use, value_con_true|]; intros u' _; eapply sem_bind; [apply sem_opt; intros ps ->; apply sem_all; eapply Forall_impl; [|exact IH]; intros p H; exact (H G)|]; intros o' _; apply sem_ret|].
    intros q. cbn. split; [intros (u' & Hu & o' & Ho & ->); constructor; assumption|]. intros H. inv H. do 2 (eexists; split; [eassumption|]). reflexivity.
  - eapply sem_ext; [apply sem_ret|]. intros q. split; [intros ->; constructor|]. intros H. inv H. reflexivity.
Qed.
Lemma pattern_variables G p : forall p', pattern_ok variant_of G p p' -> Permutation (pattern_defs p') (variables p).
Proof.
  induction p as [b o IH| |u o IH|k] using pattern_ind'; intros p' H; inv H; cbn [pattern_defs variables]; try apply Permutation_refl.
  - match goal with H : optional _ o _ |- _ => inv H end.
    + eapply Permutation_trans; [apply Permutation_app_comm|]. cbn. constructor. apply IH. assumption.
    + apply Permutation_refl.
  - match goal with H : optional _ o _ |- _ => inv H end; [|apply Permutation_refl]. cbn [each] in IH. match goal with H : Forall2 _ _ _ |- _ => induction H as [|p q l l' Hp _ IHl] end; [apply Permutation_refl|].
    inversion_clear IH as [|? ? IHp IHl']. cbn [flat_map]. apply Permutation_app; [apply IHp, Hp|apply IHl, IHl'].
Qed.

Lemma defined_binders G ds ds' : Forall2 (def_ok variant_of G) ds ds' -> map def_binder ds' = defined ds.
Proof. unfold defined. intros H. induction H as [|d d' l l' Hd _ IH]; [reflexivity|]. cbn [map]. f_equal; [|exact IH]. inv Hd; reflexivity. Qed.
Lemma functions_local ds : local_functions ds = functions ds.
Proof. unfold local_functions, functions, defined. induction ds as [|[]]; cbn; congruence. Qed.
Lemma functions_distinct ds : distinct (defined ds) -> distinct (functions ds).
Proof.
  unfold distinct, names, functions, defined. rewrite !map_map. induction ds as [|d ds IH]; cbn [filter map]; intros H; [constructor|]. inversion_clear H as [|? ? Hn H']. specialize (IH H'). destruct (is_fun d); [|exact IH]. cbn [map]. constructor; [|exact IH].
  intros Hin. apply Hn. apply in_map_iff in Hin. destruct Hin as (d' & E & Hin). apply in_map_iff. exists d'. split; [exact E|]. apply filter_In in Hin. apply Hin.
Qed.

Lemma sem_expr e : forall G, sem (resolve_expr variant_of order e) G (expr_ok variant_of G e).
Proof.
  induction e as [u|c|k|e es IH IHs|u|e t IH|ds e IHs IH|es e IHs IH|c t e IHc IHt IHe|c e IHc IHe|e cs IH IHs|o IH|b t e IH|b a ps e IH]
    using expr_ind' with (Q := fun d => forall G, sem (resolve_def variant_of order d) G (def_ok variant_of G d)); intros G; cbn [resolve_expr resolve_def].
  - destruct u as [s|c].
    + eapply sem_ext; [eapply sem_bind; [apply sem_get; exact Horder|]; intros c _; apply sem_if; [intros _; apply sem_ret|intros _; apply sem_if; [intros _; apply sem_ret|intros _; apply sem_fail]]|].
      intros x. cbn. split.
      * intros (c & HG & [(Hb & ->)|(Hb & [(Hb' & ->)|(_ & [])])]); [apply eo_value; [exact HG|apply value_true, Hb]|apply eo_value_con; [exact HG|apply value_con_true, Hb']].
      * intros H. inv H; (exists c; split; [assumption|]).
        -- left. split; [apply value_true; assumption|reflexivity].
        -- right. assert (Hp : a_value_con variant_of c) by assumption. split; [destruct Hp as [Hp|Hp]; rewrite Hp; reflexivity|]. left. split; [apply value_con_true, Hp|reflexivity].
    + eapply sem_ext; [apply sem_ret|]. intros x. split; [intros ->; constructor|]. intros H. inv H. reflexivity.
  - eapply sem_ext; [apply sem_ret|]. intros x. split; [intros ->; constructor|]. intros H. inv H. reflexivity.
  - eapply sem_ext; [apply sem_ret|]. intros x. split; [intros ->; constructor|]. intros H. inv H. reflexivity.
  - eapply sem_ext; [eapply sem_bind; [apply IH|]; intros e' _; eapply sem_bind; [apply sem_all; eapply Forall_impl; [|exact IHs]; intros a H; exact (H G)|]; intros es' _; apply sem_ret|].
    intros x. cbn. split; [intros (e' & He & es' & Hes & ->); constructor; assumption|]. intros H. inv H. do 2 (eexists; split; [eassumption|]). reflexivity.
  - destruct u as [s|c].
    + eapply sem_ext; [eapply sem_bind; [apply sem_get; exact Horder|]; intros c _; apply sem_ret|]. intros x. cbn. split.
      * intros (c & HG & ->). constructor. constructor; [exact HG|exact I].
      * intros H. inv H. match goal with H : use_ok _ _ _ _ |- _ => inv H end. exists c. auto.
    + eapply sem_ext; [apply sem_ret|]. intros x. split; [intros ->; constructor; constructor|]. intros H. inv H. match goal with H : use_ok _ _ _ _ |- _ => inv H end. reflexivity.
  - eapply sem_ext; [eapply sem_bind; [apply IH|]; intros e' _; eapply sem_bind; [apply sem_ty|]; intros t' _; apply sem_ret|].
    intros x. cbn. split; [intros (e' & He & t' & Ht & ->); constructor; assumption|]. intros H. inv H. do 2 (eexists; split; [eassumption|]). reflexivity.
  - eapply sem_ext.
    + eapply sem_bind; [eapply sem_on; [exact Horder|rewrite functions_local; apply Permutation_refl|]; apply sem_all; eapply Forall_impl; [|exact IHs]; intros d H; exact (H _)|].
      intros ds' (_ & Hds). rewrite (defined_binders _ _ _ Hds). eapply sem_on; [exact Horder|apply Permutation_refl|]. eapply sem_bind; [apply IH|]. intros e' _. apply sem_ret.
    + intros x. cbn. split; [intros (ds' & (_ & Hds) & HD & e' & He & ->); constructor; assumption|]. intros H. inv H. eexists. split; [split; [apply functions_distinct; assumption|eassumption]|]. split; [assumption|]. eexists. split; [eassumption|reflexivity].
  - eapply sem_ext; [eapply sem_bind; [apply sem_all; eapply Forall_impl; [|exact IHs]; intros a H; exact (H G)|]; intros es' _; eapply sem_bind; [apply IH|]; intros e' _; apply sem_ret|].
    intros x. cbn. split; [intros (es' & Hes & e' & He & ->); constructor; assumption|]. intros H. inv H. do 2 (eexists; split; [eassumption|]). reflexivity.
  - eapply sem_ext; [eapply sem_bind; [apply IHc|]; intros c' _; eapply sem_bind; [apply IHt|]; intros t' _; eapply sem_bind; [apply IHe|]; intros e' _; apply sem_ret|].
    intros x. cbn. split; [intros (c' & Hc & t' & Ht & e' & He & ->); constructor; assumption|]. intros H. inv H. do 3 (eexists; split; [eassumption|]). reflexivity.
  - eapply sem_ext; [eapply sem_bind; [apply IHc|]; intros c' _; eapply sem_bind; [apply IHe|]; intros e' _; apply sem_ret|].
    intros x. cbn. split; [intros (c' & Hc & e' & He & ->); constructor; assumption|]. intros H. inv H. do 2 (eexists; split; [eassumption|]). reflexivity.
  - eapply sem_ext; [eapply sem_bind; [apply IH|]; intros e' _; eapply sem_bind; [apply (sem_all _ _ (clause_ok variant_of G)); eapply Forall_impl; [|exact IHs]|intros cs' _; apply sem_ret]|].
    + intros [p body] Hb. cbn [snd] in Hb. eapply sem_ext.
      * eapply sem_bind; [apply sem_pattern|]. intros p' Hp. eapply sem_on; [exact Horder|exact (pattern_variables _ _ _ Hp)|]. eapply sem_bind; [apply Hb|]. intros b' _. apply sem_ret.
      * intros x. cbn. split; [intros (p' & Hp & HD & b' & Hb' & ->); constructor; assumption|]. intros H. inv H. eexists. split; [eassumption|]. split; [assumption|]. eexists. split; [eassumption|reflexivity].
    + intros x. cbn. split; [intros (e' & He & cs' & Hcs & ->); constructor; assumption|]. intros H. inv H. do 2 (eexists; split; [eassumption|]). reflexivity.
  - eapply sem_ext; [eapply sem_bind; [apply sem_opt; intros e ->; exact (IH G)|]; intros o' _; apply sem_ret|]. intros x. cbn. split; [intros (o' & Ho & ->); constructor; exact Ho|]. intros H. inv H. eexists. split; [eassumption|reflexivity].
  - eapply sem_ext; [eapply sem_bind; [apply sem_opt; intros t0 _; apply sem_ty|]; intros t' _; eapply sem_bind; [apply IH|]; intros e' _; apply sem_ret|].
    intros x. cbn. split; [intros (t' & Ht & e' & He & ->); constructor; assumption|]. intros H. inv H. do 2 (eexists; split; [eassumption|]). reflexivity.
  - eapply sem_ext; [eapply sem_bind; [apply sem_opt; intros s _; apply sem_scheme|]|].
    + intros a' Ha. destruct (ann_quantified _ _ _ Ha) as (E & _). rewrite E. eapply sem_on; [exact Horder|apply Permutation_refl|]. eapply sem_on; [exact Horder|apply Permutation_refl|]. eapply sem_bind; [apply IH|]. intros e' _. apply sem_ret.
    + intros x. cbn. split; [intros (a' & Ha & _ & HD & e' & He & ->); constructor; assumption|]. intros H. inv H. eexists. split; [eassumption|]. split; [eapply ann_quantified; eassumption|]. split; [assumption|]. eexists. split; [eassumption|reflexivity].
Qed.
End Resolver.
