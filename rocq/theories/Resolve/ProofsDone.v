(** Nothing is left to resolve, and the order of tables does not matter. *)
From Verif.Base Require Import Base BaseFacts Assoc.
From Verif.Scope Require Import Model Spec.
From Verif.Resolve Require Import Model Spec ProofsBase ProofsExpr ProofsModule.

Lemma forall2_right {A B} (R : A -> B -> Prop) (P : B -> Prop) l l' : (forall a b, In a l -> R a b -> P b) -> Forall2 R l l' -> Forall P l'.
Proof. intros H HF. induction HF as [|a b l l' Hab _ IH]; constructor; [exact (H a b (or_introl eq_refl) Hab)|]. apply IH. intros x y Hx. apply H. right. exact Hx. Qed.
Lemma forall2_in {A B} (R : A -> B -> Prop) l l' b : Forall2 R l l' -> In b l' -> exists a, In a l /\ R a b.
Proof. intros HF. induction HF as [|x y l l' Hxy _ IH]; [intros []|]. intros [->|H]; [exists x; split; [left; reflexivity|exact Hxy]|]. destruct (IH H) as (a & Ha & Hr). exists a. split; [right; exact Ha|exact Hr]. Qed.
Lemma optional_right {A B} (R : A -> B -> Prop) (P : B -> Prop) o o' : optional R o o' -> (forall a b, o = Some a -> R a b -> P b) -> all_of P o'.
Proof. intros H HP. inv H; intros b' E; [|discriminate E]. injection E as <-. eapply HP; [reflexivity|eassumption]. Qed.

Section Done.
Variable variant_of : N -> variant.

Lemma use_done_ok sort G u u' : use_ok sort G u u' -> use_done u'.
Proof. intros H. inv H; eexists; reflexivity. Qed.
Lemma ty_done_ok G t : forall t', ty_ok variant_of G t t' -> ty_done t'.
Proof.
  induction t as [s|c|c|t ts IH IHs] using ty_ind'; intros t' H; inv H; constructor; [apply IH; assumption|].
  match goal with H : Forall2 _ ts _ |- _ => eapply forall2_right, H end. intros a b Ha Hab. rewrite Forall_forall in IHs. exact (IHs a Ha b Hab).
Qed.
Lemma tys_done_ok G ts ts' : Forall2 (ty_ok variant_of G) ts ts' -> Forall ty_done ts'.
Proof. apply forall2_right. intros a b _. apply ty_done_ok. Qed.
Lemma constr_done_ok G k k' : constr_ok variant_of G k k' -> constr_done k'.
Proof. intros (H1 & H2). split; [eapply use_done_ok, H1|eapply tys_done_ok, H2]. Qed.
Lemma constrs_done_ok G ks ks' : Forall2 (constr_ok variant_of G) ks ks' -> Forall constr_done ks'.
Proof. apply forall2_right. intros a b _. apply constr_done_ok. Qed.
Lemma typarams_done_ok ps : typarams_ok ps -> Forall typaram_done ps.
Proof. intros (_ & H). apply Forall_forall. intros p Hp k E. exact (H p k Hp E). Qed.
Lemma scheme_done_ok G s s' : scheme_ok variant_of G s s' -> scheme_done s'.
Proof. intros (H1 & E & H2 & H3). split; [rewrite E; apply typarams_done_ok, H1|]. split; [eapply constrs_done_ok, H2|eapply ty_done_ok, H3]. Qed.
Lemma ann_done_ok G o o' : optional (scheme_ok variant_of G) o o' -> all_of scheme_done o'.
Proof. intros H. eapply optional_right; [exact H|]. intros a b _. apply scheme_done_ok. Qed.
Lemma pattern_done_ok G p : forall p', pattern_ok variant_of G p p' -> pattern_done p'.
Proof.
  induction p as [b o IH| |u o IH|k] using pattern_ind'; intros p' H; inv H; constructor.
  - eapply optional_right; [eassumption|]. intros a c -> H. exact (IH c H).
  - eapply use_done_ok. eassumption.
  - eapply optional_right; [eassumption|]. intros a c -> H. eapply forall2_right, H. intros x y Hx Hxy. cbn in IH. rewrite Forall_forall in IH. exact (IH x Hx y Hxy).
Qed.
Lemma expr_done_ok e : forall G e', expr_ok variant_of G e e' -> expr_done e'.
Proof.
  induction e as [u|c|k|e es IH IHs|u|e t IH|ds e IHs IH|es e IHs IH|c t e IHc IHt IHe|c e IHc IHe|e cs IH IHs|o IH|b t e IH|b a ps e IH]
    using expr_ind' with (Q := fun d => forall G d', def_ok variant_of G d d' -> def_done d'); intros G x H; inv H; try (constructor; fail).
  - constructor; [eapply IH; eassumption|]. match goal with H : Forall2 _ es _ |- _ => eapply forall2_right, H end. intros a b Ha Hab. rewrite Forall_forall in IHs. exact (IHs a Ha G b Hab).
  - match goal with H : use_ok _ _ _ _ |- _ => destruct (use_done_ok _ _ _ _ H) as (c & ->) end. constructor.
  - constructor; [eapply IH; eassumption|eapply ty_done_ok; eassumption].
  - constructor; [|eapply IH; eassumption]. match goal with H : Forall2 _ ds _ |- _ => eapply forall2_right, H end. intros a b Ha Hab. rewrite Forall_forall in IHs. exact (IHs a Ha _ b Hab).
  - constructor; [|eapply IH; eassumption]. match goal with H : Forall2 _ es _ |- _ => eapply forall2_right, H end. intros a b Ha Hab. rewrite Forall_forall in IHs. exact (IHs a Ha G b Hab).
  - constructor; [eapply IHc|eapply IHt|eapply IHe]; eassumption.
  - constructor; [eapply IHc|eapply IHe]; eassumption.
  - constructor; [eapply IH; eassumption|]. match goal with H : Forall2 _ cs _ |- _ => eapply forall2_right, H end. intros a b Ha Hab. rewrite Forall_forall in IHs. specialize (IHs a Ha). inv Hab. cbn [fst snd] in *. split; [eapply pattern_done_ok; eassumption|eapply IHs; eassumption].
  - constructor. eapply optional_right; [eassumption|]. intros a c -> H. exact (IH G c H).
  - constructor; [|eapply IH; eassumption]. eapply optional_right; [eassumption|]. intros a c _. apply ty_done_ok.
  - constructor; [|eapply IH; eassumption]. eapply ann_done_ok. eassumption.
Qed.

Lemma module_done class_of G r r' : module_ok variant_of class_of G r r' -> root_done r'.
Proof.
  intros (H1 & H2 & H3 & H4 & H5 & H6 & H7 & H8 & H9). repeat apply conj.
  - intros f Hf. destruct (forall2_in _ _ _ _ H1 Hf) as (f0 & _ & _ & _ & _ & Ha & He). split; [eapply ann_done_ok, Ha|eapply expr_done_ok, He].
  - intros f Hf. destruct (forall2_in _ _ _ _ H2 Hf) as (f0 & _ & _ & Ht). eapply ty_done_ok, Ht.
  - intros f Hf. destruct (forall2_in _ _ _ _ H3 Hf) as (f0 & _ & _ & Ht). eapply scheme_done_ok, Ht.
  - intros f Hf. destruct (forall2_in _ _ _ _ H4 Hf) as (f0 & _ & _ & _ & He). eapply expr_done_ok, He.
  - intros t Ht. assert (Hx : exists t0, type_con_ok variant_of G t0 t) by (apply in_app_or in Ht; destruct Ht as [Ht|Ht]; [destruct (forall2_in _ _ _ _ H5 Ht) as (t0 & _ & H)|destruct (forall2_in _ _ _ _ H6 Ht) as (t0 & _ & H)]; exists t0; exact H).
    destruct Hx as (t0 & _ & E & Hp & Hv). rewrite E. split; [apply typarams_done_ok, Hp|]. intros v Hin. destruct (forall2_in _ _ _ _ Hv Hin) as (v0 & _ & _ & Hf). eapply optional_right; [exact Hf|]. intros a b _. apply tys_done_ok.
  - intros c Hc. destruct (forall2_in _ _ _ _ H7 Hc) as (c0 & _ & _ & E & Hp & Hk & Hm). rewrite E. split; [apply typarams_done_ok, Hp|]. split; [eapply constrs_done_ok, Hk|]. intros m Hin. destruct (forall2_in _ _ _ _ Hm Hin) as (m0 & _ & _ & _ & _ & Hs & He).
    split; [eapply scheme_done_ok, Hs|]. eapply optional_right; [exact He|]. intros a b _. apply expr_done_ok.
  - intros i Hi. destruct (forall2_in _ _ _ _ H8 Hi) as (i0 & _ & _ & _ & E & Hp & Hk & Ht & c & ci & _ & _ & _ & Hm & _). rewrite E. split; [apply typarams_done_ok, Hp|]. split; [eapply constrs_done_ok, Hk|]. split; [eapply constr_done_ok, Ht|].
    intros m Hin. destruct (forall2_in _ _ _ _ Hm Hin) as (m0 & _ & _ & _ & _ & Ha & He & s & id & rq & _ & Es & _). split; [exists id; exact Es|]. split; [eapply ann_done_ok, Ha|eapply expr_done_ok, He].
  - intros e He. destruct (forall2_in _ _ _ _ H9 He) as ([e0|m] & _ & H); cbn in H; [eapply expr_done_ok, H|destruct H].
Qed.

Lemma forall2_perm {A B} (R : A -> B -> Prop) l l2 l' : Permutation l l2 -> Forall2 R l l' -> exists l2', Forall2 R l2 l2' /\ Permutation l' l2'.
Proof.
  intros HP. revert l'. induction HP as [|x l l2 _ IH|x y l|l l2 l3 _ IH1 _ IH2]; intros l' HF.
  - inv HF. exists []. split; constructor.
  - inv HF. match goal with H : Forall2 R l _ |- _ => destruct (IH _ H) as (l2' & HF2 & HP2) end. eexists. split; [constructor; eassumption|]. constructor. exact HP2.
  - inv HF. match goal with H : Forall2 R (_ :: _) _ |- _ => inv H end. eexists. split; [constructor; [eassumption|constructor; eassumption]|]. constructor.
  - destruct (IH1 _ HF) as (l2' & HF2 & HP2). destruct (IH2 _ HF2) as (l3' & HF3 & HP3). exists l3'. split; [exact HF3|eapply Permutation_trans; eassumption].
Qed.
Lemma module_perm class_of G r r' r2 : same_module r r2 -> module_ok variant_of class_of G r r' -> exists r2', module_ok variant_of class_of G r2 r2' /\ same_module r' r2'.
Proof.
  intros (P1 & P2 & P3 & P4 & P5 & P6 & P7 & P8 & E9) (H1 & H2 & H3 & H4 & H5 & H6 & H7 & H8 & H9).
  destruct (forall2_perm _ _ _ _ P1 H1) as (l1 & F1 & Q1). destruct (forall2_perm _ _ _ _ P2 H2) as (l2 & F2 & Q2). destruct (forall2_perm _ _ _ _ P3 H3) as (l3 & F3 & Q3). destruct (forall2_perm _ _ _ _ P4 H4) as (l4 & F4 & Q4).
  destruct (forall2_perm _ _ _ _ P5 H5) as (l5 & F5 & Q5). destruct (forall2_perm _ _ _ _ P6 H6) as (l6 & F6 & Q6). destruct (forall2_perm _ _ _ _ P7 H7) as (l7 & F7 & Q7). destruct (forall2_perm _ _ _ _ P8 H8) as (l8 & F8 & Q8).
  exists {| r_functions := l1; r_c_functions := l2; r_builtin_ops := l3; r_macros := l4; r_data_types := l5; r_builtin_types := l6; r_classes := l7; r_instances := l8; r_inits := r_inits r' |}.
  unfold module_ok, same_module. cbn. rewrite E9. split; repeat (split; [assumption|]); [assumption|reflexivity].
Qed.
End Done.

Section Main.
Variable variant_of : N -> variant.
Variables order order' : stash -> stash.
Hypothesis Horder : forall st, Permutation (order st) st.
Hypothesis Horder' : forall st, Permutation (order' st) st.
Variable class_of : N -> option class_info.
Variable top : table.
Hypothesis HD : NoDup (keys top).
Hypothesis HC : classes_known variant_of class_of.

Definition env_of : env := fun n => option_map construct (hget n top).
Lemma env_of_names n c : env_of n = Some c <-> names_in top n c.
Proof.
  unfold env_of, names_in. split.
  - destruct (hget n top) as [lc|] eqn:E; [|discriminate]. intros [= <-]. exists lc. split; [apply (hget_in _ _ _ HD), E|reflexivity].
  - intros (lc & Hin & <-). apply (hget_in _ _ _ HD) in Hin. rewrite Hin. reflexivity.
Qed.
Lemma run_done_all r r' : targets_named r -> methods_named r -> run variant_of order class_of top r = Ret (Good r') -> root_done r'.
Proof.
  intros HT HM E. destruct (run_exact_all variant_of order Horder class_of top r env_of HD env_of_names HC HT HM) as (x & Ex & H). rewrite E in Ex. injection Ex as <-. eapply module_done, H. reflexivity.
Qed.
Lemma run_order_all r r' r2 : targets_named r -> methods_named r -> same_module r r2 -> run variant_of order class_of top r = Ret (Good r') ->
  exists r2', run variant_of order' class_of top r2 = Ret (Good r2') /\ same_module r' r2'.
Proof.
  intros HT HM HS E. destruct (run_exact_all variant_of order Horder class_of top r env_of HD env_of_names HC HT HM) as (x & Ex & H). rewrite E in Ex. injection Ex as <-.
  destruct (module_perm variant_of class_of env_of r r' r2 HS (proj1 (H r') eq_refl)) as (r2' & Hok & Hs).
  assert (HP : Permutation (r_instances r) (r_instances r2)) by apply HS.
  assert (HT2 : targets_named r2) by (intros i Hi; apply HT; eapply Permutation_in; [apply Permutation_sym, HP|exact Hi]).
  assert (HM2 : methods_named r2) by (intros i m Hi; apply HM; eapply Permutation_in; [apply Permutation_sym, HP|exact Hi]).
  destruct (run_exact_all variant_of order' Horder' class_of top r2 env_of HD env_of_names HC HT2 HM2) as (y & Ey & H2). apply H2 in Hok. subst y. exists r2'. split; [exact Ey|exact Hs].
Qed.
End Main.
