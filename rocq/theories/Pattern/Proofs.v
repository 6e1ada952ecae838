From Verif.Base Require Import Base BaseFacts Vec VecFacts.
From Verif.Pattern Require Import Model Spec.

Lemma con_eqb_eq a b : con_eqb a b = true <-> a = b.
Proof.
  destruct a as [u n], b as [u' n']. unfold con_eqb. cbn. rewrite andb_true_iff, N.eqb_eq, Nat.eqb_eq.
  split; [intros (-> & ->); reflexivity|intros H; injection H; auto].
Qed.

Lemma cons_eqb_eq a : forall b, cons_eqb a b = true <-> a = b.
Proof.
  induction a as [|x a IH]; intros [|y b]; cbn; try (split; [discriminate|discriminate]); [tauto|].
  rewrite andb_true_iff, con_eqb_eq, IH. split; [intros (-> & ->); reflexivity|intros H; injection H; auto].
Qed.

Lemma tag_eqb_eq a b : tag_eqb a b = true <-> a = b.
Proof.
  destruct a as [c|c cs], b as [d|d ds]; cbn; try (split; discriminate).
  - rewrite N.eqb_eq. split; [intros ->; reflexivity|intros H; injection H; auto].
  - rewrite andb_true_iff, con_eqb_eq, cons_eqb_eq. split; [intros (-> & ->); reflexivity|intros H; injection H; auto].
Qed.

Lemma contains_in t l : contains t l = true <-> In t l.
Proof.
  unfold contains. rewrite existsb_exists. split; [intros (x & Hx & E); apply tag_eqb_eq in E; subst; exact Hx|].
  intros H. exists t. split; [exact H|]. apply tag_eqb_eq. reflexivity.
Qed.

Lemma in_filter_map {A B} (f : A -> option B) l y : In y (filter_map f l) <-> exists x, In x l /\ f x = Some y.
Proof.
  induction l as [|x l IH]; cbn [filter_map]; [split; [intros []|intros (x & [] & _)]|].
  destruct (f x) as [z|] eqn:E; cbn [In]; rewrite IH; split.
  - intros [<-|(x' & H1 & H2)]; [exists x; auto|exists x'; auto].
  - intros (x' & [<-|H1] & H2); [left; congruence|right; eauto].
  - intros (x' & H1 & H2). exists x'. auto.
  - intros (x' & [<-|H1] & H2); [congruence|eauto].
Qed.

(** * Measure: the number of constructors *)
Fixpoint cc (p : pattern) : nat :=
  match p with PWild => 0%nat | PCon _ ps => S (fold_right (fun p n => (cc p + n)%nat) 0%nat ps) end.
Definition ccr (r : row) : nat := fold_right (fun p n => (cc p + n)%nat) 0%nat r.
Definition ccm (m : matrix) : nat := fold_right (fun r n => (ccr r + n)%nat) 0%nat m.

Lemma cc_con t ps : cc (PCon t ps) = S (ccr ps).
Proof. reflexivity. Qed.

Lemma ccr_app a b : ccr (a ++ b) = (ccr a + ccr b)%nat.
Proof. induction a as [|x a IH]; [reflexivity|]. cbn [app ccr fold_right] in *. fold (ccr (a ++ b)) (ccr a). rewrite IH. lia. Qed.

Lemma ccr_wild n : ccr (repeat PWild n) = 0%nat.
Proof. induction n as [|n IH]; [reflexivity|]. exact IH. Qed.

Lemma ccr_cons p r : ccr (p :: r) = (cc p + ccr r)%nat.
Proof. reflexivity. Qed.

Lemma ccm_cons r m : ccm (r :: m) = (ccr r + ccm m)%nat.
Proof. reflexivity. Qed.

Lemma ccm_filter_map (f : row -> option row) m : (forall r r', f r = Some r' -> (ccr r' <= ccr r)%nat) -> (ccm (filter_map f m) <= ccm m)%nat.
Proof.
  intros H. induction m as [|r m IH]; [cbn; lia|]. cbn [filter_map]. rewrite ccm_cons. destruct (f r) as [r'|] eqn:E; [rewrite ccm_cons; specialize (H r r' E); lia|lia].
Qed.

Lemma ccr_specialize t r r' : specialize_row t r = Some r' -> (ccr r' <= ccr r)%nat.
Proof.
  destruct r as [|[t' ps|] r]; cbn [specialize_row]; try discriminate.
  - destruct (tag_eqb t' t); [|discriminate]. intros H. injection H as <-. rewrite ccr_app, ccr_cons, cc_con. lia.
  - intros H. injection H as <-. rewrite ccr_app, ccr_wild, ccr_cons. cbn [cc]. lia.
Qed.

Lemma ccm_specialize t m : (ccm (specialize t m) <= ccm m)%nat.
Proof. apply ccm_filter_map. intros r r'. apply ccr_specialize. Qed.

Lemma ccm_defaults m : (ccm (defaults m) <= ccm m)%nat.
Proof.
  apply ccm_filter_map. intros [|[t ps|] r] r'; cbn [defaults_row]; try discriminate. intros H. injection H as <-. rewrite ccr_cons. cbn [cc]. lia.
Qed.

(** * The head tags *)
Definition head_in (m : matrix) (t : tag) : Prop := exists ps r, In (PCon t ps :: r) m.

Lemma head_tags_spec m : NoDup (collect_head_tags m) /\ forall t, In t (collect_head_tags m) <-> head_in m t.
Proof.
  unfold collect_head_tags.
  assert (H : forall l acc, NoDup acc -> let r := fold_left (fun set r => match r with PCon t _ :: _ => insert t set | _ => set end) l acc in
    NoDup r /\ forall t, In t r <-> In t acc \/ head_in l t).
  { induction l as [|r l IH]; intros acc Hn; cbn [fold_left].
    - split; [exact Hn|]. intros t. split; [auto|]. intros [H|(ps & r & [])]. exact H.
    - assert (Hacc : exists acc', (match r with PCon t _ :: _ => insert t acc | _ => acc end) = acc' /\ NoDup acc' /\
        forall t, In t acc' <-> In t acc \/ exists ps r', r = PCon t ps :: r').
      { eexists. split; [reflexivity|]. destruct r as [|[t0 ps0|] r0].
        - split; [exact Hn|]. intros t. split; [auto|]. intros [H|(ps & r & E)]; [exact H|discriminate].
        - unfold insert. destruct (contains t0 acc) eqn:Ec.
          + apply contains_in in Ec. split; [exact Hn|]. intros t. split; [auto|]. intros [H|(ps & r & E)]; [exact H|]. injection E as <- _ _. exact Ec.
          + assert (~ In t0 acc) by (rewrite <- contains_in; congruence). split.
            * rewrite <- rev_involutive at 1. apply NoDup_rev. rewrite rev_app_distr. cbn. constructor; [rewrite <- in_rev; assumption|apply NoDup_rev, Hn].
            * intros t. rewrite in_app_iff. cbn. split; [intros [H1|[<-|[]]]; eauto|]. intros [H1|(ps & r & E)]; [auto|]. injection E as <- _ _. auto.
        - split; [exact Hn|]. intros t. split; [auto|]. intros [H|(ps & r & E)]; [exact H|discriminate]. }
      destruct Hacc as (acc' & E & Hn' & Hacc). rewrite E. destruct (IH acc' Hn') as (H1 & H2). split; [exact H1|].
      intros t. rewrite (H2 t), Hacc. unfold head_in. split.
      + intros [[H|(ps & r' & ->)]|(ps & r' & H)]; [auto|right; exists ps, r'; left; reflexivity|right; exists ps, r'; right; exact H].
      + intros [H|(ps & r' & [->|H])]; [auto|left; right; eauto|right; eauto]. }
  destruct (H m [] (NoDup_nil _)) as (H1 & H2). split; [exact H1|]. intros t. rewrite (H2 t). split; [intros [[]|H0]; exact H0|auto].
Qed.

Lemma ccm_specialize_lt t m : head_in m t -> (ccm (specialize t m) < ccm m)%nat.
Proof.
  intros (ps & r & Hin). induction m as [|r0 m IH]; [destruct Hin|]. unfold specialize. cbn [filter_map]. fold (specialize t m). rewrite ccm_cons.
  destruct Hin as [->|Hin].
  - cbn [specialize_row]. replace (tag_eqb t t) with true by (symmetry; apply tag_eqb_eq; reflexivity).
    rewrite ccm_cons, ccr_app, ccr_cons, cc_con. pose proof (ccm_specialize t m). lia.
  - specialize (IH Hin). destruct (specialize_row t r0) as [r'|] eqn:E; [rewrite ccm_cons; apply ccr_specialize in E; lia|lia].
Qed.

Section Typed.
  Variable S : types.
  Hypothesis HD : distinct S.
  Notation T := (type S).
  Notation row_type := (Forall2 (pat_type S)).
  Definition mat_type (m : matrix) (ts : list T) : Prop := forall r, In r m -> row_type r ts.
  Notation rmatches := (Forall2 matches).
  Definition mcov (m : matrix) (vs : list value) : Prop := exists r, In r m /\ rmatches r vs.
  Notation vals := (Forall2 (has_type S)).

  (** A tag of a type, with the types of its fields; and a value headed by it. *)
  Definition tag_type (t : tag) (A : T) (fs : list T) : Prop :=
    match t with
    | Const c => cons_of S A = None /\ consts_of S A c /\ fs = []
    | Finite con sibs => exists cs c, cons_of S A = Some cs /\ In (c, fs) cs /\ con = con_of (c, fs) /\ sibs = map con_of cs
    end.
  Definition headed (t : tag) (v : value) (args : list value) : Prop :=
    match t with
    | Const c => v = VConst c /\ args = []
    | Finite con _ => v = VCon (use_ con) args
    end.

  Lemma F2_len {A B} (R : A -> B -> Prop) l l' : Forall2 R l l' -> List.length l = List.length l'.
  Proof. induction 1; cbn; congruence. Qed.

  Lemma tag_arity t A fs : tag_type t A fs -> arity t = List.length fs.
  Proof. destruct t as [c|con sibs]; cbn. { intros (_ & _ & ->). reflexivity. } intros (cs & c & _ & _ & -> & _). reflexivity. Qed.

  Lemma nodup_fst {X Y} (l : list (X * Y)) k a b : NoDup (map fst l) -> In (k, a) l -> In (k, b) l -> a = b.
  Proof.
    induction l as [|(k', y) l IH]; cbn; intros Hn Ha Hb; [destruct Ha|]. inversion_clear Hn as [|x l' Hx Hl].
    destruct Ha as [Ha|Ha], Hb as [Hb|Hb].
    - congruence.
    - injection Ha as -> ->. exfalso. apply Hx. change k with (fst (k, b)). apply in_map, Hb.
    - injection Hb as -> ->. exfalso. apply Hx. change k with (fst (k, a)). apply in_map, Ha.
    - exact (IH Hl Ha Hb).
  Qed.

  Lemma tag_type_fields t A fs fs' : tag_type t A fs -> tag_type t A fs' -> fs = fs'.
  Proof.
    destruct t as [c|con sibs]; cbn; [intros (_ & _ & ->) (_ & _ & ->); reflexivity|].
    intros (cs & c & E1 & I1 & C1 & _) (cs' & c' & E2 & I2 & C2 & _). rewrite E1 in E2. injection E2 as <-.
    assert (c = c') as <- by (rewrite C1 in C2; injection C2; auto).
    exact (nodup_fst cs c fs fs' (HD A cs E1) I1 I2).
  Qed.

  Lemma pat_type_con t ps A : pat_type S (PCon t ps) A <-> exists fs, tag_type t A fs /\ row_type ps fs.
  Proof.
    split.
    - intros H. inversion H as [|c ps' cs fs t' E I HF|c t' E C]; subst.
      + exists fs. split; [exists cs, c; auto|exact HF].
      + exists []. split; [cbn; auto|constructor].
    - intros (fs & Ht & HF). destruct t as [c|con sibs]; cbn in Ht.
      + destruct Ht as (E & C & ->). inversion HF. subst. apply p_const; auto.
      + destruct Ht as (cs & c & E & I & -> & ->). eapply p_con; eauto.
  Qed.

  (** Every value is headed by one tag. *)
  Lemma value_tag v A : has_type S v A -> exists t fs args, tag_type t A fs /\ headed t v args /\ vals args fs.
  Proof.
    intros H. destruct H as [c args cs fs t E I HF|c t E C].
    - exists (Finite (con_of (c, fs)) (map con_of cs)), fs, args. split; [exists cs, c; auto|]. split; [reflexivity|exact HF].
    - exists (Const c), [], []. split; [cbn; auto|]. split; [cbn; auto|constructor].
  Qed.

  Lemma headed_type t A fs v args : tag_type t A fs -> headed t v args -> (has_type S v A <-> vals args fs).
  Proof.
    intros Ht Hh. destruct t as [c|con sibs]; cbn in Ht, Hh.
    - destruct Ht as (E & C & ->), Hh as (-> & ->). split; [constructor|]. intros _. apply t_const; auto.
    - destruct Ht as (cs & c & E & I & -> & ->). subst v. cbn. split.
      + intros H. inversion H as [c' args' cs' fs' t' E' I' HF|]; subst. rewrite E in E'. injection E' as <-.
        rewrite (nodup_fst cs c fs fs' (HD A cs E) I I'). exact HF.
      + intros HF. eapply t_con; eauto.
  Qed.

  Lemma headed_exists t args A fs : tag_type t A fs -> vals args fs -> exists v, headed t v args.
  Proof. destruct t as [c|con sibs]; cbn; [|eauto]. intros (_ & _ & ->) HF. inversion HF. eauto. Qed.

  Lemma headed_unique t t' A fs fs' v args args' : tag_type t A fs -> tag_type t' A fs' -> headed t v args -> headed t' v args' -> t = t' /\ args = args'.
  Proof.
    destruct t as [c|con sibs], t' as [c'|con' sibs']; cbn.
    - intros _ _ (-> & ->) (E & ->). injection E as ->. auto.
    - intros _ _ (-> & _) E. discriminate.
    - intros _ _ -> (E & _). discriminate.
    - intros (cs & c & E & I & -> & ->) (cs' & c' & E' & I' & -> & ->) -> H. injection H as H ->. cbn in H. subst c'.
      rewrite E in E'. injection E' as <-. rewrite (nodup_fst cs c fs fs' (HD A cs E) I I'). auto.
  Qed.

  Lemma matches_con t ps v A fs : tag_type t A fs -> List.length ps = List.length fs -> (matches (PCon t ps) v <-> exists args, headed t v args /\ rmatches ps args).
  Proof.
    intros Ht Hl. split.
    - intros H. inversion H; subst; cbn; eauto.
    - intros (args & Hh & HF). destruct t as [c|con sibs]; cbn in Hh.
      + destruct Hh as (-> & ->). inversion HF. constructor.
      + subst v. constructor. exact HF.
  Qed.

  Lemma F2_app_inv {A B} (R : A -> B -> Prop) a b c d : List.length a = List.length c -> Forall2 R (a ++ b) (c ++ d) -> Forall2 R a c /\ Forall2 R b d.
  Proof.
    revert c. induction a as [|x a IH]; intros [|y c] Hl H; try discriminate; [split; [constructor|exact H]|].
    cbn in H. inversion H; subst. destruct (IH c) as (H1 & H2); [cbn in Hl; lia|assumption|]. split; [constructor; assumption|exact H2].
  Qed.

  Lemma wild_matches n args : List.length args = n -> rmatches (repeat PWild n) args.
  Proof. intros <-. induction args as [|a l IH]; cbn; constructor; [constructor|exact IH]. Qed.

  Lemma wild_type fs : row_type (repeat PWild (List.length fs)) fs.
  Proof. induction fs as [|A fs IH]; cbn; constructor; [constructor|exact IH]. Qed.

  Lemma specialize_type t A fs ts r r' : tag_type t A fs -> row_type r (A :: ts) -> specialize_row t r = Some r' -> row_type r' (fs ++ ts).
  Proof.
    intros Ht Hr. inversion Hr as [|p A' r0 ts' Hp Hr0]; subst. destruct p as [t' ps|]; cbn [specialize_row].
    - destruct (tag_eqb t' t) eqn:E; [|discriminate]. apply tag_eqb_eq in E. subst t'. intros H. injection H as <-.
      apply pat_type_con in Hp. destruct Hp as (fs' & Ht' & Hps). rewrite (tag_type_fields t A fs fs' Ht Ht'). apply Forall2_app; assumption.
    - intros H. injection H as <-. apply Forall2_app; [|assumption]. rewrite (tag_arity t A fs Ht). apply wild_type.
  Qed.

  Lemma specialize_matches t A fs ts r v args vs : tag_type t A fs -> row_type r (A :: ts) -> headed t v args -> List.length args = List.length fs ->
    (rmatches r (v :: vs) <-> exists r', specialize_row t r = Some r' /\ rmatches r' (args ++ vs)).
  Proof.
    intros Ht Hr Hh Hl. inversion Hr as [|p A' r0 ts' Hp Hr0]; subst. destruct p as [t' ps|]; cbn [specialize_row].
    - apply pat_type_con in Hp. destruct Hp as (fs' & Ht' & Hps). split.
      + intros H. inversion H as [|p v' r1 vs' Hm Hr1]; subst. apply (matches_con t' ps v A fs' Ht' (F2_len _ _ _ Hps)) in Hm.
        destruct Hm as (args' & Hh' & Hm). destruct (headed_unique t t' A fs fs' v args args' Ht Ht' Hh Hh') as (<- & <-).
        replace (tag_eqb t t) with true by (symmetry; apply tag_eqb_eq; reflexivity). eexists. split; [reflexivity|]. apply Forall2_app; assumption.
      + destruct (tag_eqb t' t) eqn:E; [|intros (r' & H & _); discriminate]. apply tag_eqb_eq in E. subst t'.
        intros (r' & H & Hm). injection H as <-. rewrite (tag_type_fields t A fs fs' Ht Ht') in *.
        apply F2_app_inv in Hm; [|rewrite (F2_len _ _ _ Hps); congruence]. destruct Hm as (H1 & H2). constructor; [|exact H2].
        apply (matches_con t ps v A fs' Ht' (F2_len _ _ _ Hps)). eauto.
    - rewrite (tag_arity t A fs Ht), <- Hl. split.
      + intros H. inversion H as [|p v' r1 vs' Hm Hr1]; subst. eexists. split; [reflexivity|]. apply Forall2_app; [apply wild_matches; reflexivity|assumption].
      + intros (r' & H & Hm). injection H as <-. apply F2_app_inv in Hm; [|apply repeat_length]. constructor; [constructor|apply Hm].
  Qed.

  Lemma specialize_mat_type t A fs ts m : tag_type t A fs -> mat_type m (A :: ts) -> mat_type (specialize t m) (fs ++ ts).
  Proof. intros Ht Hm r Hr. apply in_filter_map in Hr. destruct Hr as (r0 & Hin & E). eapply specialize_type; eauto. Qed.

  Lemma specialize_cov t A fs ts m v args vs : tag_type t A fs -> mat_type m (A :: ts) -> headed t v args -> List.length args = List.length fs ->
    (mcov m (v :: vs) <-> mcov (specialize t m) (args ++ vs)).
  Proof.
    intros Ht Hm Hh Hl. split.
    - intros (r & Hin & Hr). apply (specialize_matches t A fs ts r v args vs Ht (Hm r Hin) Hh Hl) in Hr. destruct Hr as (r' & E & Hr).
      exists r'. split; [apply in_filter_map; eauto|exact Hr].
    - intros (r' & Hin & Hr). apply in_filter_map in Hin. destruct Hin as (r & Hin & E). exists r. split; [exact Hin|].
      apply (specialize_matches t A fs ts r v args vs Ht (Hm r Hin) Hh Hl). eauto.
  Qed.

  Lemma defaults_mat_type A ts m : mat_type m (A :: ts) -> mat_type (defaults m) ts.
  Proof.
    intros Hm r Hr. apply in_filter_map in Hr. destruct Hr as (r0 & Hin & E). specialize (Hm r0 Hin). inversion Hm as [|p A' r1 ts' Hp Hr1]; subst.
    destruct p; cbn in E; [discriminate|]. injection E as <-. exact Hr1.
  Qed.

  Lemma defaults_cov m v vs : mcov (defaults m) vs -> mcov m (v :: vs).
  Proof.
    intros (r & Hin & Hr). apply in_filter_map in Hin. destruct Hin as (r0 & Hin & E). exists r0. split; [exact Hin|].
    destruct r0 as [|[t ps|] r0]; cbn in E; try discriminate. injection E as <-. constructor; [constructor|exact Hr].
  Qed.

  (** When no row starts with the tag of [v], only the default rows matter. *)
  Lemma defaults_cov_inv A ts t fs m v args vs : mat_type m (A :: ts) -> tag_type t A fs -> headed t v args -> ~ head_in m t ->
    mcov m (v :: vs) -> mcov (defaults m) vs.
  Proof.
    intros Hm Ht Hh Hn (r & Hin & Hr). pose proof (Hm r Hin) as Hty. inversion Hty as [|p A' r1 ts' Hp Hr1]; subst. inversion Hr as [|p' v' r2 vs' Hv Hr2]; subst.
    exists r1. split; [|exact Hr2]. apply in_filter_map. exists (p :: r1). split; [exact Hin|].
    destruct p as [t' ps|]; [|reflexivity]. exfalso. apply Hn. apply pat_type_con in Hp. destruct Hp as (fs' & Ht' & Hps).
    apply (matches_con t' ps v A fs' Ht' (F2_len _ _ _ Hps)) in Hv. destruct Hv as (args' & Hh' & _).
    destruct (headed_unique t t' A fs fs' v args args' Ht Ht' Hh Hh') as (<- & _). exists ps, r1. exact Hin.
  Qed.

  Lemma head_tags_type A ts m t : mat_type m (A :: ts) -> head_in m t -> exists fs, tag_type t A fs.
  Proof.
    intros Hm (ps & r & Hin). specialize (Hm _ Hin). inversion Hm; subst.
    match goal with H : pat_type _ _ _ |- _ => apply pat_type_con in H; destruct H as (fs & H & _); eauto end.
  Qed.

  Lemma tags_siblings t A fs t' fs' sibs con : t = Finite con sibs -> tag_type t A fs -> tag_type t' A fs' -> In t' (tags_of sibs).
  Proof.
    intros -> (cs & c & E & I & -> & ->) Ht'. destruct t' as [c'|con' sibs']; cbn in Ht'.
    - destruct Ht' as (E' & _). congruence.
    - destruct Ht' as (cs' & c' & E' & I' & -> & ->). rewrite E in E'. injection E' as <-. unfold tags_of.
      apply (in_map (fun con => Finite con (map con_of cs))). apply in_map, I'.
  Qed.

  Lemma siblings_type con sibs A fs t' : tag_type (Finite con sibs) A fs -> In t' (tags_of sibs) -> exists fs', tag_type t' A fs'.
  Proof.
    intros (cs & c & E & I & -> & ->) Hin. unfold tags_of in Hin. rewrite map_map in Hin. apply in_map_iff in Hin. destruct Hin as ((c' & fs') & <- & Hin).
    exists fs', cs, c'. auto.
  Qed.

  Lemma tags_of_nodup con sibs A fs : tag_type (Finite con sibs) A fs -> NoDup (tags_of sibs).
  Proof.
    intros (cs & c & E & I & -> & ->). unfold tags_of. pose proof (HD A cs E) as Hn. rewrite map_map.
    generalize (map con_of cs). intros L. clear -Hn. induction cs as [|(c & f) cs IH]; cbn; [constructor|]. inversion_clear Hn as [|x l Hx Hl].
    constructor; [|exact (IH Hl)]. intros Hin. apply in_map_iff in Hin. destruct Hin as ((c' & f') & E & Hin). injection E as E _. subst c'.
    apply Hx. change c with (fst (c, f')). apply in_map, Hin.
  Qed.

  (** Completeness of the head tags. *)
  Lemma complete_spec A ts m : mat_type m (A :: ts) -> is_complete (collect_head_tags m) = true ->
    forall t fs, tag_type t A fs -> head_in m t.
  Proof.
    intros Hm Hc t fs Ht. destruct (head_tags_spec m) as (Hn & Hin). unfold is_complete in Hc.
    destruct (collect_head_tags m) as [|t0 tags] eqn:Etags; [discriminate|].
    destruct (head_tags_type A ts m t0 Hm (proj1 (Hin t0) (or_introl eq_refl))) as (fs0 & Ht0).
    destruct t0 as [c|con sibs]; [discriminate|]. cbn [sibling_count] in Hc. apply Nat.eqb_eq in Hc.
    apply Hin. apply (NoDup_length_incl Hn (l' := tags_of sibs)).
    - unfold tags_of. rewrite map_length. lia.
    - intros t1 Ht1. apply Hin in Ht1. destruct (head_tags_type A ts m t1 Hm Ht1) as (fs1 & Hty). eapply tags_siblings; eauto.
    - eapply tags_siblings; eauto.
  Qed.

  (** What it takes for a universe to have a value of everything. *)
  Definition rich : Prop := inhabited S /\ unbounded S.

  Lemma inhab_list ts : inhabited S -> exists vs, vals vs ts.
  Proof.
    intros H. induction ts as [|A ts (vs & IH)]; [exists []; constructor|]. destruct (H A) as (v & Hv). exists (v :: vs). constructor; assumption.
  Qed.

  Lemma heads_spec A ts m : mat_type m (A :: ts) -> is_complete (collect_head_tags m) = false ->
    missing_heads (collect_head_tags m) <> [] /\
    forall h, In h (missing_heads (collect_head_tags m)) -> pat_type S h A /\
      (rich -> exists v t fs args, has_type S v A /\ matches h v /\ tag_type t A fs /\ headed t v args /\ ~ head_in m t).
  Proof.
    intros Hm Hc. destruct (head_tags_spec m) as (Hn & Hin). unfold is_complete in Hc. unfold missing_heads.
    destruct (collect_head_tags m) as [|t0 tags] eqn:Etags.
    { split; [discriminate|]. intros h [<-|[]]. split; [constructor|]. intros (HI & _). destruct (HI A) as (v & Hv).
      destruct (value_tag v A Hv) as (t & fs & args & Ht & Hh & _). exists v, t, fs, args. split; [exact Hv|]. split; [constructor|]. split; [exact Ht|]. split; [exact Hh|].
      intros H. apply Hin in H. destruct H. }
    destruct (head_tags_type A ts m t0 Hm (proj1 (Hin t0) (or_introl eq_refl))) as (fs0 & Ht0).
    destruct t0 as [c|con sibs].
    - cbn [siblings]. split; [discriminate|]. intros h [<-|[]]. split; [constructor|]. intros (_ & HU). cbn in Ht0. destruct Ht0 as (E0 & _).
      destruct (HU A (flat_map (fun t => match t with Const c => [c] | _ => [] end) (Const c :: tags)) E0) as (c' & Hc' & Hni).
      exists (VConst c'), (Const c'), [], []. split; [apply t_const; auto|]. split; [constructor|]. split; [cbn; auto|]. split; [cbn; auto|].
      intros H. apply Hin in H. apply Hni. apply in_flat_map. exists (Const c'). split; [exact H|left; reflexivity].
    - cbn [siblings sibling_count] in *. apply Nat.eqb_neq in Hc. split.
      + intros E. apply map_eq_nil in E. apply Hc. rewrite <- (map_length (fun con => Finite con sibs) sibs).
        assert (Hincl : incl (tags_of sibs) (Finite con sibs :: tags)).
        { intros t Ht. destruct (contains t (Finite con sibs :: tags)) eqn:Ec; [apply contains_in, Ec|]. exfalso.
          assert (In t (filter (fun t => negb (contains t (Finite con sibs :: tags))) (tags_of sibs))) as HF; [|rewrite E in HF; destruct HF].
          apply filter_In. split; [exact Ht|]. rewrite Ec. reflexivity. }
        apply Nat.le_antisymm; [exact (NoDup_incl_length (tags_of_nodup con sibs A fs0 Ht0) Hincl)|].
        apply (NoDup_incl_length Hn). intros t Ht. apply Hin in Ht. destruct (head_tags_type A ts m t Hm Ht) as (fs1 & Hty). exact (tags_siblings _ A fs0 t fs1 sibs con eq_refl Ht0 Hty).
      + intros h Hh. apply in_map_iff in Hh. destruct Hh as (t & <- & Ht). apply filter_In in Ht. destruct Ht as (Ht & Hnc).
        destruct (siblings_type con sibs A fs0 t Ht0 Ht) as (fs & Hty). rewrite (tag_arity t A fs Hty).
        split; [apply pat_type_con; exists fs; split; [exact Hty|apply wild_type]|]. intros (HI & _). destruct (inhab_list fs HI) as (args & Hargs).
        destruct (headed_exists t args A fs Hty Hargs) as (v & Hv). exists v, t, fs, args.
        split; [apply (headed_type t A fs v args Hty Hv), Hargs|]. split.
        { apply (matches_con t _ v A fs Hty); [apply repeat_length|]. exists args. split; [exact Hv|]. apply wild_matches. exact (F2_len _ _ _ Hargs). }
        split; [exact Hty|]. split; [exact Hv|]. intros H. apply Hin, contains_in in H. rewrite H in Hnc. discriminate.
  Qed.

  Lemma any_out_conv {A} (f : nat -> A -> outcome bool) (l : list A) :
    (forall x, In x l -> exists b, conv (fun n => f n x) b) ->
    exists b, conv (fun n => any_out (f n) l) b /\
      (b = true -> exists x, In x l /\ conv (fun n => f n x) true) /\ (b = false -> forall x, In x l -> conv (fun n => f n x) false).
  Proof.
    induction l as [|x l IH]; intros H.
    - exists false. split; [apply conv_ret|]. split; [discriminate|intros _ x []].
    - destruct (H x (or_introl eq_refl)) as (b & Hb). destruct b.
      + exists true. split; [|split; [intros _; exists x; split; [left; reflexivity|exact Hb]|discriminate]].
        cbn [any_out]. eapply (conv_bind (fun n => f n x)); [exact Hb|]. apply conv_ret.
      + destruct IH as (b & H1 & H2 & H3); [intros y Hy; apply H; right; exact Hy|]. exists b. split; [|split].
        * cbn [any_out]. eapply (conv_bind (fun n => f n x)); [exact Hb|]. exact H1.
        * intros E. destruct (H2 E) as (y & Hy & Hc). exists y. split; [right; exact Hy|exact Hc].
        * intros E y [<-|Hy]; [exact Hb|exact (H3 E y Hy)].
  Qed.

  Definition useful (m : matrix) (r : row) (ts : list T) : Prop := exists vs, vals vs ts /\ rmatches r vs /\ ~ mcov m vs.

  Lemma assert_ok m ts n : mat_type m ts -> n = List.length ts -> m <> [] -> assert_columns m n = Ret tt.
  Proof.
    intros Hm -> Hne. destruct m as [|r m]; [contradiction|]. cbn. rewrite (F2_len _ _ _ (Hm r (or_introl eq_refl))), Nat.eqb_refl. reflexivity.
  Qed.

  Lemma pat_inhabited p : forall A, rich -> pat_type S p A -> exists v, has_type S v A /\ matches p v.
  Proof.
    revert p. fix IH 1. intros p A HR Hp. destruct p as [t ps|].
    - apply pat_type_con in Hp. destruct Hp as (fs & Ht & Hps).
      assert (H : exists args, vals args fs /\ rmatches ps args).
      { clear Ht. revert fs Hps. induction ps as [|p ps IHps]; intros fs Hps.
        - inversion Hps. exists []. split; constructor.
        - inversion Hps as [|p' B ps' fs' H1 H2]; subst. destruct (IH p B HR H1) as (v & Hv1 & Hv2). destruct (IHps fs' H2) as (args & Ha1 & Ha2).
          exists (v :: args). split; constructor; assumption. }
      destruct H as (args & Ha1 & Ha2). destruct (headed_exists t args A fs Ht Ha1) as (v & Hv). exists v.
      split; [apply (headed_type t A fs v args Ht Hv), Ha1|]. apply (matches_con t ps v A fs Ht (F2_len _ _ _ Hps)). eauto.
    - destruct (proj1 HR A) as (v & Hv). exists v. split; [exact Hv|constructor].
  Qed.

  Lemma row_inhabited r ts : rich -> row_type r ts -> exists vs, vals vs ts /\ rmatches r vs.
  Proof.
    intros HR. induction 1 as [|p A r ts Hp _ (vs & H1 & H2)]; [exists []; split; constructor|].
    destruct (pat_inhabited p A HR Hp) as (v & Hv1 & Hv2). exists (v :: vs). split; constructor; assumption.
  Qed.

  Lemma F2_split {A B} (R : A -> B -> Prop) l l1 l2 : Forall2 R l (l1 ++ l2) -> exists a b, l = a ++ b /\ Forall2 R a l1 /\ Forall2 R b l2.
  Proof. intros H. apply Forall2_app_inv_r in H. destruct H as (a & b & H1 & H2 & ->). eauto. Qed.

  (** Usefulness of [t(ps) :: r] is usefulness of [ps ++ r] in the specialized matrix. *)
  Lemma useful_specialize t A fs ts m ps r : tag_type t A fs -> mat_type m (A :: ts) -> row_type ps fs ->
    (useful (specialize t m) (ps ++ r) (fs ++ ts) <-> useful m (PCon t ps :: r) (A :: ts)).
  Proof.
    intros Ht Hm Hps. split.
    - intros (vs & Hv & Hr & Hn). apply F2_split in Hv. destruct Hv as (args & vs' & -> & Ha & Hv).
      apply F2_app_inv in Hr; [|rewrite (F2_len _ _ _ Hps), (F2_len _ _ _ Ha); reflexivity]. destruct Hr as (Hr1 & Hr2).
      destruct (headed_exists t args A fs Ht Ha) as (v & Hh). exists (v :: vs').
      split; [constructor; [apply (headed_type t A fs v args Ht Hh), Ha|exact Hv]|]. split.
      + constructor; [|exact Hr2]. apply (matches_con t ps v A fs Ht (F2_len _ _ _ Hps)). eauto.
      + rewrite (specialize_cov t A fs ts m v args vs' Ht Hm Hh (F2_len _ _ _ Ha)). exact Hn.
    - intros (vs & Hv & Hr & Hn). inversion Hr as [|p v r' vs' Hmv Hr2]; subst. inversion Hv as [|v' A' vs2 ts2 Hv1 Hv2]; subst.
      apply (matches_con t ps v A fs Ht (F2_len _ _ _ Hps)) in Hmv. destruct Hmv as (args & Hh & Hm2).
      apply (headed_type t A fs v args Ht Hh) in Hv1. exists (args ++ vs'). split; [apply Forall2_app; assumption|]. split; [apply Forall2_app; assumption|].
      rewrite <- (specialize_cov t A fs ts m v args vs' Ht Hm Hh (F2_len _ _ _ Hv1)). exact Hn.
  Qed.

  (** A wildcard is useful when some constructor of the type is. *)
  Lemma useful_wild A ts m r v vs t fs args : has_type S v A -> vals vs ts -> rmatches r vs -> ~ mcov m (v :: vs) ->
    tag_type t A fs -> headed t v args -> useful m (PCon t (repeat PWild (arity t)) :: r) (A :: ts).
  Proof.
    intros Hv Hvs Hr Hn Ht Hh. exists (v :: vs). split; [constructor; assumption|]. split; [|exact Hn]. constructor; [|exact Hr].
    apply (matches_con t _ v A fs Ht); [rewrite repeat_length; exact (tag_arity t A fs Ht)|]. exists args. split; [exact Hh|].
    apply wild_matches. apply (headed_type t A fs v args Ht Hh) in Hv. rewrite (tag_arity t A fs Ht). exact (F2_len _ _ _ Hv).
  Qed.

  Lemma usefulness_ok : forall a b m r ts, (ccm m + ccr r <= a)%nat -> (List.length r <= b)%nat -> mat_type m ts -> row_type r ts ->
    exists u, conv (fun n => compute_usefulness n m r) u /\ (u = false -> ~ useful m r ts) /\ (u = true -> rich -> useful m r ts).
  Proof.
    induction a as [a IHa] using lt_wf_ind. induction b as [|b IHb]; intros m r ts Ha Hb Hm Hr.
    - destruct r; [|cbn in Hb; lia]. inversion Hr; subst. destruct m as [|r0 m].
      + exists true. split; [eapply conv_step; [intros n; reflexivity|apply conv_ret]|]. split; [discriminate|]. intros _ _. exists []. split; [constructor|]. split; [constructor|]. intros (r & [] & _).
      + exists false. split; [|split; [|discriminate]].
        * pose proof (assert_ok (r0 :: m) [] 0 Hm eq_refl ltac:(discriminate)) as HA.
          eapply conv_step; [intros n; cbn [compute_usefulness List.length]; rewrite HA; reflexivity|]. apply conv_ret.
        * intros _ (vs & Hv & _ & Hn). inversion Hv; subst. apply Hn. exists r0. split; [left; reflexivity|].
          specialize (Hm r0 (or_introl eq_refl)). inversion Hm. constructor.
    - destruct m as [|r0 m0] eqn:Em.
      { exists true. split; [eapply conv_step; [intros n; reflexivity|apply conv_ret]|]. split; [discriminate|]. intros _ HR.
        destruct (row_inhabited r ts HR Hr) as (vs & H1 & H2). exists vs. split; [exact H1|]. split; [exact H2|]. intros (x & [] & _). }
      rewrite <- Em in *. assert (Hne : m <> []) by (rewrite Em; discriminate).
      assert (Hstep : forall n, compute_usefulness (Datatypes.S n) m r = match r with
        | PCon t ps :: r => compute_usefulness n (specialize t m) (ps ++ r)
        | PWild :: r => if is_complete (collect_head_tags m)
            then any_out (fun t => compute_usefulness n (specialize t m) (repeat PWild (arity t) ++ r)) (collect_head_tags m)
            else compute_usefulness n (defaults m) r
        | [] => Ret false end).
      { intros n. cbn [compute_usefulness]. rewrite Em at 1. rewrite (assert_ok m ts _ Hm (F2_len _ _ _ Hr) Hne). reflexivity. }
      clear Em. destruct r as [|[t ps|] r].
      + inversion Hr; subst. exists false. split; [eapply conv_step; [exact Hstep|apply conv_ret]|]. split; [|discriminate].
        intros _ (vs & Hv & _ & Hn). inversion Hv; subst. apply Hn. destruct m as [|r1 m]; [contradiction|]. exists r1. split; [left; reflexivity|].
        specialize (Hm r1 (or_introl eq_refl)). inversion Hm. constructor.
      + inversion Hr as [|p A r' ts' Hp Hr']; subst. apply pat_type_con in Hp. destruct Hp as (fs & Ht & Hps).
        rewrite ccr_cons, cc_con in Ha.
        destruct (IHa (ccm (specialize t m) + ccr (ps ++ r))%nat) with (b := List.length (ps ++ r)) (m := specialize t m) (r := ps ++ r) (ts := fs ++ ts') as (u & H1 & H2 & H3).
        * rewrite ccr_app. pose proof (ccm_specialize t m). lia.
        * lia.
        * lia.
        * eapply specialize_mat_type; eauto.
        * apply Forall2_app; assumption.
        * exists u. split; [eapply conv_step; [exact Hstep|exact H1]|]. pose proof (useful_specialize t A fs ts' m ps r Ht Hm Hps) as HU. rewrite HU in H2, H3. split; assumption.
      + inversion Hr as [|p A r' ts' Hp Hr']; subst. destruct (is_complete (collect_head_tags m)) eqn:Hc.
        * destruct (head_tags_spec m) as (_ & Hin).
          assert (Htag : forall t, In t (collect_head_tags m) -> exists fs u, tag_type t A fs /\
            conv (fun n => compute_usefulness n (specialize t m) (repeat PWild (arity t) ++ r)) u /\
            (u = false -> ~ useful m (PCon t (repeat PWild (arity t)) :: r) (A :: ts')) /\ (u = true -> rich -> useful m (PCon t (repeat PWild (arity t)) :: r) (A :: ts'))).
          { intros t Hin'. apply Hin in Hin'. destruct (head_tags_type A ts' m t Hm Hin') as (fs & Ht). exists fs.
            assert (Hps : row_type (repeat PWild (arity t)) fs) by (rewrite (tag_arity t A fs Ht); apply wild_type).
            destruct (IHa (ccm (specialize t m) + ccr (repeat PWild (arity t) ++ r))%nat) with (b := List.length (repeat PWild (arity t) ++ r)) (m := specialize t m) (r := repeat PWild (arity t) ++ r) (ts := fs ++ ts') as (u & H1 & H2 & H3).
            - rewrite ccr_app, ccr_wild. rewrite ccr_cons in Ha. cbn [cc] in Ha. pose proof (ccm_specialize_lt t m Hin'). lia.
            - lia.
            - lia.
            - eapply specialize_mat_type; eauto.
            - apply Forall2_app; assumption.
            - exists u. split; [exact Ht|]. split; [exact H1|]. pose proof (useful_specialize t A fs ts' m (repeat PWild (arity t)) r Ht Hm Hps) as HU. rewrite HU in H2, H3. split; assumption. }
          destruct (any_out_conv (fun n t => compute_usefulness n (specialize t m) (repeat PWild (arity t) ++ r)) (collect_head_tags m)) as (u & H1 & H2 & H3).
          { intros t Hin'. destruct (Htag t Hin') as (fs & u & _ & H & _). eauto. }
          exists u. split; [eapply conv_step; [exact Hstep|exact H1]|]. split.
          -- intros ->. intros (vs & Hv & Hmr & Hn). inversion Hv as [|v A' vs' ts2 Hv1 Hv2]; subst. inversion Hmr as [|p' v' r2 vs2 Hm1 Hm2]; subst.
             destruct (value_tag v A Hv1) as (t & fs & args & Ht & Hh & Hargs).
             pose proof (complete_spec A ts' m Hm Hc t fs Ht) as Hhd. apply Hin in Hhd.
             destruct (Htag t Hhd) as (fs' & u & _ & Hcv & Hf & _). pose proof (conv_unique _ _ _ Hcv (H3 eq_refl t Hhd)) as ->.
             apply (Hf eq_refl). eapply useful_wild; eauto.
          -- intros ->. intros HR. destruct (H2 eq_refl) as (t & Hin' & Hcv). destruct (Htag t Hin') as (fs & u & Ht & Hcv' & _ & Htr).
             pose proof (conv_unique _ _ _ Hcv' Hcv) as ->. destruct (Htr eq_refl HR) as (vs & Hv & Hmr & Hn). exists vs. split; [exact Hv|]. split; [|exact Hn].
             inversion Hmr; subst. constructor; [constructor|assumption].
        * destruct (IHb (defaults m) r ts') as (u & H1 & H2 & H3).
          -- rewrite ccr_cons in Ha. cbn [cc] in Ha. pose proof (ccm_defaults m). lia.
          -- cbn in Hb. lia.
          -- eapply defaults_mat_type; eauto.
          -- exact Hr'.
          -- exists u. split; [eapply conv_step; [exact Hstep|exact H1]|]. split.
             ++ intros E (vs & Hv & Hmr & Hn). inversion Hv as [|v A' vs' ts2 Hv1 Hv2]; subst. inversion Hmr as [|p' v' r2 vs2 Hm1 Hm2]; subst.
                apply (H2 eq_refl). exists vs'. split; [exact Hv2|]. split; [exact Hm2|]. intros Hcov. apply Hn. apply defaults_cov, Hcov.
             ++ intros E HR. destruct (H3 E HR) as (vs & Hv & Hmr & Hn). destruct (heads_spec A ts' m Hm Hc) as (Hhne & Hhs).
                destruct (missing_heads (collect_head_tags m)) as [|h hs] eqn:Eh; [contradiction|]. destruct (Hhs h (or_introl eq_refl)) as (_ & Hw).
                destruct (Hw HR) as (v & t & fs & args & Hv1 & _ & Ht & Hh & Hnh). exists (v :: vs). split; [constructor; assumption|]. split; [constructor; [constructor|exact Hmr]|].
                intros Hcov. apply Hn. eapply defaults_cov_inv; eauto.
  Qed.
End Typed.
