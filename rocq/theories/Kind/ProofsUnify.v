From Verif.Base Require Import Base BaseFacts VecFacts.
From Verif.Kind Require Import Model Spec Proofs.

(** * Counting unresolved variables *)
Definition unresb (p : context) (i : var) : bool :=
  match nth_error p i with Some (KVar v) => Nat.eqb v i | _ => false end.

Lemma unresb_ok p i : unresb p i = true <-> unresolved p i.
Proof.
  unfold unresb, unresolved. destruct (nth_error p i) as [[v| | | | | |args ret]|]; split; try discriminate; try congruence.
  - intros H. apply Nat.eqb_eq in H. congruence.
  - intros H. injection H as ->. apply Nat.eqb_refl.
Qed.

Definition count (p : context) : nat := List.length (filter (unresb p) (seq 0 (len p))).

Lemma filter_le {A} (f g : A -> bool) l : (forall x, f x = true -> g x = true) ->
  (List.length (filter f l) <= List.length (filter g l))%nat.
Proof.
  intros H. induction l as [|x l IH]; [reflexivity|]. cbn [filter]. destruct (f x) eqn:E; [rewrite (H x E); cbn; lia|].
  destruct (g x); cbn; lia.
Qed.

Lemma filter_lt {A} (f g : A -> bool) l v : (forall x, f x = true -> g x = true) -> In v l -> g v = true -> f v = false ->
  (List.length (filter f l) < List.length (filter g l))%nat.
Proof.
  intros H Hin Hg Hf. induction l as [|x l IH]; [contradiction|]. cbn [filter]. destruct Hin as [->|Hin].
  - rewrite Hg, Hf. pose proof (filter_le f g l H). cbn. lia.
  - specialize (IH Hin). destruct (f x) eqn:E; [rewrite (H x E); cbn; lia|]. destruct (g x); cbn; lia.
Qed.

Lemma count_le p p' : len p' = len p -> (forall i, unresolved p' i -> unresolved p i) -> (count p' <= count p)%nat.
Proof.
  intros Hl H. unfold count. rewrite Hl. apply filter_le. intros x Hx. apply unresb_ok, H, unresb_ok, Hx.
Qed.

Lemma count_lt p p' v : len p' = len p -> (forall i, unresolved p' i -> unresolved p i) ->
  unresolved p v -> ~ unresolved p' v -> (count p' < count p)%nat.
Proof.
  intros Hl H Hv Hv'. unfold count. rewrite Hl. apply (filter_lt _ _ _ v).
  - intros x Hx. apply unresb_ok, H, unresb_ok, Hx.
  - apply in_seq. split; [lia|]. apply nth_error_Some. unfold unresolved in Hv. congruence.
  - apply unresb_ok, Hv.
  - destruct (unresb p' v) eqn:E; [|reflexivity]. apply unresb_ok in E. contradiction.
Qed.

(** [p'] extends [p] with bindings. *)
Definition extends (p p' : context) : Prop :=
  len p' = len p /\ wf p' /\ (forall i, unresolved p' i -> unresolved p i) /\
  (forall s, solution p' s -> solution p s) /\ (same p p' \/ (count p' < count p)%nat).

Lemma same_extends p p' : same p p' -> extends p p'.
Proof.
  intros H. pose proof H as (H1 & H2 & H3 & H4). split; [exact H1|]. split; [exact H2|]. split; [|split; [|left; exact H]].
  - intros i. apply H4.
  - intros s. apply H3.
Qed.

Lemma extends_count p p' : extends p p' -> (count p' <= count p)%nat.
Proof. intros (H1 & _ & H2 & _). apply count_le; auto. Qed.

Lemma extends_trans p q r : extends p q -> extends q r -> extends p r.
Proof.
  intros H G. pose proof (extends_count _ _ H) as C1. pose proof (extends_count _ _ G) as C2.
  pose proof H as (H1 & H2 & H3 & H4 & H5). pose proof G as (G1 & G2 & G3 & G4 & G5).
  split; [congruence|]. split; [exact G2|]. split; [auto|]. split; [auto|].
  destruct H5 as [H5|H5], G5 as [G5|G5]; [left; eapply same_trans; eauto|right; lia..].
Qed.

Lemma extends_kbound p p' k : extends p p' -> kbound (len p) k -> kbound (len p') k.
Proof. intros (H & _). rewrite H. auto. Qed.

Definition exact_for (p : context) (P : (var -> gkind) -> Prop) (p' : context) (r : result error) : Prop :=
  match r with
  | Ok => forall s, solution p' s <-> solution p s /\ P s
  | Err _ => forall s, solution p s -> ~ P s
  end.

Lemma exact_ext p P Q p' r : (forall s, solution p s -> (P s <-> Q s)) -> exact_for p P p' r -> exact_for p Q p' r.
Proof.
  intros H. destruct r as [|e]; cbn.
  - intros G s. rewrite G. split; intros (H1 & H2); (split; [exact H1|apply (H s H1), H2]).
  - intros G s Hs HQ. apply (G s Hs). apply (H s Hs), HQ.
Qed.

Lemma exact_same p q P p' r : same p q -> exact_for q P p' r -> exact_for p P p' r.
Proof.
  intros (_ & _ & H & _). destruct r as [|e]; cbn; intros G s.
  - rewrite G, H. reflexivity.
  - intros Hs. apply G, H, Hs.
Qed.

(** * Binding a variable *)
Lemma step_no_occ p s0 v i j : solution p s0 -> step p j i -> ~ occ v (s0 i) -> ~ occ v (s0 j).
Proof.
  intros Hs (k & Hk & Hj & Hne) Hn Ho. apply Hn. rewrite (Hs i k Hk).
  destruct k as [w| | | | | |args ret]; try contradiction; cbn [kchild interp] in *; [subst; exact Ho|].
  apply occ_fun. destruct Hj as [Hj| ->]; [left|right; exact Ho]. apply Exists_exists. exists (s0 j).
  split; [apply in_map, Hj|exact Ho].
Qed.

Lemma bind_wf p p' s0 v k : wf p -> canonical p s0 -> unresolved p v -> kbound (len p) k ->
  ~ occ v (interp s0 k) -> len p' = len p ->
  (forall j, nth_error p' j = if Nat.eqb v j then Some k else nth_error p j) -> wf p'.
Proof.
  intros (Hb & Ha) (Hs & Hu) Hv Hk Hocc Hl Hn. split.
  - intros i k' Hk'. rewrite Hn in Hk'. rewrite Hl. destruct (Nat.eqb v i); [injection Hk' as <-; exact Hk|].
    exact (Hb i k' Hk').
  - assert (H1 : forall i, ~ occ v (s0 i) -> Acc (step p') i).
    { intros i. induction (Ha i) as [i _ IH]. intros Hi. constructor. intros j (k' & Hk' & Hj & Hne).
      rewrite Hn in Hk'. destruct (Nat.eqb_spec v i) as [->|Hvi].
      - exfalso. apply Hi. rewrite (Hu i Hv). reflexivity.
      - assert (Hst : step p j i) by (exists k'; auto). apply IH; [exact Hst|]. eapply step_no_occ; eauto. }
    assert (H2 : Acc (step p') v).
    { constructor. intros j (k' & Hk' & Hj & Hne). rewrite Hn, Nat.eqb_refl in Hk'. injection Hk' as <-.
      apply H1. intros Ho. apply Hocc. destruct k as [w| | | | | |args ret]; try contradiction; cbn [kchild interp] in *; [subst; exact Ho|].
      apply occ_fun. destruct Hj as [Hj| ->]; [left|right; exact Ho]. apply Exists_exists. exists (s0 j).
      split; [apply in_map, Hj|exact Ho]. }
    intros i. induction (Ha i) as [i _ IH]. destruct (Nat.eq_dec v i) as [->|Hvi]; [exact H2|].
    constructor. intros j (k' & Hk' & Hj & Hne). rewrite Hn in Hk'.
    destruct (Nat.eqb_spec v i) as [->|_]; [congruence|]. apply IH. exists k'. auto.
Qed.

Lemma bind_ok p v k : wf p -> unresolved p v -> normal p k -> k <> KVar v ->
  exists p' r, conv (fun n => bind_var n p v k) (p', r) /\ extends p p' /\
    exact_for p (fun s => s v = interp s k) p' r.
Proof.
  intros Hwf Hv (Hkb & Hkh) Hne. destruct (canonical_exists p Hwf) as (s0 & Hc).
  destruct (occurs_ok v _ p s0 k Hwf Hc Hkb (le_n _)) as (p1 & r & Hconv & Hs1 & Ho).
  assert (Hvl : (v < len p)%nat) by (apply nth_error_Some; unfold unresolved in Hv; congruence).
  destruct r as [|e].
  - destruct (vset_nth_error p1 v k) as (p2 & E2 & Hl2 & Hn2); [destruct Hs1; lia|].
    pose proof Hs1 as (Hl1 & Hwf1 & Hsol1 & Hun1).
    assert (Hwf2 : wf p2).
    { apply (bind_wf p1 p2 s0 v k); auto; [eapply same_canonical; eauto|apply Hun1, Hv|rewrite Hl1; exact Hkb]. }
    assert (Hun2 : forall i, unresolved p2 i -> unresolved p i).
    { intros i Hi. unfold unresolved in Hi. rewrite Hn2 in Hi. destruct (Nat.eqb_spec v i) as [->|Hvi]; [congruence|].
      apply Hun1, Hi. }
    assert (Hex : exact_for p (fun s => s v = interp s k) p2 Ok).
    { cbn. intros s. rewrite <- Hsol1. split.
      - intros H. split; [|apply (H v k); rewrite Hn2, Nat.eqb_refl; reflexivity].
        intros i k' Hk'. destruct (Nat.eq_dec v i) as [->|Hvi].
        + apply Hun1 in Hv. unfold unresolved in Hv. assert (k' = KVar i) as -> by congruence. reflexivity.
        + apply (H i k'). rewrite Hn2. destruct (Nat.eqb_spec v i); [congruence|exact Hk'].
      - intros (H & Hi) i k' Hk'. rewrite Hn2 in Hk'. destruct (Nat.eqb_spec v i) as [<-|Hvi]; [|exact (H i k' Hk')].
        injection Hk' as <-. exact Hi. }
    exists p2, Ok. split; [|split; [|exact Hex]].
    + unfold bind_var. eapply (conv_bind (fun n => occurs_check n p k v)); [exact Hconv|]. cbn beta iota.
      rewrite E2. apply conv_ret.
    + split; [congruence|]. split; [exact Hwf2|]. split; [exact Hun2|]. split; [intros s Hs; apply Hex in Hs; apply Hs|].
      right. apply (count_lt p p2 v); auto; [congruence|]. intros H. unfold unresolved in H.
      rewrite Hn2, Nat.eqb_refl in H. congruence.
  - exists p1, (Err OccursCheckFailed). split; [|split; [apply same_extends, Hs1|]].
    + unfold bind_var. eapply (conv_bind (fun n => occurs_check n p k v)); [exact Hconv|]. apply conv_ret.
    + cbn. intros s Hs Heq. pose proof (canonical_subst_k p s0 s k Hwf Hc Hs Hkb) as E.
      pose proof (subst_size s v _ Ho) as (_ & Hlt). rewrite <- E, <- Heq in Hlt.
      enough (size (s v) < size (s v))%nat by lia. apply Hlt. intros Hg. apply Hne.
      destruct k as [w| | | | | |args ret]; try discriminate. cbn in Hg, Hkh. rewrite (proj2 Hc w Hkh) in Hg. congruence.
Qed.

(** * Unification *)
Definition unify_spec (p : context) (a b : kind) : Prop :=
  exists p' r, conv (fun n => unify n p a b) (p', r) /\ extends p p' /\
    exact_for p (fun s => interp s a = interp s b) p' r.

Lemma map_combine_eq {A B} (s : A -> B) l l' : List.length l = List.length l' ->
  (map s l = map s l' <-> forall ab, In ab (combine l l') -> s (fst ab) = s (snd ab)).
Proof.
  revert l'. induction l as [|x l IH]; intros [|y l'] H; cbn in *; try lia; [split; [intros _ ab []|reflexivity]|].
  injection H as H. split.
  - intros E. injection E as E1 E2. intros ab [<-|Hab]; [exact E1|]. exact (proj1 (IH l' H) E2 ab Hab).
  - intros E. f_equal; [exact (E (x, y) (or_introl eq_refl))|]. apply IH; [exact H|]. intros ab Hab. apply E. right. exact Hab.
Qed.

Lemma unify_list_ok U m ps :
  (forall p a b, wf p -> kbound (len p) a -> kbound (len p) b -> (count p < U)%nat -> unify_spec p a b) ->
  (forall p a b s, wf p -> kbound (len p) a -> kbound (len p) b -> (count p <= U)%nat -> solution p s ->
     (size (interp s a) < m)%nat -> unify_spec p a b) ->
  forall p, wf p -> (forall ab, In ab ps -> (fst ab < len p)%nat /\ (snd ab < len p)%nat) -> (count p <= U)%nat ->
  ((count p < U)%nat \/ exists s, solution p s /\ forall ab, In ab ps -> (size (s (fst ab)) < m)%nat) ->
  exists p' r, conv (fun n => for_each (fun pool ab => unify n pool (KVar (fst ab)) (KVar (snd ab))) p ps) (p', r) /\
    extends p p' /\ exact_for p (fun s => forall ab, In ab ps -> s (fst ab) = s (snd ab)) p' r.
Proof.
  intros HU Hm. induction ps as [|(a, b) ps IH]; intros p Hwf Hb HcU Hs.
  - exists p, Ok. split; [apply conv_ret|]. split; [apply same_extends, same_refl, Hwf|]. cbn. intros s. split; [|tauto].
    intros H. split; [exact H|]. intros ab [].
  - assert (Hab : unify_spec p (KVar a) (KVar b)).
    { destruct (Hb (a, b) (or_introl eq_refl)) as (H1 & H2). cbn in H1, H2.
      destruct Hs as [Hs|(s & Hsol & Hs)].
      - apply HU; auto; intros x ->; assumption.
      - apply (Hm p (KVar a) (KVar b) s); auto; [intros x ->; assumption..|]. exact (Hs (a, b) (or_introl eq_refl)). }
    destruct Hab as (p1 & r & Hc1 & He1 & Hx1). pose proof He1 as (Hl1 & Hwf1 & _ & _ & Hprog).
    pose proof (extends_count _ _ He1) as Hcnt. destruct r as [|e].
    + destruct (IH p1) as (p2 & r & Hc2 & He2 & Hx2).
      * exact Hwf1.
      * intros ab Hin. rewrite Hl1. apply Hb. right. exact Hin.
      * lia.
      * destruct Hprog as [Hsame|Hlt]; [|left; lia]. destruct Hs as [Hs|(s & Hsol & Hs)]; [left; lia|right].
        exists s. split; [apply Hsame, Hsol|]. intros ab Hin. apply Hs. right. exact Hin.
      * exists p2, r. split; [|split; [eapply extends_trans; eauto|]].
        -- cbn [for_each]. eapply (conv_bind (fun n => unify n p (KVar (fst (a, b))) (KVar (snd (a, b))))); [exact Hc1|]. exact Hc2.
        -- cbn [exact_for interp] in Hx1. destruct r as [|e]; cbn [exact_for] in *.
           ++ intros s. rewrite Hx2, Hx1. split.
              ** intros ((H1 & H2) & H3). split; [exact H1|]. intros ab [<-|Hin]; [exact H2|exact (H3 ab Hin)].
              ** intros (H1 & H2). split; [split; [exact H1|exact (H2 _ (or_introl eq_refl))]|]. intros ab Hin. apply H2. right. exact Hin.
           ++ intros s Hsol H. apply (Hx2 s).
              ** apply Hx1. split; [exact Hsol|exact (H _ (or_introl eq_refl))].
              ** intros ab Hin. apply H. right. exact Hin.
    + exists p1, (Err e). split; [|split; [exact He1|]].
      * cbn [for_each]. eapply (conv_bind (fun n => unify n p (KVar (fst (a, b))) (KVar (snd (a, b))))); [exact Hc1|]. apply conv_ret.
      * cbn [exact_for interp] in *. intros s Hsol H. apply (Hx1 s Hsol). exact (H _ (or_introl eq_refl)).
Qed.

Lemma vars_iter_length vs : List.length (vars_iter vs) = vars_len vs.
Proof. apply seq_length. Qed.

Lemma unify_ok_sized U : forall m p a b s, wf p -> kbound (len p) a -> kbound (len p) b -> (count p <= U)%nat ->
  solution p s -> (size (interp s a) < m)%nat -> unify_spec p a b.
Proof.
  induction U as [U IHU] using (well_founded_induction lt_wf).
  induction m as [|m IHm]; intros p a b s Hwf Ha Hb HU Hsol Hm; [lia|].
  assert (HltU : forall p a b, wf p -> kbound (len p) a -> kbound (len p) b -> (count p < U)%nat -> unify_spec p a b).
  { clear -IHU. intros p a b Hwf Ha Hb Hlt. destruct (solution_exists p GName Hwf) as (s & Hs & _).
    apply (IHU (count p) Hlt (S (size (interp s a))) p a b s); auto. }
  destruct (resolve_ok p a Hwf Ha) as (a1 & p1 & Hr1 & Hs1 & Hn1 & Hi1).
  pose proof Hs1 as (Hl1 & Hwf1 & Hsol1 & _).
  destruct (resolve_ok p1 b Hwf1) as (b1 & p2 & Hr2 & Hs2 & Hn2 & Hi2); [rewrite Hl1; exact Hb|].
  pose proof Hs2 as (Hl2 & Hwf2 & Hsol2 & _). pose proof (same_trans _ _ _ Hs1 Hs2) as Hs12.
  pose proof (same_normal _ _ _ Hs2 Hn1) as Hn1'.
  assert (Hsol' : forall s, solution p s -> (interp s a1 = interp s b1 <-> interp s a = interp s b)).
  { intros s' Hs'. rewrite (Hi1 s' Hs'), (Hi2 s'); [reflexivity|]. apply Hsol1, Hs'. }
  assert (Hm1 : (size (interp s a1) <= m)%nat) by (rewrite (Hi1 s Hsol); lia).
  assert (Hwrap : forall body, (exists p' r, conv body (p', r) /\ extends p2 p' /\ exact_for p2 (fun s => interp s a1 = interp s b1) p' r) ->
    (forall n, (if kind_eqb a1 b1 then Ret (p2, Ok)
    else match a1, b1 with
         | KVar v, k => bind_var n p2 v k
         | k, KVar v => bind_var n p2 v k
         | KFun a_args a_ret, KFun b_args b_ret =>
           if negb (Nat.eqb (vars_len a_args) (vars_len b_args)) then Ret (p2, Err Mismatch)
           else
             let* r := for_each (fun pool ab => unify n pool (KVar (fst ab)) (KVar (snd ab))) p2
                                (combine (vars_iter a_args) (vars_iter b_args)) in
             match r with
             | (pool, Ok) => unify n pool (KVar a_ret) (KVar b_ret)
             | (pool, Err e) => Ret (pool, Err e)
             end
         | _, _ => Ret (p2, Err Mismatch)
         end) = body n) -> unify_spec p a b).
  { intros body (p' & r & Hc & He & Hx) Eb. exists p', r. split; [|split].
    - eapply conv_step; [intros n; reflexivity|]. eapply (conv_bind (fun n => resolve n p a)); [exact Hr1|]. cbn beta iota.
      eapply (conv_bind (fun n => resolve n p1 b)); [exact Hr2|]. cbn beta iota.
      eapply conv_ext; [exact Eb|]. exact Hc.
    - eapply extends_trans; [apply same_extends, Hs12|exact He].
    - apply (exact_same p p2); [exact Hs12|]. eapply exact_ext; [|exact Hx]. intros s' Hs'.
      apply Hsol'. apply Hs12, Hs'. }
  pose proof (count_le p p2 (proj1 Hs12)) as Hcnt. specialize (Hcnt ltac:(intros i; apply Hs12)).
  destruct (kind_eqb a1 b1) eqn:Eab.
  { apply kind_eqb_eq in Eab. subst b1. eapply Hwrap; [|intros n; reflexivity]. exists p2, Ok. split; [apply conv_ret|].
    split; [apply same_extends, same_refl, Hwf2|]. cbn. intros s'. tauto. }
  assert (Hmis : (forall s, interp s a1 <> interp s b1) -> exists p' r, conv (fun _ => Ret (p2, Err Mismatch)) (p', r) /\ extends p2 p' /\
    exact_for p2 (fun s => interp s a1 = interp s b1) p' r).
  { intros H. exists p2, (Err Mismatch). split; [apply conv_ret|]. split; [apply same_extends, same_refl, Hwf2|].
    cbn. intros s' _. apply H. }
  assert (Hvar : forall v k, normal p2 (KVar v) -> normal p2 k -> kind_eqb (KVar v) k = false ->
    exists p' r, conv (fun n => bind_var n p2 v k) (p', r) /\ extends p2 p' /\ exact_for p2 (fun s => s v = interp s k) p' r).
  { intros v k (_ & Hv) Hk Hne. apply bind_ok; auto. intros ->. rewrite (proj2 (kind_eqb_eq _ _) eq_refl) in Hne. discriminate. }
  assert (Hvar2 : forall v k, normal p2 (KVar v) -> normal p2 k -> kind_eqb k (KVar v) = false ->
    exists p' r, conv (fun n => bind_var n p2 v k) (p', r) /\ extends p2 p' /\ exact_for p2 (fun s => interp s k = s v) p' r).
  { intros v k Hv Hk Hne. destruct (Hvar v k Hv Hk) as (p' & r & H1 & H2 & H3).
    - destruct (kind_eqb (KVar v) k) eqn:E; [|reflexivity]. apply kind_eqb_eq in E. subst k.
      rewrite (proj2 (kind_eqb_eq _ _) eq_refl) in Hne. discriminate.
    - exists p', r. split; [exact H1|]. split; [exact H2|]. eapply exact_ext; [|exact H3]. intros s' _. split; congruence. }
  destruct a1 as [v| | | | | |a_args a_ret].
  1: { eapply Hwrap; [|intros n; reflexivity]. apply Hvar; auto. }
  all: destruct b1 as [w| | | | | |b_args b_ret];
    try (eapply Hwrap; [apply Hvar2; auto|intros n; reflexivity]);
    try (eapply Hwrap; [apply Hmis; discriminate|intros n; reflexivity]).
  destruct (Nat.eqb_spec (vars_len a_args) (vars_len b_args)) as [Hlen|Hlen].
  2: { eapply Hwrap; [apply Hmis|intros n; cbn [negb]; reflexivity]. intros s' H. cbn [interp] in H.
       injection H as H _. apply Hlen. rewrite <- !vars_iter_length. rewrite <- (map_length s' (vars_iter a_args)), H. apply map_length. }
  eapply Hwrap; [|intros n; cbn [negb]; reflexivity].
  destruct (unify_list_ok U m (combine (vars_iter a_args) (vars_iter b_args)) HltU (fun p a b s => IHm p a b s) p2)
    as (p3 & r3 & Hc3 & He3 & Hx3).
  { exact Hwf2. }
  { intros (x, y) Hin. cbn. split; [apply (proj1 Hn1')|apply (proj1 Hn2)]; left;
      [eapply in_combine_l|eapply in_combine_r]; eauto. }
  { lia. }
  { right. exists s. split; [apply Hs12, Hsol|]. intros (x, y) Hin. cbn.
    assert (Hx : kchild (KFun a_args a_ret) x) by (left; eapply in_combine_l; eauto).
    pose proof (interp_child_size s _ x Hx). specialize (H ltac:(discriminate)). lia. }
  pose proof He3 as (Hl3 & Hwf3 & _ & _ & Hprog). pose proof (extends_count _ _ He3) as Hcnt3.
  assert (Hlens : List.length (vars_iter a_args) = List.length (vars_iter b_args)) by (rewrite !vars_iter_length; exact Hlen).
  destruct r3 as [|e].
  - assert (Hret : unify_spec p3 (KVar a_ret) (KVar b_ret)).
    { assert (kbound (len p3) (KVar a_ret)) by (intros x ->; rewrite Hl3; apply (proj1 Hn1'); right; reflexivity).
      assert (kbound (len p3) (KVar b_ret)) by (intros x ->; rewrite Hl3; apply (proj1 Hn2); right; reflexivity).
      destruct Hprog as [Hsame|Hlt]; [|apply HltU; auto; lia].
      apply (IHm p3 (KVar a_ret) (KVar b_ret) s); auto; [lia|apply Hsame, Hs12, Hsol|].
      pose proof (interp_child_size s (KFun a_args a_ret) a_ret (or_intror eq_refl)). specialize (H1 ltac:(discriminate)). cbn [interp] in *. lia. }
    destruct Hret as (p4 & r4 & Hc4 & He4 & Hx4). exists p4, r4. split; [|split; [eapply extends_trans; eauto|]].
    + eapply (conv_bind (fun n => for_each (fun pool ab => unify n pool (KVar (fst ab)) (KVar (snd ab))) p2
        (combine (vars_iter a_args) (vars_iter b_args)))); [exact Hc3|]. exact Hc4.
    + cbn [interp] in *. destruct r4 as [|e]; cbn [exact_for] in *.
      * intros s'. rewrite Hx4, Hx3, <- (map_combine_eq s' _ _ Hlens). split.
        -- intros ((H1 & H2) & H3). split; [exact H1|congruence].
        -- intros (H1 & H2). injection H2 as H2 H3. auto.
      * intros s' Hs' H. injection H as H2 H3. apply (Hx4 s'); [|exact H3]. apply Hx3. split; [exact Hs'|].
        apply (map_combine_eq s' _ _ Hlens), H2.
  - exists p3, (Err e). split; [|split; [exact He3|]].
    + eapply (conv_bind (fun n => for_each (fun pool ab => unify n pool (KVar (fst ab)) (KVar (snd ab))) p2
        (combine (vars_iter a_args) (vars_iter b_args)))); [exact Hc3|]. apply conv_ret.
    + cbn [exact_for interp] in *. intros s' Hs' H. injection H as H2 H3. apply (Hx3 s' Hs').
      apply (map_combine_eq s' _ _ Hlens), H2.
Qed.

Lemma unify_ok p a b : wf p -> kbound (len p) a -> kbound (len p) b -> unify_spec p a b.
Proof.
  intros Hwf Ha Hb. destruct (solution_exists p GName Hwf) as (s & Hs & _).
  exact (unify_ok_sized (count p) (S (size (interp s a))) p a b s Hwf Ha Hb (le_n _) Hs (le_n _)).
Qed.
