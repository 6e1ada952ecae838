From Verif.Base Require Import Base BaseFacts VecFacts.
From Verif.Types Require Import Model Spec Proofs.

Lemma ast_kind_eqb_eq : forall a b, ast_kind_eqb a b = true <-> a = b.
Proof.
  fix IH 1. intros a b. destruct a as [| | | | |args ret|n], b as [| | | | |args' ret'|n']; cbn [ast_kind_eqb];
    try (split; [discriminate|discriminate]); try (split; reflexivity).
  - assert (H : forall l l', (fix go (l l' : list ast_kind) {struct l} : bool :=
      match l, l' with [], [] => true | x :: l, y :: l' => ast_kind_eqb x y && go l l' | _, _ => false end) l l' = true <-> l = l').
    { induction l as [|x l IHl]; intros [|y l']; try (split; [discriminate|discriminate]); [split; reflexivity|].
      rewrite Bool.andb_true_iff, (IH x y), IHl. split; [intros (-> & ->); reflexivity|intros E; injection E; auto]. }
    rewrite Bool.andb_true_iff, H, (IH ret ret'). split; [intros (-> & ->); reflexivity|intros E; injection E; auto].
  - rewrite Nat.eqb_eq. split; congruence.
Qed.

Lemma ty_eqb_eq a b : ty_eqb a b = true <-> a = b.
Proof.
  destruct a as [v k lv|c|callee (x & y)|g lv], b as [v' k' lv'|c'|callee' (x' & y')|g' lv']; cbn [ty_eqb];
    try (split; [discriminate|discriminate]).
  - rewrite !Bool.andb_true_iff, Nat.eqb_eq, N.eqb_eq, ast_kind_eqb_eq. split; [intros ((-> & ->) & ->); reflexivity|intros E; injection E; auto].
  - rewrite N.eqb_eq. split; congruence.
  - rewrite !Bool.andb_true_iff, !Nat.eqb_eq. split; [intros ((-> & ->) & ->); reflexivity|intros E; injection E; auto].
  - rewrite !Bool.andb_true_iff, !N.eqb_eq. split; [intros (-> & ->); reflexivity|intros E; injection E; auto].
Qed.

Lemma gty_eq_dec : forall a b : gty, {a = b} + {a <> b}.
Proof.
  assert (Hk : forall a b : ast_kind, {a = b} + {a <> b}).
  { intros a b. destruct (ast_kind_eqb a b) eqn:E; [left; apply ast_kind_eqb_eq, E|right].
    intros H. apply ast_kind_eqb_eq in H. congruence. }
  fix IH 1. intros [n k lv|c|callee args|g lv] [n' k' lv'|c'|callee' args'|g' lv']; try (right; discriminate).
  - destruct (Nat.eq_dec n n'), (Hk k k'), (N.eq_dec lv lv'); [left; congruence|right; congruence..].
  - destruct (N.eq_dec c c'); [left; congruence|right; congruence].
  - destruct (IH callee callee') as [E|E]; [|right; congruence].
    destruct (list_eq_dec IH args args') as [E'|E']; [left; congruence|right; congruence].
  - destruct (N.eq_dec g g'), (N.eq_dec lv lv'); [left; congruence|right; congruence..].
Qed.

Lemma classic_leaf x (l : list gty) : In x l \/ ~ In x l.
Proof. destruct (in_dec gty_eq_dec x l); auto. Qed.

(** * Counting unresolved variables *)
Definition unresb (p : context) (i : var) : bool :=
  match nth_error p i with Some t => is_self t i | _ => false end.

Lemma unresb_ok p i : unresb p i = true <-> unres p i.
Proof.
  unfold unresb. destruct (nth_error p i) as [t|] eqn:E; [symmetry; apply unres_self, E|].
  split; [discriminate|]. intros (k & lv & H). unfold unresolved in H. congruence.
Qed.

Definition count (p : context) : nat := List.length (filter (unresb p) (seq 0 (len p))).

Lemma filter_le {A} (f g : A -> bool) l : (forall x, f x = true -> g x = true) ->
  (List.length (filter f l) <= List.length (filter g l))%nat.
Proof.
  intros H. induction l as [|x l IH]; [reflexivity|]. cbn [filter]. destruct (f x) eqn:E; [rewrite (H x E); cbn; lia|].
  destruct (g x); cbn; lia.
Qed.

Lemma filter_lt {A} (f g : A -> bool) l v : (forall x, f x = true -> g x = true) -> In v l -> g v = true -> f v = false ->
  (List.length (filter f l) < List.length (filter g l))%nat.
Proof.
  intros H Hin Hg Hf. induction l as [|x l IH]; [contradiction|]. cbn [filter]. destruct Hin as [->|Hin].
  - rewrite Hg, Hf. pose proof (filter_le f g l H). cbn. lia.
  - specialize (IH Hin). destruct (f x) eqn:E; [rewrite (H x E); cbn; lia|]. destruct (g x); cbn; lia.
Qed.

Lemma count_le p p' : len p' = len p -> (forall i, unres p' i -> unres p i) -> (count p' <= count p)%nat.
Proof.
  intros Hl H. unfold count. rewrite Hl. apply filter_le. intros x Hx. apply unresb_ok, H, unresb_ok, Hx.
Qed.

Lemma unres_lt p v : unres p v -> (v < len p)%nat.
Proof. intros (k & lv & H). apply nth_error_Some. unfold unresolved in H. congruence. Qed.

Lemma count_lt p p' v : len p' = len p -> (forall i, unres p' i -> unres p i) ->
  unres p v -> ~ unres p' v -> (count p' < count p)%nat.
Proof.
  intros Hl H Hv Hv'. unfold count. rewrite Hl. apply (filter_lt _ _ _ v).
  - intros x Hx. apply unresb_ok, H, unresb_ok, Hx.
  - apply in_seq. split; [lia|]. apply unres_lt, Hv.
  - apply unresb_ok, Hv.
  - destruct (unresb p' v) eqn:E; [|reflexivity]. apply unresb_ok in E. contradiction.
Qed.

Lemma vars_iter_length vs : List.length (vars_iter vs) = vars_len vs.
Proof. apply seq_length. Qed.

Lemma map_combine_eq {A B} (s : A -> B) l l' : List.length l = List.length l' ->
  (map s l = map s l' <-> forall ab, In ab (combine l l') -> s (fst ab) = s (snd ab)).
Proof.
  revert l'. induction l as [|x l IH]; intros [|y l'] H; cbn in *; try lia; [split; [intros _ ab []|reflexivity]|].
  injection H as H. split.
  - intros E. injection E as E1 E2. intros ab [<-|Hab]; [exact E1|]. exact (proj1 (IH l' H) E2 ab Hab).
  - intros E. f_equal; [exact (E (x, y) (or_introl eq_refl))|]. apply IH; [exact H|]. intros ab Hab. apply E. right. exact Hab.
Qed.

Section Unify.
  Variable env : kind_env.
  Variable kap : var -> ast_kind.
  Notation hask := (hask env kap).
  Notation wf := (wf env kap).
  Notation same := (same env kap).

  (** [p'] extends [p] with bindings and lowered levels. *)
  Definition extends (p p' : context) : Prop :=
    len p' = len p /\ wf p' /\ (forall i, unres p' i -> unres p i) /\
    (forall s, equations p' s -> equations p s) /\
    ((forall s, equations p s -> equations p' s) \/ (count p' < count p)%nat).

  Lemma same_extends p p' : same p p' -> extends p p'.
  Proof.
    intros H. pose proof H as (H1 & H2 & H3 & H4). split; [exact H1|]. split; [exact H2|]. split; [|split; [|left]].
    - intros i. apply (same_unres env kap p p' i H).
    - intros s. apply H3.
    - intros s. apply H3.
  Qed.

  Lemma extends_count p p' : extends p p' -> (count p' <= count p)%nat.
  Proof. intros (H1 & _ & H2 & _). apply count_le; auto. Qed.

  Lemma extends_trans p q r : extends p q -> extends q r -> extends p r.
  Proof.
    intros H G. pose proof (extends_count _ _ H) as C1. pose proof (extends_count _ _ G) as C2.
    pose proof H as (H1 & H2 & H3 & H4 & H5). pose proof G as (G1 & G2 & G3 & G4 & G5).
    split; [congruence|]. split; [exact G2|]. split; [auto|]. split; [auto|].
    destruct H5 as [H5|H5], G5 as [G5|G5]; [left; auto|right; lia..].
  Qed.

  Definition exact_for (C : Prop) (p : context) (P : (var -> gty) -> Prop) (p' : context) (r : result error) : Prop :=
    match r with
    | Ok => forall s, (equations p' s <-> equations p s /\ P s) /\ (equations p' s -> (fits env p' s <-> fits env p s))
    | Err OccursCheckFailed => forall s, equations p s -> ~ P s
    | Err Mismatch => C -> forall s, solution env p s -> ~ P s
    end.

  Lemma exact_ext C p P Q p' r : (forall s, equations p s -> (P s <-> Q s)) -> exact_for C p P p' r -> exact_for C p Q p' r.
  Proof.
    intros H. destruct r as [|[]]; cbn.
    - intros G s. destruct (G s) as (G1 & G2). split; [|exact G2]. rewrite G1.
      split; intros (H1 & H2); (split; [exact H1|apply (H s H1), H2]).
    - intros G s Hs HQ. apply (G s Hs). apply (H s Hs), HQ.
    - intros G HC s Hs HQ. apply (G HC s Hs). apply (H s (proj1 Hs)), HQ.
  Qed.

  Lemma exact_same (C C' : Prop) p q P p' r : (C -> C') -> same p q -> exact_for C' q P p' r -> exact_for C p P p' r.
  Proof.
    intros HC Hs. pose proof Hs as (_ & _ & H & _). destruct r as [|[]]; cbn; intros G.
    - intros s. destruct (G s) as (G1 & G2). split; [rewrite G1, H; reflexivity|]. intros He. rewrite (G2 He). apply same_fits with kap, Hs.
    - intros s Hp. apply G, H, Hp.
    - intros HC' s (Hp & Hf). apply (G (HC HC')). split; [apply H, Hp|]. apply (same_fits env kap p q s Hs), Hf.
  Qed.

  (** * Changing levels of unresolved variables *)
  Lemma relevel_ok p p' : wf p -> len p' = len p ->
    (forall i, nth_error p' i = nth_error p i \/ exists k l l', nth_error p i = Some (YVar i k l) /\ nth_error p' i = Some (YVar i k l')) ->
    wf p' /\ (forall s, equations p' s <-> equations p s) /\ (forall i, unres p' i <-> unres p i).
  Proof.
    intros ((Hb & Ha) & Hk) Hl Hn. split; [split; [split|]|split].
    - intros i t Ht. rewrite Hl. destruct (Hn i) as [E|(k & l & l' & E1 & E2)]; [rewrite E in Ht; exact (Hb i t Ht)|].
      rewrite E2 in Ht. injection Ht as <-. intros j Hj. exact (Hb i _ E1 j Hj).
    - intros i. induction (Ha i) as [i _ IH]. constructor. intros j (t & Ht & Hj & Hne). apply IH.
      destruct (Hn i) as [E|(k & l & l' & E1 & E2)]; [exists t; rewrite <- E; auto|].
      rewrite E2 in Ht. injection Ht as <-. cbn in Hne. rewrite Nat.eqb_refl in Hne. discriminate.
    - intros i t Ht. destruct (Hn i) as [E|(k & l & l' & E1 & E2)]; [rewrite E in Ht; exact (Hk i t Ht)|].
      rewrite E2 in Ht. injection Ht as <-. destruct (Hk i _ E1) as (H1 & H2). split; [reflexivity|]. intros k' lv' E.
      injection E as <- _. exact (H2 k l eq_refl).
    - intros s. split; intros He i t Ht; destruct (Hn i) as [E|(k & l & l' & E1 & E2)].
      + apply He. rewrite E. exact Ht.
      + rewrite E1 in Ht. injection Ht as <-. reflexivity.
      + apply He. rewrite <- E. exact Ht.
      + rewrite E2 in Ht. injection Ht as <-. reflexivity.
    - intros i. unfold unres, unresolved. destruct (Hn i) as [E|(k & l & l' & E1 & E2)]; [rewrite E; reflexivity|].
      rewrite E1, E2. split; intros _; eauto.
  Qed.

  Lemma set_levels_ok lv targets : forall p, (forall v k, In (v, k) targets -> exists l, unresolved p v k l) ->
    exists p', set_levels p targets lv = Ret p' /\ len p' = len p /\
      (forall i, (forall k, ~ In (i, k) targets) -> nth_error p' i = nth_error p i) /\
      (forall i k, In (i, k) targets -> nth_error p' i = Some (YVar i k lv)).
  Proof.
    induction targets as [|(v, k) ts IH]; intros p H.
    - exists p. split; [reflexivity|]. split; [reflexivity|]. split; [reflexivity|]. intros i k [].
    - destruct (H v k (or_introl eq_refl)) as (l & Hl). unfold unresolved in Hl.
      assert (Hlt : (v < len p)%nat) by (apply nth_error_Some; congruence).
      destruct (vset_nth_error p v (YVar v k lv) Hlt) as (p1 & E1 & Hl1 & Hn1).
      destruct (IH p1) as (p2 & E2 & Hl2 & Hn2 & Hm2).
      { intros w k' Hin. unfold unresolved. rewrite Hn1. destruct (H w k' (or_intror Hin)) as (l' & Hl').
        unfold unresolved in Hl'. destruct (Nat.eqb_spec v w) as [->|Hne]; [|eauto]. rewrite Hl in Hl'. injection Hl' as <- _. eauto. }
      exists p2. split; [cbn [set_levels]; rewrite E1; exact E2|]. split; [congruence|]. split.
      + intros i Hi. rewrite Hn2 by (intros k' Hin; exact (Hi k' (or_intror Hin))). rewrite Hn1.
        destruct (Nat.eqb_spec v i) as [->|Hne]; [|reflexivity]. exfalso. exact (Hi k (or_introl eq_refl)).
      + intros i k' [E|Hin]; [|exact (Hm2 i k' Hin)]. injection E as <- <-.
        destruct (in_dec Nat.eq_dec v (map fst ts)) as [Hin|Hin].
        * apply in_map_iff in Hin. destruct Hin as ((w, k') & Ew & Hin). cbn in Ew. subst w.
          rewrite (Hm2 v k' Hin). destruct (H v k' (or_intror Hin)) as (l' & Hl'). unfold unresolved in Hl'. congruence.
        * rewrite Hn2; [rewrite Hn1, Nat.eqb_refl; reflexivity|]. intros k' Hin'. apply Hin. apply in_map_iff. exists (v, k'). auto.
  Qed.

  (** What [adjust_level] (lax) and [deny_adjust_required_level] (strict) do. *)
  Definition levels_spec (strict : bool) (levels : nat -> context -> ty -> level -> outcome (context * result error)) : Prop :=
    forall p s0 t lv, wf p -> canonical p s0 -> tbound (len p) t ->
    exists p' r, conv (fun n => levels n p t lv) (p', r) /\ len p' = len p /\ wf p' /\
      (forall s, equations p' s <-> equations p s) /\ (forall i, unres p' i <-> unres p i) /\
      match r with
      | Ok => (forall g l, In (TGen g l) (leaves (interp s0 t)) -> (l <= lv)%N) /\
        (forall w k l', unresolved p' w k l' <-> exists l, unresolved p w k l /\
           ((In (TName w k l) (leaves (interp s0 t)) /\ (lv < l)%N /\ l' = lv) \/
            ((~ In (TName w k l) (leaves (interp s0 t)) \/ (l <= lv)%N) /\ l' = l)))
      | Err e => e = Mismatch /\ same p p' /\
        ((exists g l, In (TGen g l) (leaves (interp s0 t)) /\ (lv < l)%N) \/
         (strict = true /\ exists w k l, In (TName w k l) (leaves (interp s0 t))))
      end.

  Lemma adjust_level_ok : levels_spec false adjust_level.
  Proof.
    intros p s0 t lv Hwf Hc Hb. unfold adjust_level.
    match goal with |- context [dfs _ ?g _ _ _] => set (f := g) end.
    destruct (dfs_exact env kap f p s0 t [] ltac:(reflexivity) Hwf Hc Hb) as (p1 & Hconv & Hs).
    assert (Hv : forall l acc, match visit_all f l acc with
      | (targets, Ok) => (forall g lg, In (TGen g lg) l -> (lg <= lv)%N) /\
          (forall v k, In (v, k) targets <-> In (v, k) acc \/ exists l0, In (TName v k l0) l /\ (lv < l0)%N)
      | (_, Err e) => e = Mismatch /\ exists g lg, In (TGen g lg) l /\ (lv < lg)%N end).
    { clear. induction l as [|x l IH]; intros acc.
      - cbn. split; [intros g lg []|]. intros v k. split; [auto|]. intros [H|(l0 & [] & _)]. exact H.
      - cbn [visit_all].
        destruct x as [w k lw|c|callee args|g lw]; cbn [visit]; unfold f at 1.
        + specialize (IH (if (lv <? lw)%N then acc ++ [(w, k)] else acc)).
          destruct (visit_all f l _) as (targets & [|e]).
          * destruct IH as (IH1 & IH2). split; [intros g lg [H|H]; [discriminate|eapply IH1; eauto]|].
            intros v k'. rewrite IH2. destruct (N.ltb_spec lv lw) as [Hlt|Hle].
            -- rewrite in_app_iff. cbn [In]. split.
               ++ intros [[H|[H|[]]]|(l0 & H)]; [auto| |].
                  ** injection H as -> ->. right. exists lw. auto.
                  ** right. exists l0. tauto.
               ++ intros [H|(l0 & [H|H] & H0)]; [auto| |].
                  ** injection H as -> -> ->. auto.
                  ** right. exists l0. auto.
            -- cbn [In]. split; intros [H|(l0 & H)]; auto; [right; exists l0; tauto|].
               destruct H as ([H|H] & H0); [|right; exists l0; auto]. injection H as -> -> ->. lia.
          * destruct IH as (-> & g & lg & H). split; [reflexivity|]. exists g, lg. cbn. tauto.
        + specialize (IH acc). destruct (visit_all f l acc) as (targets & [|e]).
          * destruct IH as (IH1 & IH2). split; [intros g lg [H|H]; [discriminate|eapply IH1; eauto]|].
            intros v k'. rewrite IH2. cbn [In]. split; intros [H|(l0 & H)]; auto; right; exists l0; [tauto|].
            destruct H as ([H|H] & H0); [discriminate|auto].
          * destruct IH as (-> & g & lg & H). split; [reflexivity|]. exists g, lg. cbn. tauto.
        + fold f. specialize (IH acc). destruct (visit_all f l acc) as (targets & [|e]).
          * destruct IH as (IH1 & IH2). split; [intros g lg [H|H]; [discriminate|eapply IH1; eauto]|].
            intros v k'. rewrite IH2. cbn [In]. split; intros [H|(l0 & H)]; auto; right; exists l0; [tauto|].
            destruct H as ([H|H] & H0); [discriminate|auto].
          * destruct IH as (-> & g & lg & H). split; [reflexivity|]. exists g, lg. cbn. tauto.
        + destruct (N.ltb_spec lv lw) as [Hlt|Hle].
          * split; [reflexivity|]. exists g, lw. cbn. auto.
          * specialize (IH acc). destruct (visit_all f l acc) as (targets & [|e]).
            -- destruct IH as (IH1 & IH2). split; [intros g' lg [H|H]; [injection H as -> ->; exact Hle|eapply IH1; eauto]|].
               intros v k'. rewrite IH2. cbn [In]. split; intros [H|(l0 & H)]; auto; right; exists l0; [tauto|].
               destruct H as ([H|H] & H0); [discriminate|auto].
            -- destruct IH as (-> & g' & lg & H). split; [reflexivity|]. exists g', lg. cbn. tauto. }
    specialize (Hv (leaves (interp s0 t)) []).
    destruct (visit_all f (leaves (interp s0 t)) []) as (targets & [|e]); cbn [fst snd] in Hconv.
    - destruct Hv as (Hv1 & Hv2). pose proof Hs as (Hl1 & Hwf1 & Heq1 & Hun1).
      assert (Ht : forall v k, In (v, k) targets -> exists l, unresolved p1 v k l /\ In (TName v k l) (leaves (interp s0 t)) /\ (lv < l)%N).
      { intros v k Hin. apply Hv2 in Hin. destruct Hin as [[]|(l & Hin & Hlt)]. exists l. split; [|auto].
        apply Hun1. eapply canonical_leaf_t; eauto. apply Hwf. }
      destruct (set_levels_ok lv targets p1) as (p2 & E2 & Hl2 & Hn2 & Hm2).
      { intros v k Hin. destruct (Ht v k Hin) as (l & H & _). eauto. }
      destruct (relevel_ok p1 p2 Hwf1 Hl2) as (Hwf2 & Heq2 & Hun2).
      { intros i. destruct (in_dec Nat.eq_dec i (map fst targets)) as [Hin|Hin].
        - apply in_map_iff in Hin. destruct Hin as ((w, k) & Ew & Hin). cbn in Ew. subst w. right.
          destruct (Ht i k Hin) as (l & Hu & _). exists k, l, lv. split; [exact Hu|exact (Hm2 i k Hin)].
        - left. apply Hn2. intros k H. apply Hin. apply in_map_iff. exists (i, k). auto. }
      exists p2, Ok. split; [|split; [congruence|split; [exact Hwf2|split; [|split; [|split; [exact Hv1|]]]]]].
      + eapply (conv_bind (fun n => dfs n f p t [])); [exact Hconv|]. cbn beta iota. rewrite E2. apply conv_ret.
      + intros s. rewrite Heq2. apply Heq1.
      + intros i. rewrite Hun2. apply (same_unres env kap p p1 i Hs).
      + intros w k l'. destruct (in_dec Nat.eq_dec w (map fst targets)) as [Hin|Hin].
        * apply in_map_iff in Hin. destruct Hin as ((w', k') & Ew & Hin). cbn in Ew. subst w'.
          destruct (Ht w k' Hin) as (l & Hu & Hleaf & Hlt). pose proof (Hm2 w k' Hin) as Hw. unfold unresolved at 1. rewrite Hw.
          apply Hun1 in Hu. split.
          -- intros E. injection E as <- <-. exists l. auto.
          -- intros (l0 & Hu0 & Hcase). assert (l0 = l /\ k = k') as (-> & ->) by (unfold unresolved in *; split; congruence).
             destruct Hcase as [(_ & _ & ->)|([H|H] & _)]; [reflexivity|contradiction|lia].
        * unfold unresolved at 1. rewrite Hn2 by (intros k' H; apply Hin; apply in_map_iff; exists (w, k'); auto).
          change (unresolved p1 w k l' <-> exists l, unresolved p w k l /\
           ((In (TName w k l) (leaves (interp s0 t)) /\ (lv < l)%N /\ l' = lv) \/
            ((~ In (TName w k l) (leaves (interp s0 t)) \/ (l <= lv)%N) /\ l' = l))). rewrite Hun1.
          assert (Hno : forall l, In (TName w k l) (leaves (interp s0 t)) -> (l <= lv)%N).
          { intros l Hl. destruct (N.le_gt_cases l lv) as [H|H]; [exact H|]. exfalso. apply Hin. apply in_map_iff. exists (w, k). split; [reflexivity|].
            apply Hv2. right. exists l. auto. }
          split.
          -- intros H. exists l'. split; [exact H|]. right. split; [|reflexivity].
             destruct (N.le_gt_cases l' lv) as [H0|H0]; [auto|left]. intros H1. apply Hno in H1. lia.
          -- intros (l & Hu & [(H1 & H2 & _)|(_ & ->)]); [apply Hno in H1; lia|exact Hu].
    - destruct Hv as (-> & Hv). exists p1, (Err Mismatch). pose proof Hs as (Hl1 & Hwf1 & Heq1 & _).
      split; [|split; [exact Hl1|split; [exact Hwf1|split; [exact Heq1|split; [intros i; apply (same_unres env kap p p1 i Hs)|split; [reflexivity|split; [exact Hs|]]]]]]].
      + eapply (conv_bind (fun n => dfs n f p t [])); [exact Hconv|]. apply conv_ret.
      + left. exact Hv.
  Qed.

  Lemma deny_ok : levels_spec true deny_adjust_required_level.
  Proof.
    intros p s0 t lv Hwf Hc Hb. unfold deny_adjust_required_level.
    match goal with |- context [dfs _ ?g _ _ _] => set (f := g) end.
    destruct (dfs_exact env kap f p s0 t tt ltac:(reflexivity) Hwf Hc Hb) as (p1 & Hconv & Hs).
    assert (Hv : forall l, match snd (visit_all f l tt) with
      | Ok => (forall g lg, In (TGen g lg) l -> (lg <= lv)%N) /\ (forall v k lw, In (TName v k lw) l -> (lw <= lv)%N)
      | Err e => e = Mismatch /\ ((exists g lg, In (TGen g lg) l /\ (lv < lg)%N) \/ exists v k lw, In (TName v k lw) l) end).
    { clear. induction l as [|x l IH]; [cbn; split; [intros g lg []|intros v k lw []]|].
      assert (Hsk : (forall g lg, x = TGen g lg -> (lg <= lv)%N) -> (forall v k lw, x = TName v k lw -> (lw <= lv)%N) ->
        match snd (visit_all f l tt) with
        | Ok => (forall g lg, In (TGen g lg) (x :: l) -> (lg <= lv)%N) /\ (forall v k lw, In (TName v k lw) (x :: l) -> (lw <= lv)%N)
        | Err e => e = Mismatch /\ ((exists g lg, In (TGen g lg) (x :: l) /\ (lv < lg)%N) \/ exists v k lw, In (TName v k lw) (x :: l)) end).
      { intros Hx1 Hx2. destruct (snd (visit_all f l tt)) as [|e].
        - destruct IH as (H1 & H2). split; [intros g lg [H|H]; eauto|intros v k lw [H|H]; eauto].
        - destruct IH as (-> & [(g & lg & H & H0)|(v & k & lw & H)]); (split; [reflexivity|]); [left; exists g, lg; cbn; auto|right; exists v, k, lw; cbn; auto]. }
      cbn [visit_all]. destruct x as [w k lw|c|callee args|g lw]; cbn [visit]; unfold f at 1.
      - destruct (N.ltb_spec lv lw) as [Hlt|Hle].
        + cbn. split; [reflexivity|]. right. eauto.
        + apply Hsk; [discriminate|]. intros v k' lw' E. injection E as _ _ <-. exact Hle.
      - apply Hsk; discriminate.
      - apply Hsk; discriminate.
      - destruct (N.ltb_spec lv lw) as [Hlt|Hle].
        + cbn. split; [reflexivity|]. left. exists g, lw. auto.
        + apply Hsk; [|discriminate]. intros g' lg' E. injection E as _ <-. exact Hle. }
    specialize (Hv (leaves (interp s0 t))). pose proof Hs as (Hl1 & Hwf1 & Heq1 & Hun1).
    exists p1, (snd (visit_all f (leaves (interp s0 t)) tt)).
    split; [|split; [exact Hl1|split; [exact Hwf1|split; [exact Heq1|split; [intros i; apply (same_unres env kap p p1 i Hs)|]]]]].
    - eapply (conv_bind (fun n => dfs n f p t tt)); [exact Hconv|]. apply conv_ret.
    - destruct (snd (visit_all f (leaves (interp s0 t)) tt)) as [|e].
      + destruct Hv as (Hv1 & Hv2). split; [exact Hv1|]. intros w k l'. rewrite Hun1. split.
        * intros H. exists l'. split; [exact H|]. right. split; [|reflexivity].
          destruct (N.le_gt_cases l' lv) as [H0|H0]; [auto|left]. intros H1. apply Hv2 in H1. lia.
        * intros (l & Hu & [(H1 & H2 & _)|(_ & ->)]); [apply Hv2 in H1; lia|exact Hu].
      + destruct Hv as (-> & Hv). split; [reflexivity|]. split; [exact Hs|]. destruct Hv as [Hv|Hv]; auto.
  Qed.

  (** * Binding a variable *)
  Lemma occ_child v s t j : tchild t j -> occ v (s j) -> occ v (interp s t).
  Proof.
    destruct t as [w k lv|c|callee args|g lv]; cbn [tchild interp]; try contradiction; [intros ->; auto|].
    intros [->|Hj] Ho; apply occ_app; [left; exact Ho|right]. exists (s j). split; [apply in_map, Hj|exact Ho].
  Qed.

  Lemma bind_wf p p' s0 v k lv t : wf p -> canonical p s0 -> unresolved p v k lv -> tbound (len p) t -> hask t k ->
    (forall k lv, t <> YVar v k lv) ->
    ~ occ v (interp s0 t) -> len p' = len p ->
    (forall j, nth_error p' j = if Nat.eqb v j then Some t else nth_error p j) -> wf p'.
  Proof.
    intros ((Hb & Ha) & Hk) (Hs & Hu) Hv Ht Hh Hnv Hocc Hl Hn. split; [split|].
    - intros i k' Hk'. rewrite Hn in Hk'. rewrite Hl. destruct (Nat.eqb v i); [injection Hk' as <-; exact Ht|].
      exact (Hb i k' Hk').
    - assert (H1 : forall i, ~ occ v (s0 i) -> Acc (step p') i).
      { intros i. induction (Ha i) as [i _ IH]. intros Hi. constructor. intros j (k' & Hk' & Hj & Hne).
        rewrite Hn in Hk'. destruct (Nat.eqb_spec v i) as [->|Hvi].
        - exfalso. apply Hi. rewrite (Hu i k lv Hv). apply occ_name. reflexivity.
        - assert (Hst : step p j i) by (exists k'; auto). apply IH; [exact Hst|]. intros Ho. apply Hi. rewrite (Hs i k' Hk').
          eapply occ_child; eauto. }
      assert (H2 : Acc (step p') v).
      { constructor. intros j (k' & Hk' & Hj & Hne). rewrite Hn, Nat.eqb_refl in Hk'. injection Hk' as <-.
        apply H1. intros Ho. apply Hocc. eapply occ_child; eauto. }
      intros i. induction (Ha i) as [i _ IH]. destruct (Nat.eq_dec v i) as [->|Hvi]; [exact H2|].
      constructor. intros j (k' & Hk' & Hj & Hne). rewrite Hn in Hk'.
      destruct (Nat.eqb_spec v i) as [->|_]; [congruence|]. apply IH. exists k'. auto.
    - intros i k' Hk'. rewrite Hn in Hk'. destruct (Nat.eqb_spec v i) as [<-|Hvi]; [|exact (Hk i k' Hk')]. injection Hk' as <-.
      rewrite (proj2 (Hk v _ Hv) k lv eq_refl). split; [exact Hh|]. intros k0 lv0 E. exfalso. exact (Hnv k0 lv0 E).
  Qed.

  Lemma bind_ok strict levels p v k lv t K : levels_spec strict levels ->
    wf p -> unresolved p v k lv -> normal p t -> hask t K -> (forall k lv, t <> YVar v k lv) ->
    exists p' r, conv (fun n => bind_var env levels n p v k lv t) (p', r) /\ extends p p' /\
      exact_for (strict = false \/ ground p t) p (fun s => s v = interp s t) p' r.
  Proof.
    intros HL Hwf Hv (Htb & Hth) HK Hne. destruct (canonical_exists p (proj1 Hwf)) as (s0 & Hc).
    destruct (occurs_ok env kap v p s0 t Hwf Hc Htb) as (p1 & r & Hconv & Hs1 & Ho).
    assert (Hvl : (v < len p)%nat) by (apply unres_lt; exists k, lv; exact Hv).
    destruct r as [|e].
    2: { exists p1, (Err OccursCheckFailed). split; [|split; [apply same_extends, Hs1|]].
      - unfold bind_var. eapply (conv_bind (fun n => occurs_check n p t v)); [exact Hconv|]. apply conv_ret.
      - cbn. intros s Hs Heq. pose proof (canonical_gsubst_t p s0 s t (proj1 Hwf) Hc Hs Htb) as E.
        pose proof (gsubst_size s v _ Ho) as (_ & Hlt). rewrite <- E, <- Heq in Hlt.
        enough (size (s v) < size (s v))%nat by lia. apply Hlt. intros k' lv' Hg.
        destruct t as [w kw lw|c|callee args|g lw]; try discriminate. cbn in Hg, Hth.
        rewrite (proj2 Hc w kw lw Hth) in Hg. injection Hg as -> _ _. eapply Hne. reflexivity. }
    pose proof Hs1 as (Hl1 & Hwf1 & Heq1 & Hun1).
    destruct (get_kind_exact env kap p1 t K Hwf1) as (p2 & Hck & Hs2'); [rewrite Hl1; exact Htb|exact HK|].
    pose proof (same_trans env kap _ _ _ Hs1 Hs2') as Hs2. pose proof Hs2 as (Hl2 & Hwf2 & Heq2 & Hun2).
    assert (Hkv : kap v = k) by (exact (proj2 (proj2 Hwf v _ Hv) k lv eq_refl)).
    assert (Hwrap : forall body r, conv body r ->
      (forall n, (if negb (ast_kind_eqb K k) then Ret (p2, Err Mismatch) else let* pool := vset p2 v t in levels n pool t lv) = body n) ->
      conv (fun n => bind_var env levels n p v k lv t) r).
    { intros body r Hb Eb. unfold bind_var. eapply (conv_bind (fun n => occurs_check n p t v)); [exact Hconv|]. cbn beta iota.
      eapply (conv_bind (fun n => get_kind env n p1 t)); [exact Hck|]. cbn beta iota. eapply conv_ext; [exact Eb|]. exact Hb. }
    destruct (ast_kind_eqb K k) eqn:EK; cbn [negb] in Hwrap.
    2: { exists p2, (Err Mismatch). split; [eapply Hwrap; [|intros n; reflexivity]; apply conv_ret|]. split; [apply same_extends, Hs2|].
      cbn. intros _ s (Hs & Hf) E. enough (K = k) as HKk by (rewrite (proj2 (ast_kind_eqb_eq K k) HKk) in EK; discriminate).
      assert (Hkj : forall i, (i < len p)%nat -> kind_of env (s i) = Some (kap i)).
      { apply kind_of_solution; auto. intros w k' lv' Hw. apply (Hf w k' lv' Hw). }
      pose proof (Hkj v Hvl) as E1. rewrite E, Hkv in E1.
      rewrite (kind_of_interp env kap s t K) in E1; [congruence| |exact HK]. intros j Hj. apply Hkj, Htb, Hj. }
    apply ast_kind_eqb_eq in EK. subst K.
    destruct (vset_nth_error p2 v t) as (p3 & E3 & Hl3 & Hn3); [lia|].
    assert (Hwf3 : wf p3).
    { apply (bind_wf p2 p3 s0 v k lv t); auto; [eapply same_canonical; eauto|apply Hun2, Hv|rewrite Hl2; exact Htb]. }
    assert (Hun3 : forall i k' l', unresolved p3 i k' l' <-> i <> v /\ unresolved p i k' l').
    { intros i k' l'. unfold unresolved at 1. rewrite Hn3. destruct (Nat.eqb_spec v i) as [<-|Hvi].
      - split; [intros E; exfalso; eapply Hne; injection E; eauto|intros (H & _); congruence].
      - rewrite <- Hun2. unfold unresolved. split; [intros H; split; [congruence|exact H]|tauto]. }
    assert (Heq3 : forall s, equations p3 s <-> equations p s /\ s v = interp s t).
    { intros s. rewrite <- Heq2. split.
      - intros H. split; [|apply (H v t); rewrite Hn3, Nat.eqb_refl; reflexivity].
        intros i k' Hk'. destruct (Nat.eq_dec v i) as [->|Hvi].
        + apply Hun2 in Hv. unfold unresolved in Hv. assert (k' = YVar i k lv) as -> by congruence. reflexivity.
        + apply (H i k'). rewrite Hn3. destruct (Nat.eqb_spec v i); [congruence|exact Hk'].
      - intros (H & Hi) i k' Hk'. rewrite Hn3 in Hk'. destruct (Nat.eqb_spec v i) as [<-|Hvi]; [|exact (H i k' Hk')].
        injection Hk' as <-. exact Hi. }
    destruct (canonical_exists p3 (proj1 Hwf3)) as (s3 & Hc3).
    assert (Htb3 : tbound (len p3) t) by (rewrite Hl3, Hl2; exact Htb).
    destruct (HL p3 s3 t lv Hwf3 Hc3 Htb3) as (p4 & r & Hc4 & Hl4 & Hwf4 & Heq4 & Hun4 & Hr).
    assert (Hsub : forall s, equations p3 s -> s v = gsubst s (interp s3 t)).
    { intros s Hs. rewrite <- (canonical_gsubst_t p3 s3 s t (proj1 Hwf3) Hc3 Hs Htb3). exact (proj2 (proj1 (Heq3 s) Hs)). }
    exists p4, r. split; [|split].
    - eapply Hwrap; [|intros n; reflexivity]. rewrite E3. exact Hc4.
    - assert (Hun' : forall i, unres p4 i -> i <> v /\ unres p i).
      { intros i H. apply Hun4 in H. destruct H as (k' & l' & H). apply Hun3 in H. destruct H as (H1 & H2). split; [exact H1|]. exists k', l'. exact H2. }
      split; [congruence|]. split; [exact Hwf4|]. split; [intros i H; apply Hun' in H; tauto|]. split.
      + intros s H. apply Heq4, Heq3 in H. tauto.
      + right. apply (count_lt p p4 v); [congruence|intros i H; apply Hun' in H; tauto|exists k, lv; exact Hv|].
        intros H. apply Hun' in H. tauto.
    - destruct r as [|e]; cbn [exact_for].
      + destruct Hr as (Hg & Hlv). intros s. split; [rewrite Heq4; apply Heq3|]. intros Hs4.
        pose proof (proj1 (Heq4 s) Hs4) as Hs3. pose proof (Hsub s Hs3) as Esv. split; intros Hf w k' l' Hw.
        * destruct (Nat.eq_dec w v) as [->|Hwv].
          -- assert (k' = k /\ l' = lv) as (-> & ->) by (unfold unresolved in *; split; congruence). split.
             ++ rewrite <- Hkv. apply (kind_of_solution env kap p4 s); auto; [|congruence]. intros i ki li Hi. apply (Hf i ki li Hi).
             ++ rewrite Esv. apply within_gsubst. intros x Hx. destruct x as [i ki li|c|callee args|g lg]; auto; [|exact (Hg g lg Hx)].
                pose proof (canonical_leaf_t p3 s3 i ki li t (proj1 Hwf3) Hc3 Htb3 Hx) as Hi.
                destruct (N.le_gt_cases li lv) as [H|H].
                ** assert (H4 : unresolved p4 i ki li) by (apply Hlv; exists li; auto).
                   destruct (Hf i ki li H4) as (_ & H5). intros y Hy. specialize (H5 y Hy). destruct y; auto; lia.
                ** assert (H4 : unresolved p4 i ki lv) by (apply Hlv; exists li; auto). apply (Hf i ki lv H4).
          -- assert (H3 : unresolved p3 w k' l') by (apply Hun3; auto).
             destruct (classic_leaf (TName w k' l') (leaves (interp s3 t))) as [Hin|Hin].
             ++ destruct (N.le_gt_cases l' lv) as [H|H].
                ** apply (Hf w k' l'). apply Hlv. exists l'. auto.
                ** destruct (Hf w k' lv) as (H4 & H5); [apply Hlv; exists l'; auto|]. split; [exact H4|].
                   intros y Hy. specialize (H5 y Hy). destruct y; auto; lia.
             ++ apply (Hf w k' l'). apply Hlv. exists l'. auto.
        * apply Hlv in Hw. destruct Hw as (l & Hu & Hcase). apply Hun3 in Hu. destruct Hu as (Hwv & Hu).
          destruct (Hf w k' l Hu) as (H1 & H2). split; [exact H1|]. destruct Hcase as [(Hin & Hlt & ->)|(_ & ->)]; [|exact H2].
          destruct (Hf v k lv Hv) as (_ & Hvw). rewrite Esv in Hvw. exact (proj1 (within_gsubst lv s (interp s3 t)) Hvw _ Hin).
      + destruct Hr as (-> & _ & Hr). intros HC s (Hs & Hf) E. assert (Hs3 : equations p3 s) by (apply Heq3; auto).
        destruct Hr as [(g & l & Hin & Hlt)|(-> & w & kw & lw & Hin)].
        * destruct (Hf v k lv Hv) as (_ & Hvw). rewrite (Hsub s Hs3) in Hvw.
          pose proof (proj1 (within_gsubst lv s (interp s3 t)) Hvw _ Hin) as H. cbn in H. lia.
        * destruct HC as [HC|(g & HC1 & HC2)]; [discriminate|]. rewrite (HC1 s3) in Hin; [exact (HC2 _ _ _ Hin)|].
          apply Heq3, Hc3.
  Qed.
End Unify.
