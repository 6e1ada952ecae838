(** Every schedule builds every module once, after its imports. *)
From Verif.Base Require Import Base BaseFacts.
From Verif.Path Require Import Model Facts.
From Verif.Build Require Import Model Spec ProofsSetup.

(** * Sums *)
Definition sumn (n : nat) (f : nat -> nat) : nat := list_sum (map f (seq 0 n)).
Lemma sumn_S n f : sumn (S n) f = sumn n f + f n.
Proof. unfold sumn. rewrite seq_S, map_app, list_sum_app. cbn. lia. Qed.
Lemma sumn_ext n f g : (forall j, j < n -> f j = g j) -> sumn n f = sumn n g.
Proof. intros H. induction n as [|n IH]; [reflexivity|]. rewrite !sumn_S, IH, H; auto. Qed.
Lemma sumn_change n f g k : k < n -> (forall j, j < n -> j <> k -> f j = g j) -> sumn n g + f k = sumn n f + g k.
Proof.
  induction n as [|n IH]; [lia|]. intros Hk H. rewrite !sumn_S. destruct (Nat.eq_dec k n) as [->|Hne].
  - rewrite (sumn_ext n f g); [lia|]. intros j Hj. apply H; lia.
  - rewrite (H n) by lia. specialize (IH ltac:(lia) (fun j Hj => H j ltac:(lia))). lia.
Qed.
Lemma sumn_zero n f : sumn n f = 0 -> forall j, j < n -> f j = 0.
Proof. induction n as [|n IH]; [lia|]. rewrite sumn_S. intros H j Hj. destruct (Nat.eq_dec j n) as [->|]; [lia|]. apply IH; lia. Qed.
Lemma sumn_pos n f : sumn n f > 0 -> exists j, j < n /\ f j > 0.
Proof.
  induction n as [|n IH]; [cbn; lia|]. rewrite sumn_S. intros H. destruct (f n) eqn:En; [|exists n; lia]. destruct IH as (j & Hj & H'); [lia|]. exists j. split; [lia|exact H'].
Qed.

Section Build.
Context {M E : Type}.
Variable builder : nat -> source -> prog M E.
Variable sources : list source.
Variable paths : list (path * nat).
Variable modules : list building.
Hypothesis Hord : ordered sources.
Hypothesis Hready : ready sources (List.length sources) paths modules.
Hypothesis Hcons : forall i si, nth_error sources i = Some si -> consults sources i (builder i si).
Notation n := (List.length sources).

Lemma imports_lt i j : imports sources i j -> j < i /\ i < n.
Proof.
  intros (si & sj & key & Hi & Hj & Hin). split; [|apply nth_error_Some; congruence].
  destruct Hord as (Hnd & Ho). destruct (Ho i si key _ Hi Hin) as (j' & sj' & Hlt & Hj' & E'). pose proof (nth_path_inj _ _ _ _ _ Hnd Hj' Hj E') as ->. exact Hlt.
Qed.
Lemma depends_lt i j : depends sources i j -> j < i.
Proof. induction 1 as [i j H|i j k H _ IH]; apply imports_lt in H; lia. Qed.

Lemma followers_in i j : In i (followers modules j) <-> imports sources i j.
Proof.
  unfold followers. destruct (nth_error modules j) as [b|] eqn:Eb.
  - rewrite (r_followers _ _ _ _ Hready j b i Eb). split; [tauto|]. intros H. split; [apply imports_lt in H; lia|exact H].
  - split; [intros []|]. intros H. apply nth_error_None in Eb. rewrite (r_length _ _ _ _ Hready) in Eb. apply imports_lt in H. lia.
Qed.

Lemma path_found p j : path_get p paths = Some j <-> exists sj, nth_error sources j = Some sj /\ s_path sj = p.
Proof.
  rewrite (r_paths _ _ _ _ Hready). split; [tauto|]. intros (sj & H1 & H2). split; [apply nth_error_Some; congruence|exists sj; auto].
Qed.
Lemma path_missing p : path_get p paths = None -> forall j sj, nth_error sources j = Some sj -> s_path sj <> p.
Proof. intros H j sj H1 H2. assert (path_get p paths = Some j) by (apply path_found; exists sj; auto). congruence. Qed.

(** * The expected results *)
Definition succeeded_dec (r : nat -> built M E) j : {succeeded r j} + {~ succeeded r j}.
Proof. unfold succeeded. destruct (r j) as [m|e|] eqn:Er; [left; exists m; reflexivity|right; intros (m & H); discriminate|right; intros (m & H); discriminate]. Qed.

Lemma imports_all_dec (r : nat -> built M E) i : (forall j, imports sources i j -> succeeded r j) \/ (exists j, imports sources i j /\ ~ succeeded r j).
Proof.
  assert (H : forall k, (forall j, j < k -> imports sources i j -> succeeded r j) \/ (exists j, imports sources i j /\ ~ succeeded r j)).
  { induction k as [|k [IH|IH]]; [left; intros; lia| |right; exact IH].
    destruct (succeeded_dec r k) as [Hs|Hs]; [left; intros j Hj Hi; destruct (Nat.eq_dec j k) as [->|]; [exact Hs|apply IH; [lia|exact Hi]]|].
    destruct (in_dec Nat.eq_dec i (followers modules k)) as [Hf|Hf]; rewrite followers_in in Hf; [right; exists k; auto|].
    left. intros j Hj Hi. destruct (Nat.eq_dec j k) as [->|]; [contradiction|apply IH; [lia|exact Hi]]. }
  destruct (H n) as [H1|H1]; [left|right; exact H1]. intros j Hj. apply H1; [|exact Hj]. apply imports_lt in Hj. lia.
Qed.

Definition good_at (r : nat -> built M E) (i : nat) (si : source) : Prop :=
  ((forall j, imports sources i j -> succeeded r j) -> exists x, runs sources r (builder i si) x /\ r i = as_built x) /\
  ((exists j, imports sources i j /\ ~ succeeded r j) -> r i = DependentModuleBuildFailed).

Lemma good_imports (r : nat -> built M E) i si : good_at r i si -> succeeded r i -> forall j, imports sources i j -> succeeded r j.
Proof.
  intros (_ & H) (m & Em). destruct (imports_all_dec r i) as [Ha|Ha]; [exact Ha|]. rewrite (H Ha) in Em. discriminate.
Qed.

Lemma good_depends (r : nat -> built M E) i : (forall j sj, j < i -> nth_error sources j = Some sj -> good_at r j sj) -> (forall j, imports sources i j -> succeeded r j) ->
  forall j, depends sources i j -> succeeded r j.
Proof.
  intros Hg Hi j Hd. revert Hg Hi. induction Hd as [i j H|i j k H Hd IH]; intros Hg Hi; [apply Hi, H|]. apply IH.
  - intros j' sj' Hlt. apply Hg. apply imports_lt in H. lia.
  - destruct H as (si & sj & key & H1 & H2 & H3). assert (Him : imports sources i j) by (exists si, sj, key; auto).
    apply (good_imports r j sj); [apply Hg; [apply imports_lt in Him; lia|exact H2]|apply Hi, Him].
Qed.

Lemma runs_exists (r : nat -> built M E) i (p : prog M E) : consults sources i p -> (forall j, depends sources i j -> succeeded r j) -> exists x, runs sources r p x.
Proof.
  intros Hc Hd. induction p as [x|mid k IH|path k IH]; cbn [consults] in Hc.
  - exists x. constructor.
  - destruct Hc as (H1 & H2). destruct (Hd mid H1) as (m & Em). destruct (IH m (H2 m)) as (x & Hx). exists x. eapply runs_ask; eauto.
  - destruct Hc as (H1 & H2). destruct (path_get path paths) as [j|] eqn:Ep.
    + apply path_found in Ep. destruct Ep as (sj & H3 & H4). destruct (Hd j (H1 j sj H3 H4)) as (m & Em). destruct (IH (Some m) (H2 _)) as (x & Hx). exists x. eapply runs_found; eauto.
    + destruct (IH None (H2 _)) as (x & Hx). exists x. eapply runs_none; [apply path_missing, Ep|exact Hx].
Qed.

Lemma runs_agree (r r' : nat -> built M E) i (p : prog M E) x : consults sources i p -> (forall j, depends sources i j -> r j = r' j) -> runs sources r p x -> runs sources r' p x.
Proof.
  intros Hc Hd Hr. revert Hc. induction Hr as [x|mid k m x Hm _ IH|path j sj k m x H1 H2 Hm _ IH|path k x H1 _ IH]; intros Hc; cbn [consults] in Hc.
  - constructor.
  - destruct Hc as (H3 & H4). eapply runs_ask; [rewrite <- (Hd mid H3); exact Hm|auto].
  - destruct Hc as (H3 & H4). eapply runs_found; [exact H1|exact H2|rewrite <- (Hd j (H3 j sj H1 H2)); exact Hm|auto].
  - destruct Hc as (H3 & H4). eapply runs_none; [exact H1|auto].
Qed.

Lemma good_agree r r' i si : nth_error sources i = Some si -> (forall j, j <= i -> r j = r' j) -> good_at r i si -> good_at r' i si.
Proof.
  intros Hi H (H1 & H2). assert (Hs : forall j, imports sources i j -> (succeeded r j <-> succeeded r' j)).
  { intros j Hj. apply imports_lt in Hj. unfold succeeded. rewrite (H j) by lia. reflexivity. }
  split.
  - intros Ha. destruct H1 as (x & Hx & Ex); [intros j Hj; apply Hs; auto|]. exists x. split; [|rewrite <- H by lia; exact Ex].
    eapply runs_agree; [apply Hcons, Hi| |exact Hx]. intros j Hj. apply H. apply depends_lt in Hj. lia.
  - intros (j & Hj & Hn). rewrite <- H by lia. apply H2. exists j. split; [exact Hj|]. rewrite (Hs j Hj). exact Hn.
Qed.

Lemma expected_exists : exists r, results builder sources r.
Proof.
  assert (H : forall k, exists r, forall i si, i < k -> nth_error sources i = Some si -> good_at r i si).
  { induction k as [|k (r & IH)]; [exists (fun _ => DependentModuleBuildFailed); intros; lia|].
    destruct (nth_error sources k) as [sk|] eqn:Ek.
    2:{ exists r. intros i si Hi Hsi. apply IH; [|exact Hsi]. destruct (Nat.eq_dec i k) as [->|]; [congruence|lia]. }
    assert (Hx : exists x, ((forall j, imports sources k j -> succeeded r j) -> exists y, runs sources r (builder k sk) y /\ x = as_built y) /\
                           ((exists j, imports sources k j /\ ~ succeeded r j) -> x = DependentModuleBuildFailed)).
    { destruct (imports_all_dec r k) as [Ha|(j & Hj & Hn)].
      - destruct (runs_exists r k (builder k sk) (Hcons k sk Ek)) as (y & Hy).
        { apply good_depends; [|exact Ha]. intros j sj Hj. apply IH. exact Hj. }
        exists (as_built y). split; [intros _; exists y; auto|]. intros (j & Hj & Hn). destruct (Hn (Ha j Hj)).
      - exists DependentModuleBuildFailed. split; [|reflexivity]. intros Ha. destruct (Hn (Ha j Hj)). }
    destruct Hx as (x & Hx1 & Hx2). set (r' := upd r k x).
    assert (Hag : forall j, j < k -> r j = r' j) by (intros j Hj; unfold r', upd; destruct (Nat.eqb_spec j k); [lia|reflexivity]).
    exists r'. intros i si Hi Hsi. destruct (Nat.eq_dec i k) as [->|Hne].
    - assert (si = sk) by congruence. subst si. assert (Hs : forall j, imports sources k j -> (succeeded r j <-> succeeded r' j)).
      { intros j Hj. apply imports_lt in Hj. unfold succeeded. rewrite (Hag j) by lia. reflexivity. }
      assert (Ek' : r' k = x) by (unfold r', upd; rewrite Nat.eqb_refl; reflexivity). split.
      + intros Ha. destruct Hx1 as (y & Hy & Ey); [intros j Hj; apply Hs; auto|]. exists y. split; [|congruence].
        eapply runs_agree; [apply Hcons, Ek| |exact Hy]. intros j Hj. apply Hag. apply depends_lt in Hj. lia.
      + intros (j & Hj & Hn). rewrite Ek'. apply Hx2. exists j. split; [exact Hj|]. rewrite (Hs j Hj). exact Hn.
    - eapply good_agree; [exact Hsi| |apply IH; [lia|exact Hsi]]. intros j Hj. apply Hag. lia. }
  destruct (H n) as (r & Hr). exists r. intros i si Hsi. apply Hr; [apply nth_error_Some; congruence|exact Hsi].
Qed.

Lemma results_unique r r' : results builder sources r -> results builder sources r' -> forall i, i < n -> r i = r' i.
Proof.
  intros H H' i. induction i as [i IH] using lt_wf_ind. intros Hi. destruct (nth_error sources i) as [si|] eqn:Esi; [|apply nth_error_None in Esi; lia].
  assert (Hs : forall j, imports sources i j -> (succeeded r j <-> succeeded r' j)).
  { intros j Hj. apply imports_lt in Hj. unfold succeeded. rewrite (IH j) by lia. reflexivity. }
  destruct (H i si Esi) as (H1 & H2), (H' i si Esi) as (H1' & H2'). destruct (imports_all_dec r i) as [Ha|(j & Hj & Hn)].
  - destruct (H1 Ha) as (x & Hx & Ex). destruct H1' as (x' & Hx' & Ex'); [intros j Hj; apply Hs; auto|]. rewrite Ex, Ex'. f_equal.
    assert (Hx2 : runs sources r' (builder i si) x).
    { eapply runs_agree; [apply Hcons, Esi| |exact Hx]. intros j Hj. apply depends_lt in Hj. apply IH; lia. }
    clear - Hx' Hx2 Hord. revert x Hx2. induction Hx' as [x|mid k m x Hm _ IH|path j sj k m x H1 H2 Hm _ IH|path k x H1 _ IH]; intros y Hy; inversion Hy as [|? ? m' ? Hm' Hr'|? j' sj' ? m' ? Hj' Hp' Hm' Hr'|? ? ? Hn' Hr']; subst.
    + reflexivity.
    + apply IH. congruence.
    + apply IH. destruct Hord as (Hnd & _). pose proof (nth_path_inj _ _ _ _ _ Hnd H1 Hj' (eq_sym Hp')) as <-. congruence.
    + destruct (Hn' j sj H1 eq_refl).
    + destruct (H1 j' sj' Hj' eq_refl).
    + apply IH. exact Hr'.
  - rewrite H2 by (exists j; auto). symmetry. apply H2'. exists j. split; [exact Hj|]. rewrite <- (Hs j Hj). exact Hn.
Qed.

(** * The invariant *)
Section Inv.
Variable exp : nat -> built M E.
Hypothesis Hexp : results builder sources exp.
Notation state := (state M E).

Definition tok (s : state) (j : nat) : list nat := match task s j with Releasing l => l | _ => followers modules j end.
Definition held (s : state) (i : nat) : nat := occ i (main s) + sumn n (fun j => occ i (tok s j)).

Definition stored (s : state) (i : nat) : Prop := exists l, task s i = Releasing l.

(** What is known of the task of one module. *)
Inductive fine (s : state) (i : nat) : status M E -> Prop :=
| fine_waiting : count s i > 0 -> result s i = DependentModuleBuildFailed -> ~ In (Start i) (log s) -> ~ In (Add i) (log s) -> fine s i Waiting
| fine_running p x : count s i = 0 -> result s i = DependentModuleBuildFailed -> In (Start i) (log s) -> ~ In (Add i) (log s) ->
    (forall j, imports sources i j -> stored s j) -> consults sources i p -> runs sources exp p x -> exp i = as_built x -> fine s i (Running p)
| fine_added m : count s i = 0 -> result s i = DependentModuleBuildFailed -> In (Start i) (log s) -> In (Add i) (log s) ->
    (forall j, imports sources i j -> stored s j) -> exp i = Module m -> fine s i (Added m)
| fine_releasing l m : count s i = 0 -> result s i = Module m -> In (Start i) (log s) -> In (Add i) (log s) ->
    (forall j, imports sources i j -> stored s j) -> exp i = Module m -> (forall k, In k l -> In k (followers modules i)) -> fine s i (Releasing l)
| fine_failed e : count s i = 0 -> result s i = BuildError e -> In (Start i) (log s) -> ~ In (Add i) (log s) ->
    (forall j, imports sources i j -> stored s j) -> exp i = BuildError e -> fine s i Failed.

Record inv (debt : nat -> nat) (s : state) : Prop := {
  i_main : forall i, In i (main s) -> i < n;
  i_count : forall i, i < n -> count s i = held s i + debt i;
  i_fine : forall i, i < n -> fine s i (task s i);
  i_rest : forall i, n <= i -> task s i = Waiting;
  i_log : well_ordered sources (log s);
  i_seen : forall i, In (Start i) (log s) \/ In (Add i) (log s) -> i < n }.

Lemma fine_stored s i : fine s i (task s i) -> stored s i -> exists m, result s i = Module m /\ exp i = Module m /\ In (Add i) (log s) /\ forall j, imports sources i j -> stored s j.
Proof. intros H (l & E'). rewrite E' in H. inversion H; subst. exists m. auto. Qed.

Lemma stored_depends s i : inv (fun _ => 0) s -> (forall j, imports sources i j -> stored s j) -> forall j, depends sources i j -> stored s j.
Proof.
  intros Hi Ha j Hd. revert Ha. induction Hd as [i j H|i j k H _ IH]; intros Ha; [apply Ha, H|]. apply IH. pose proof (imports_lt _ _ H) as Hl.
  destruct (fine_stored s j) as (m & _ & _ & _ & H'); [apply Hi; lia|apply Ha, H|exact H'].
Qed.

Lemma upd_same {A} (f : nat -> A) i x : upd f i x i = x.
Proof. unfold upd. rewrite Nat.eqb_refl. reflexivity. Qed.
Lemma upd_other {A} (f : nat -> A) i x j : j <> i -> upd f i x j = f j.
Proof. intros H. unfold upd. destruct (Nat.eqb_spec j i); [contradiction|reflexivity]. Qed.

(** The facts about one module survive a change elsewhere. *)
Lemma fine_frame (s s' : state) i t : fine s i t -> count s' i = count s i -> result s' i = result s i ->
  (In (Start i) (log s') <-> In (Start i) (log s)) -> (In (Add i) (log s') <-> In (Add i) (log s)) ->
  (forall j, stored s j -> stored s' j) -> fine s' i t.
Proof.
  intros H Hc Hr Hs Ha Hst. destruct H; econstructor; try rewrite Hc; try rewrite Hr; try rewrite Hs; try rewrite Ha; eauto.
Qed.

Definition one (i j : nat) : nat := if Nat.eqb j i then 1 else 0.

Lemma log_snoc (s : state) e : well_ordered sources (log s) -> ~ In e (log s) ->
  (forall i, e = Start i -> forall j, imports sources i j -> In (Add j) (log s)) -> (forall i, e = Add i -> In (Start i) (log s)) -> well_ordered sources (log s ++ [e]).
Proof.
  intros (H1 & H2 & H3) Hn Hs Ha. split; [|split].
  - apply NoDup_rev in H1. rewrite <- (rev_involutive (log s ++ [e])). apply NoDup_rev. rewrite rev_app_distr. cbn. constructor; [rewrite <- in_rev; exact Hn|exact H1].
  - intros l1 i l2 El j Hj. destruct l2 as [|e' l2 _] using rev_ind.
    + apply app_inj_tail in El. destruct El as (<- & ->). apply (Hs i eq_refl j Hj).
    + rewrite app_comm_cons, app_assoc in El. apply app_inj_tail in El. destruct El as (El & _). exact (H2 l1 i l2 El j Hj).
  - intros l1 i l2 El. destruct l2 as [|e' l2 _] using rev_ind.
    + apply app_inj_tail in El. destruct El as (<- & ->). apply (Ha i eq_refl).
    + rewrite app_comm_cons, app_assoc in El. apply app_inj_tail in El. destruct El as (El & _). exact (H3 l1 i l2 El).
Qed.

Lemma release_ok i s : i < n -> inv (one i) s -> exists s', release builder modules i s = Ret s' /\ inv (fun _ => 0) s'.
Proof.
  intros Hi [Hm Hc Hf Hrest Hlog Hseen]. unfold release. pose proof (Hc i Hi) as Ec. unfold one in Ec. rewrite Nat.eqb_refl in Ec. destruct (count s i) as [|c] eqn:Eci; [lia|].
  pose proof (Hf i Hi) as Hfi. assert (Ew : task s i = Waiting) by (destruct Hfi; try reflexivity; congruence).
  assert (Ht : forall s', task s' = task s -> main s' = main s -> forall k, held s' k = held s k).
  { intros s' E1 E2 k. unfold held, tok. rewrite E1, E2. reflexivity. }
  destruct c as [|c].
  - cbn [set_count task]. rewrite Ew. destruct (r_source _ _ _ _ Hready i Hi) as (b & si & Eb & Esi & Es). rewrite Eb. eexists. split; [reflexivity|].
    assert (Hh : held s i = 0) by lia. unfold held in Hh.
    assert (Hst : forall j, imports sources i j -> stored s j).
    { intros j Hj. assert (Hz : occ i (tok s j) = 0). { apply (sumn_zero n (fun j => occ i (tok s j))); [lia|]. apply imports_lt in Hj. lia. }
      unfold tok in Hz. apply followers_in in Hj. apply occ_in in Hj. unfold stored. destruct (task s j) as [|p|m|l|]; try lia. exists l. reflexivity. }
    rewrite Ew in Hfi. inversion Hfi as [_ Hres Hns Hna| | | |].
    set (s' := emit _ _). assert (Hst' : forall j, stored s j -> stored s' j).
    { intros j (l & El). exists l. unfold s'. cbn. rewrite upd_other; [exact El|]. intros ->. congruence. }
    assert (Hheld : forall k, held s' k = held s k).
    { intros k. unfold held. f_equal. apply sumn_ext. intros j Hj. unfold tok, s'. cbn. unfold upd. destruct (Nat.eqb_spec j i) as [->|]; [rewrite Ew; reflexivity|reflexivity]. }
    assert (Hlog' : well_ordered sources (log s ++ [Start i])).
    { apply log_snoc; [exact Hlog|exact Hns| |discriminate]. intros i' E' j Hj. injection E' as <-. destruct (fine_stored s j) as (m & _ & _ & Ha & _); [apply Hf; apply imports_lt in Hj; lia|apply Hst, Hj|exact Ha]. }
    constructor.
    + exact Hm.
    + intros k Hk. rewrite Hheld. unfold s'. cbn. unfold upd. specialize (Hc k Hk). unfold one in Hc. destruct (Nat.eqb_spec k i) as [Ek|]; [|lia]. subst k. unfold held. lia.
    + intros k Hk. destruct (Nat.eq_dec k i) as [->|Hne].
      * unfold s' at 2. cbn. rewrite upd_same. destruct (Hexp i si Esi) as (H1 & _). destruct H1 as (x & Hx & Ex).
        { intros j Hj. destruct (fine_stored s j) as (m & _ & Em & _); [apply Hf; apply imports_lt in Hj; lia|apply Hst, Hj|exists m; exact Em]. }
        eapply fine_running; [unfold s'; cbn; apply upd_same|exact Hres| | | | | |exact Ex].
        -- unfold s'. cbn. rewrite in_app_iff. right. left. reflexivity.
        -- unfold s'. cbn. rewrite in_app_iff. intros [H|[H|[]]]; [contradiction|discriminate].
        -- intros j Hj. apply Hst', Hst, Hj.
        -- apply Hcons. congruence.
        -- rewrite Es. exact Hx.
      * unfold s' at 2. cbn. rewrite upd_other by exact Hne. apply (fine_frame s); [apply Hf, Hk|unfold s'; cbn; apply upd_other, Hne|reflexivity| | |exact Hst']; unfold s'; cbn; rewrite in_app_iff; (split; [|tauto]).
        -- intros [H|[H|[]]]; [exact H|congruence].
        -- intros [H|[H|[]]]; [exact H|discriminate].
    + intros k Hk. unfold s'. cbn. rewrite upd_other by lia. apply Hrest, Hk.
    + exact Hlog'.
    + intros k. unfold s'. cbn. rewrite !in_app_iff. cbn. intros [[H|[H|[]]]|[H|[H|[]]]]; [apply Hseen; auto|congruence|apply Hseen; auto|discriminate].
  - eexists. split; [reflexivity|]. constructor.
    + exact Hm.
    + intros k Hk. rewrite Ht by reflexivity. cbn. unfold upd. specialize (Hc k Hk). unfold one in Hc. destruct (Nat.eqb_spec k i) as [Ek|]; [subst k|]; lia.
    + intros k Hk. cbn. destruct (Nat.eq_dec k i) as [->|Hne].
      * rewrite Ew in *. inversion Hfi; subst. apply fine_waiting; auto. cbn. rewrite upd_same. lia.
      * apply (fine_frame s); [apply Hf, Hk|cbn; apply upd_other, Hne|reflexivity|reflexivity|reflexivity|auto].
    + exact Hrest.
    + exact Hlog.
    + exact Hseen.
Qed.

Lemma main_ok s : inv (fun _ => 0) s -> exists s', step_main builder modules s = Ret s' /\ inv (fun _ => 0) s'.
Proof.
  intros H. unfold step_main. destruct (main s) as [|i l] eqn:Em; [exists s; auto|]. destruct H as [Hm Hc Hf Hrest Hlog Hseen]. apply release_ok; [apply Hm; rewrite Em; left; reflexivity|].
  constructor; auto.
  - intros k Hk. apply Hm. rewrite Em. right. exact Hk.
  - intros k Hk. change (count (set_main l s) k) with (count s k). rewrite (Hc k Hk). unfold held. cbn [main set_main]. rewrite Em, occ_cons. unfold one. assert (Es : sumn n (fun j => occ k (tok (set_main l s) j)) = sumn n (fun j => occ k (tok s j))) by reflexivity. destruct (Nat.eqb k i); lia.
  - intros k Hk. apply (fine_frame s); [apply Hf, Hk|reflexivity|reflexivity|reflexivity|reflexivity|auto].
Qed.

(** A change of the task, result and log of one running module. *)
Lemma task_ok s s' i t : i < n -> inv (fun _ => 0) s -> (forall l, task s i <> Releasing l) -> (forall l, t = Releasing l -> l = followers modules i) -> main s' = main s -> (forall k, count s' k = count s k) ->
  task s' = upd (task s) i t -> (forall k, k <> i -> result s' k = result s k) -> well_ordered sources (log s') ->
  (forall k, k <> i -> (In (Start k) (log s') <-> In (Start k) (log s)) /\ (In (Add k) (log s') <-> In (Add k) (log s))) ->
  fine s' i t -> inv (fun _ => 0) s'.
Proof.
  intros Hi [Hm Hc Hf Hrest Hlog Hseen] Hnr Ht Em Ec Et Er Hlog' Hl Hfi.
  assert (Hst : forall j, stored s j -> stored s' j).
  { intros j (l & El). exists l. rewrite Et, upd_other; [exact El|]. intros ->. exact (Hnr l El). }
  constructor.
  - rewrite Em. exact Hm.
  - intros k Hk. rewrite Ec, (Hc k Hk). unfold held. rewrite Em. f_equal. f_equal. apply sumn_ext. intros j Hj. f_equal. unfold tok. rewrite Et. unfold upd. destruct (Nat.eqb_spec j i) as [->|]; [|reflexivity].
    destruct (task s i) as [|p|m|l|]; try (exfalso; exact (Hnr _ eq_refl)); destruct t as [|p'|m'|l'|]; try reflexivity; symmetry; apply Ht; reflexivity.
  - intros k Hk. rewrite Et. destruct (Nat.eq_dec k i) as [->|Hne]; [rewrite upd_same; exact Hfi|]. rewrite upd_other by exact Hne. destruct (Hl k Hne) as (H1 & H2).
    apply (fine_frame s); [apply Hf, Hk|apply Ec|apply Er, Hne|exact H1|exact H2|exact Hst].
  - intros k Hk. rewrite Et, upd_other by lia. apply Hrest, Hk.
  - exact Hlog'.
  - intros k Hk. destruct (Nat.eq_dec k i) as [->|Hne]; [exact Hi|]. destruct (Hl k Hne) as (H1 & H2). rewrite H1, H2 in Hk. apply Hseen, Hk.
Qed.

Lemma module_ok s j : inv (fun _ => 0) s -> j < n -> stored s j -> exists m, read_module modules j s = Ret m /\ exp j = Module m.
Proof.
  intros H Hj Hs. destruct (fine_stored s j) as (m & Em & Ex & _); [apply H, Hj|exact Hs|]. exists m. split; [|exact Ex]. unfold read_module. rewrite (r_length _ _ _ _ Hready).
  destruct (Nat.ltb_spec j n); [|lia]. rewrite Em. reflexivity.
Qed.

Lemma step_task_ok i s : inv (fun _ => 0) s -> exists s', step_task builder modules paths i s = Ret s' /\ inv (fun _ => 0) s'.
Proof.
  intros H. destruct (Nat.lt_ge_cases i n) as [Hi|Hi].
  2:{ exists s. split; [|exact H]. unfold step_task. rewrite (i_rest _ _ H i Hi). reflexivity. }
  pose proof (i_fine _ _ H i Hi) as Hf. unfold step_task. destruct (task s i) as [|p|m|[|f fs]|] eqn:Et; try (exists s; auto; fail).
  - inversion Hf as [|p' x Hc Hr Hs Ha Hst Hco Hru Hex| | |]; subst p'. assert (Hnr : forall l, task s i <> Releasing l) by (intros l; congruence).
    assert (Hdep : forall j, depends sources i j -> j < n /\ stored s j).
    { intros j Hj. split; [apply depends_lt in Hj; lia|]. eapply stored_depends; eauto. }
    destruct p as [y|mid k|path k]; cbn [consults] in Hco.
    + inversion Hru; subst. destruct x as [m|e]; cbn [as_built] in Hex; (eexists; split; [reflexivity|]).
      * eapply (task_ok s _ i (Added m)); try eassumption; try reflexivity; [intros l; discriminate| | |].
        -- cbn. apply log_snoc; [apply H|exact Ha|discriminate|]. intros i' E'. injection E' as <-. exact Hs.
        -- intros k Hk. cbn. rewrite !in_app_iff. cbn. split; (split; [|tauto]); intros [Hx|[Hx|[]]]; try exact Hx; congruence.
        -- eapply fine_added; eauto; cbn; rewrite ?in_app_iff; cbn; auto. intros j Hj. destruct (Hst j Hj) as (l & El). exists l. cbn. rewrite upd_other; [exact El|]. apply imports_lt in Hj. lia.
      * eapply (task_ok s _ i Failed); try eassumption; try reflexivity; [intros l; discriminate| | | |].
        -- intros k Hk. cbn. apply upd_other, Hk.
        -- apply H.
        -- intros k Hk. cbn. tauto.
        -- eapply fine_failed; eauto; cbn; [apply upd_same|]. intros j Hj. destruct (Hst j Hj) as (l & El). exists l. cbn. rewrite upd_other; [exact El|]. apply imports_lt in Hj. lia.
    + destruct Hco as (H1 & H2). destruct (Hdep mid H1) as (Hlt & Hsto). destruct (module_ok s mid H Hlt Hsto) as (m & Em & Ex). rewrite Em. cbn [bind]. eexists. split; [reflexivity|].
      inversion Hru as [|? ? m' ? Hm' Hk'| |]; subst. assert (m' = m) by congruence. subst m'.
      eapply (task_ok s _ i (Running (k m))); try eassumption; try reflexivity; [intros l; discriminate|apply H|intros; cbn; tauto|].
      eapply fine_running; eauto. intros j Hj. destruct (Hst j Hj) as (l & El). exists l. cbn. rewrite upd_other; [exact El|]. apply imports_lt in Hj. lia.
    + destruct Hco as (H1 & H2). destruct (path_get path paths) as [j|] eqn:Ep.
      * apply path_found in Ep. destruct Ep as (sj & Hsj & Epj). destruct (Hdep j (H1 j sj Hsj Epj)) as (Hlt & Hsto). destruct (module_ok s j H Hlt Hsto) as (m & Em & Ex). rewrite Em. cbn [bind]. eexists. split; [reflexivity|].
        inversion Hru as [| |? j' sj' ? m' ? Hj' Hp' Hm' Hk'|? ? ? Hn' Hk']; subst; [|destruct (Hn' j sj Hsj eq_refl)].
        destruct Hord as (Hnd & _). pose proof (nth_path_inj _ _ _ _ _ Hnd Hj' Hsj Hp') as ->. assert (m' = m) by congruence. subst m'.
        eapply (task_ok s _ i (Running (k (Some m)))); try eassumption; try reflexivity; [intros l; discriminate|apply H|intros; cbn; tauto|].
        eapply fine_running; eauto. intros j' Hj''. destruct (Hst j' Hj'') as (l & El). exists l. cbn. rewrite upd_other; [exact El|]. apply imports_lt in Hj''. lia.
      * eexists. split; [reflexivity|]. inversion Hru as [| |? j' sj' ? m' ? Hj' Hp' Hm' Hk'|? ? ? Hn' Hk']; subst; [destruct (path_missing _ Ep j' sj' Hj' eq_refl)|].
        eapply (task_ok s _ i (Running (k None))); try eassumption; try reflexivity; [intros l; discriminate|apply H|intros; cbn; tauto|].
        eapply fine_running; eauto. intros j' Hj''. destruct (Hst j' Hj'') as (l & El). exists l. cbn. rewrite upd_other; [exact El|]. apply imports_lt in Hj''. lia.
  - inversion Hf as [| |m' Hc Hr Hs Ha Hst Hex| |]; subst m'. eexists. split; [reflexivity|].
    eapply (task_ok s _ i (Releasing (followers modules i))); try eassumption; try reflexivity; [intros l; congruence|intros l E'; congruence| | | |].
    + intros k Hk. cbn. apply upd_other, Hk.
    + apply H.
    + intros k Hk. cbn. tauto.
    + eapply fine_releasing; eauto; cbn; [apply upd_same|]. intros j Hj. destruct (Hst j Hj) as (l & El). exists l. cbn. rewrite upd_other; [exact El|]. apply imports_lt in Hj. lia.
  - inversion Hf as [| | |l m Hc Hr Hs Ha Hst Hex Hsub|]; subst l. assert (Hfn : f < n) by (specialize (Hsub f (or_introl eq_refl)); apply followers_in in Hsub; apply imports_lt in Hsub; lia).
    apply release_ok; [exact Hfn|]. destruct H as [Hm' Hc' Hf' Hrest' Hlog' Hseen'].
    assert (Hsto : forall j, stored s j -> stored (set_task i (Releasing fs) s) j).
    { intros j (l & El). unfold stored. cbn. unfold upd. destruct (Nat.eqb_spec j i); [exists fs; reflexivity|exists l; exact El]. }
    constructor; auto.
    + intros k Hk. change (count (set_task i (Releasing fs) s) k) with (count s k). rewrite (Hc' k Hk). unfold held. cbn [set_task main].
      pose proof (sumn_change n (fun j => occ k (tok (set_task i (Releasing fs) s) j)) (fun j => occ k (tok s j)) i Hi) as Hch. cbn beta in Hch.
      assert (E1 : tok s i = f :: fs) by (unfold tok; rewrite Et; reflexivity). assert (E2 : tok (set_task i (Releasing fs) s) i = fs) by (unfold tok; cbn; rewrite upd_same; reflexivity).
      rewrite E1, E2, occ_cons in Hch. unfold one. specialize (Hch ltac:(intros j Hj Hne; unfold tok; cbn; rewrite upd_other by exact Hne; reflexivity)). destruct (Nat.eqb k f); lia.
    + intros k Hk. cbn [set_task task]. destruct (Nat.eq_dec k i) as [->|Hne].
      * rewrite upd_same. eapply fine_releasing; eauto. intros k Hk'. apply Hsub. right. exact Hk'.
      * rewrite upd_other by exact Hne. apply (fine_frame s); [apply Hf', Hk|reflexivity|reflexivity|reflexivity|reflexivity|exact Hsto].
    + intros k Hk. cbn. rewrite upd_other by lia. apply Hrest', Hk.
Qed.

Lemma total_sumn i (ms : list building) : total i ms = sumn (List.length ms) (fun j => occ i (match nth_error ms j with Some b => b_followers b | None => [] end)).
Proof.
  induction ms as [|b ms IH] using rev_ind; [reflexivity|]. rewrite total_app, app_length. cbn [List.length]. rewrite Nat.add_1_r, sumn_S, IH. f_equal.
  - apply sumn_ext. intros j Hj. rewrite nth_error_app1 by exact Hj. reflexivity.
  - rewrite nth_error_app2, Nat.sub_diag by lia. reflexivity.
Qed.

Lemma start_ok : inv (fun _ => 0) (start modules).
Proof.
  assert (Hl := r_length _ _ _ _ Hready). constructor; cbn [start main count result task log].
  - intros i Hi. apply in_seq in Hi. lia.
  - intros i Hi. destruct (r_source _ _ _ _ Hready i Hi) as (b & si & Eb & _ & _). rewrite Eb, (r_count _ _ _ _ Hready i b Eb), total_sumn, Hl. unfold held, start. cbn [main].
    replace (occ i (seq 0 (List.length modules))) with 1; [unfold tok, followers; cbn [task]; lia|]. symmetry. apply NoDup_count_occ'; [apply seq_NoDup|]. apply in_seq. lia.
  - intros i Hi. constructor; cbn; auto. destruct (r_source _ _ _ _ Hready i Hi) as (b & si & Eb & _ & _). rewrite Eb, (r_count _ _ _ _ Hready i b Eb). lia.
  - reflexivity.
  - split; [constructor|]. split; intros l1 i l2 E'; destruct l1; discriminate.
  - intros i [[]|[]].
Qed.

Lemma step_ok t s : inv (fun _ => 0) s -> exists s', step builder modules paths t s = Ret s' /\ inv (fun _ => 0) s'.
Proof. destruct t as [|i]; [apply main_ok|apply step_task_ok]. Qed.

Lemma exec_ok sched : forall s, inv (fun _ => 0) s -> exists s', exec builder modules paths sched s = Ret s' /\ inv (fun _ => 0) s'.
Proof.
  induction sched as [|t sched IH]; intros s H; [exists s; auto|]. cbn [exec]. destruct (step_ok t s H) as (s1 & E1 & H1). rewrite E1. cbn [bind]. apply IH, H1.
Qed.

Lemma complete_ok s : inv (fun _ => 0) s -> complete n s -> forall i, i < n -> result s i = exp i /\ (In (Add i) (log s) <-> succeeded exp i).
Proof.
  intros H (Hm & Hidle) i. induction i as [i IH] using lt_wf_ind. intros Hi. pose proof (i_fine _ _ H i Hi) as Hf. destruct (Hidle i Hi) as [Et|[Et|Et]]; rewrite Et in Hf.
  - inversion Hf as [Hc Hr Hs Ha| | | |]; subst. rewrite (i_count _ _ H i Hi) in Hc. unfold held in Hc. rewrite Hm in Hc. cbn in Hc. rewrite Nat.add_0_r in Hc.
    apply sumn_pos in Hc. destruct Hc as (j & Hj & Ho). assert (Hin : In i (tok s j)) by (apply occ_in; exact Ho).
    assert (Hnot : (forall l, task s j <> Releasing l) /\ imports sources i j).
    { unfold tok in Hin. destruct (Hidle j Hj) as [E'|[E'|E']]; rewrite E' in *; [split; [discriminate|apply followers_in, Hin]|split; [discriminate|apply followers_in, Hin]|destruct Hin]. }
    destruct Hnot as (Hnr & Him). assert (Hns : ~ succeeded exp j).
    { pose proof (imports_lt _ _ Him) as Hlt. destruct (IH j ltac:(lia) Hj) as (Er & _). unfold succeeded. rewrite <- Er. pose proof (i_fine _ _ H j Hj) as Hfj.
      destruct (Hidle j Hj) as [E'|[E'|E']]; rewrite E' in *; [| |destruct (Hnr _ eq_refl)]; inversion Hfj; subst; intros (m & Em); congruence. }
    destruct (nth_error sources i) as [si|] eqn:Esi; [|apply nth_error_None in Esi; lia]. destruct (Hexp i si Esi) as (_ & H2). rewrite H2 by (exists j; auto).
    split; [exact Hr|]. split; [contradiction|]. intros (m & Em). rewrite H2 in Em by (exists j; auto). discriminate.
  - inversion Hf as [| | | |e Hc Hr Hs Ha Hst Hex]; subst. split; [congruence|]. split; [contradiction|]. intros (m & Em). congruence.
  - inversion Hf as [| | |l m Hc Hr Hs Ha Hst Hex Hsub|]; subst. split; [congruence|]. split; [|auto]. intros _. exists m. exact Hex.
Qed.

(** * Termination *)
Fixpoint plen (p : prog M E) : nat :=
  match p with
  | Finish _ => 0
  | AskModule mid k => match exp mid with Module m => S (plen (k m)) | _ => 0 end
  | FindModule path k => match path_get path paths with
                         | Some j => match exp j with Module m => S (plen (k (Some m))) | _ => 0 end
                         | None => S (plen (k None)) end
  end.
Definition whole (i : nat) : nat := match nth_error sources i with Some si => plen (builder i si) + 3 + List.length (followers modules i) | None => 0 end.
Definition weight (i : nat) (t : status M E) : nat :=
  match t with
  | Waiting => whole i
  | Running p => plen p + 2 + List.length (followers modules i)
  | Added _ => 1 + List.length (followers modules i)
  | Releasing l => List.length l
  | Failed => 0
  end.
Definition measure (s : state) : nat := List.length (main s) + sumn n (fun i => weight i (task s i)).

Lemma measure_task s i t : i < n -> measure (set_task i t s) + weight i (task s i) = measure s + weight i t.
Proof.
  intros Hi. unfold measure. cbn [set_task main task]. pose proof (sumn_change n (fun j => weight j (task s j)) (fun j => weight j (upd (task s) i t j)) i Hi) as H. cbn beta in H.
  rewrite upd_same in H. specialize (H ltac:(intros j Hj Hne; rewrite upd_other by exact Hne; reflexivity)). lia.
Qed.

Lemma release_measure i s s' : i < n -> release builder modules i s = Ret s' -> measure s' <= measure s.
Proof.
  intros Hi. unfold release. destruct (count s i) as [|[|c]]; [discriminate| |intros E'; injection E' as <-; reflexivity].
  cbn [set_count task]. destruct (task s i) eqn:Et; try discriminate. destruct (r_source _ _ _ _ Hready i Hi) as (b & si & Eb & Esi & Es). rewrite Eb. intros E'. injection E' as <-.
  change (measure (emit (Start i) (set_task i (Running (builder i (b_source b))) (set_count i 0 s)))) with (measure (set_task i (Running (builder i (b_source b))) s)).
  pose proof (measure_task s i (Running (builder i (b_source b))) Hi) as H. rewrite Et in H. cbn [weight] in H. unfold whole in H. rewrite Esi, Es in H. rewrite Es. lia.
Qed.

Lemma step_measure t s s' : inv (fun _ => 0) s -> busy t s -> step builder modules paths t s = Ret s' -> measure s' < measure s.
Proof.
  intros H Hb. destruct t as [|i]; cbn [busy step] in *.
  - unfold step_main. pose proof (i_main _ _ H) as Hm. destruct (main s) as [|i l] eqn:Em; [contradiction|]. intros E'. apply release_measure in E'; [|apply Hm; left; reflexivity].
    unfold measure in *. cbn [set_main main task] in E'. rewrite Em. cbn. lia.
  - destruct (Nat.lt_ge_cases i n) as [Hi|Hi]; [|exfalso; apply Hb; left; exact (i_rest _ _ H i Hi)].
    pose proof (i_fine _ _ H i Hi) as Hf. unfold step_task. destruct (task s i) as [|p|m|[|f fs]|] eqn:Et.
    + exfalso. apply Hb. left. reflexivity.
    + inversion Hf as [|p' x Hc Hr Hs Ha Hst Hco Hru Hex| | |]; subst p'.
      assert (Hdep : forall j, depends sources i j -> j < n /\ stored s j).
      { intros j Hj. split; [apply depends_lt in Hj; lia|]. eapply stored_depends; eauto. }
      destruct p as [y|mid k|path k]; cbn [consults] in Hco.
      * destruct y as [m|e]; intros E'; injection E' as <-.
        -- pose proof (measure_task s i (Added m) Hi) as Hmt. rewrite Et in Hmt. cbn [weight plen] in Hmt. change (measure (emit (Add i) (set_task i (Added m) s))) with (measure (set_task i (Added m) s)). lia.
        -- pose proof (measure_task s i Failed Hi) as Hmt. rewrite Et in Hmt. cbn [weight plen] in Hmt. change (measure (set_task i Failed (set_result i (BuildError e) s))) with (measure (set_task i Failed s)). lia.
      * destruct Hco as (H1 & H2). destruct (Hdep mid H1) as (Hlt & Hsto). destruct (module_ok s mid H Hlt Hsto) as (m & Em & Ex). rewrite Em. cbn [bind]. intros E'. injection E' as <-.
        pose proof (measure_task s i (Running (k m)) Hi) as Hmt. rewrite Et in Hmt. cbn [weight plen] in Hmt. rewrite Ex in Hmt. lia.
      * destruct Hco as (H1 & H2). destruct (path_get path paths) as [j|] eqn:Ep.
        -- pose proof Ep as Ep'. apply path_found in Ep'. destruct Ep' as (sj & Hsj & Epj). destruct (Hdep j (H1 j sj Hsj Epj)) as (Hlt & Hsto). destruct (module_ok s j H Hlt Hsto) as (m & Em & Ex). rewrite Em. cbn [bind]. intros E'. injection E' as <-.
           pose proof (measure_task s i (Running (k (Some m))) Hi) as Hmt. rewrite Et in Hmt. cbn [weight plen] in Hmt. rewrite Ep, Ex in Hmt. lia.
        -- intros E'. injection E' as <-. pose proof (measure_task s i (Running (k None)) Hi) as Hmt. rewrite Et in Hmt. cbn [weight plen] in Hmt. rewrite Ep in Hmt. lia.
    + intros E'. injection E' as <-. pose proof (measure_task s i (Releasing (followers modules i)) Hi) as Hmt. rewrite Et in Hmt. cbn [weight] in Hmt.
      change (measure (set_task i (Releasing (followers modules i)) (set_result i (Module m) s))) with (measure (set_task i (Releasing (followers modules i)) s)). lia.
    + exfalso. apply Hb. right. right. reflexivity.
    + intros E'. inversion Hf as [| | |l m Hc Hr Hs Ha Hst Hex Hsub|]; subst l. apply release_measure in E'.
      2:{ specialize (Hsub f (or_introl eq_refl)). apply followers_in in Hsub. apply imports_lt in Hsub. lia. }
      pose proof (measure_task s i (Releasing fs) Hi) as Hmt. rewrite Et in Hmt. cbn [weight List.length] in Hmt. lia.
    + exfalso. apply Hb. right. left. reflexivity.
Qed.

Lemma busy_bound sched : forall s, inv (fun _ => 0) s -> all_busy (step builder modules paths) sched s -> List.length sched <= measure s.
Proof.
  induction sched as [|t sched IH]; intros s H Hb; [cbn; lia|]. destruct Hb as (Hb & Hrest). destruct (step_ok t s H) as (s1 & E1 & H1).
  pose proof (step_measure t s s1 H Hb E1). specialize (IH s1 H1 (Hrest s1 E1)). cbn. lia.
Qed.
End Inv.
End Build.

(** * Summary *)
Section Summary.
Context {M E : Type}.
Variable builder : nat -> source -> prog M E.
Variable sources : list source.
Hypothesis Hord : ordered sources.
Hypothesis Hassert : asserts sources = true.
Hypothesis Hcons : forall i si, nth_error sources i = Some si -> consults sources i (builder i si).

Lemma build_safe_ok schedule : exists s, build builder sources schedule = Ret s /\ well_ordered sources (log s).
Proof.
  unfold build. rewrite Hassert. destruct (setup sources [] []) as (paths, modules) eqn:Es. pose proof (setup_ready _ _ _ Hord Es) as Hr.
  destruct (expected_exists builder sources paths modules Hord Hr Hcons) as (exp & Hexp).
  destruct (exec_ok builder sources paths modules Hord Hr Hcons exp Hexp schedule (start modules) (start_ok builder sources paths modules Hr Hcons exp)) as (s & E1 & H1). exists s. split; [exact E1|apply H1].
Qed.

Lemma build_results_ok schedule s : build builder sources schedule = Ret s -> complete (List.length sources) s ->
  results builder sources (result s) /\ forall i, i < List.length sources -> (In (Add i) (log s) <-> succeeded (result s) i).
Proof.
  unfold build. rewrite Hassert. destruct (setup sources [] []) as (paths, modules) eqn:Es. pose proof (setup_ready _ _ _ Hord Es) as Hr. intros Eb Hc.
  destruct (expected_exists builder sources paths modules Hord Hr Hcons) as (exp & Hexp).
  destruct (exec_ok builder sources paths modules Hord Hr Hcons exp Hexp schedule (start modules) (start_ok builder sources paths modules Hr Hcons exp)) as (s1 & E1 & H1).
  assert (s1 = s) by congruence. subst s1. pose proof (complete_ok builder sources paths modules Hord Hr Hcons exp Hexp s H1 Hc) as Hres. split.
  - intros i si Hsi. assert (Hi : i < List.length sources) by (apply nth_error_Some; congruence).
    eapply (good_agree builder sources Hord Hcons exp (result s) i si Hsi); [|exact (Hexp i si Hsi)]. intros j Hj. symmetry. apply Hres. lia.
  - intros i Hi. destruct (Hres i Hi) as (E2 & E3). unfold succeeded in *. rewrite E2. exact E3.
Qed.

Lemma build_unique_ok schedule schedule' s s' : build builder sources schedule = Ret s -> complete (List.length sources) s ->
  build builder sources schedule' = Ret s' -> complete (List.length sources) s' -> forall i, i < List.length sources -> result s i = result s' i.
Proof.
  intros E1 H1 E2 H2. destruct (build_results_ok _ _ E1 H1) as (R1 & _), (build_results_ok _ _ E2 H2) as (R2 & _).
  destruct (setup sources [] []) as (paths, modules) eqn:Es. pose proof (setup_ready _ _ _ Hord Es) as Hr. exact (results_unique builder sources paths modules Hord Hr Hcons _ _ R1 R2).
Qed.

Lemma build_terminates_ok : exists bound, forall paths modules, setup sources [] [] = (paths, modules) -> forall schedule,
  all_busy (step builder modules paths) schedule (start modules) -> List.length schedule <= bound.
Proof.
  destruct (setup sources [] []) as (paths, modules) eqn:Es. pose proof (setup_ready _ _ _ Hord Es) as Hr. destruct (expected_exists builder sources paths modules Hord Hr Hcons) as (exp & Hexp).
  exists (measure builder sources paths modules exp (start modules)). intros paths' modules' E' schedule Hb. injection E' as <- <-.
  exact (busy_bound builder sources paths modules Hord Hr Hcons exp Hexp schedule _ (start_ok builder sources paths modules Hr Hcons exp) Hb).
Qed.
End Summary.

Lemma partition_agree {M E : Type} (sources : list source) (s s' : state M E) : forall i, (forall j, i <= j -> j < i + List.length sources -> result s j = result s' j) -> partition i sources s = partition i sources s'.
Proof.
  induction sources as [|src sources IH]; intros i H; [reflexivity|]. cbn [partition]. rewrite (IH (S i)) by (intros j Hj1 Hj2; apply H; cbn; lia).
  rewrite (H i) by (cbn; lia). reflexivity.
Qed.

Lemma partition_reported {M E : Type} (sources : list source) (s : state M E) : forall i ms es, partition i sources s = (ms, es) -> reported (result s) i sources ms es.
Proof.
  induction sources as [|src sources IH]; intros i ms es H; cbn [partition] in H; [injection H as <- <-; constructor|].
  destruct (partition (S i) sources s) as (ms', es') eqn:Ep. specialize (IH _ _ _ Ep). destruct (result s i) as [m|e|] eqn:Er; injection H as <- <-.
  - constructor; assumption.
  - constructor; [assumption|congruence|assumption].
  - constructor; [assumption|congruence|assumption].
Qed.
