(** The counts and followers set up before the build. *)
From Verif.Base Require Import Base BaseFacts.
From Verif.Path Require Import Model Facts.
From Verif.Build Require Import Model Spec.

Lemma nth_update {A} i (f : A -> A) l j : nth_error (update i f l) j = if Nat.eqb j i then option_map f (nth_error l j) else nth_error l j.
Proof.
  revert i j. induction l as [|x l IH]; intros i j.
  - destruct i, j; cbn; try reflexivity; destruct (Nat.eqb j i); reflexivity.
  - destruct i, j; cbn; try reflexivity. apply IH.
Qed.
Lemma length_update {A} i (f : A -> A) l : List.length (update i f l) = List.length l.
Proof. revert i. induction l as [|x l IH]; intros [|i]; cbn; auto. Qed.

Definition occ (i : nat) (l : list nat) : nat := count_occ Nat.eq_dec l i.
Lemma occ_app i l l' : occ i (l ++ l') = occ i l + occ i l'.
Proof. apply count_occ_app. Qed.
Lemma occ_cons i j l : occ i (j :: l) = (if Nat.eqb i j then 1 else 0) + occ i l.
Proof. unfold occ. cbn. destruct (Nat.eq_dec j i) as [->|H]; [rewrite Nat.eqb_refl; reflexivity|]. destruct (Nat.eqb_spec i j); [congruence|reflexivity]. Qed.
Lemma occ_in i l : In i l <-> occ i l > 0.
Proof. apply count_occ_In. Qed.

Definition total (i : nat) (ms : list building) : nat := list_sum (map (fun b => occ i (b_followers b)) ms).
Lemma total_push i j mid ms : j < List.length ms -> total i (update j (push_follower mid) ms) = total i ms + (if Nat.eqb i mid then 1 else 0).
Proof.
  unfold total. revert j. induction ms as [|b ms IH]; intros j H; [cbn in H; lia|]. destruct j as [|j]; cbn [update map list_sum fold_right].
  - cbn [push_follower b_followers]. rewrite occ_app, occ_cons. cbn [occ count_occ]. unfold list_sum. cbn. lia.
  - unfold list_sum in *. cbn. rewrite IH by (cbn in H; lia). lia.
Qed.
Lemma total_app i ms b : total i (ms ++ [b]) = total i ms + occ i (b_followers b).
Proof. unfold total. rewrite map_app, list_sum_app. cbn. lia. Qed.

Lemma link_ok mid deps paths : (forall p j, path_get p paths = Some j -> j < mid) -> forall m ms m' ms', List.length ms = mid -> link mid deps paths m ms = (m', ms') ->
  List.length ms' = mid /\ b_source m' = b_source m /\ b_followers m' = b_followers m /\
  (forall i, total i ms' + (if Nat.eqb i mid then b_leader_count m else 0) = total i ms + (if Nat.eqb i mid then b_leader_count m' else 0)) /\
  (forall j b, nth_error ms j = Some b -> exists b', nth_error ms' j = Some b' /\ b_source b' = b_source b /\ b_leader_count b' = b_leader_count b /\
     forall i, In i (b_followers b') <-> In i (b_followers b) \/ (i = mid /\ exists key p, In (key, p) deps /\ path_get p paths = Some j)).
Proof.
  intros Hp. induction deps as [|[key p] deps IH]; intros m ms m' ms' Hl E; cbn [link] in E.
  - injection E as <- <-. repeat split; auto. intros j b Hj. exists b. repeat split; auto. intros [H|(_ & ? & ? & [] & _)]. exact H.
  - destruct (path_get p paths) as [d|] eqn:Eg.
    + pose proof (Hp p d Eg) as Hd. edestruct IH as (H1 & H2 & H3 & H4 & H5); [|exact E|]; [rewrite length_update; exact Hl|].
      split; [exact H1|]. split; [exact H2|]. split; [exact H3|]. split.
      * intros i. specialize (H4 i). rewrite total_push in H4 by lia. cbn [b_leader_count] in H4. destruct (Nat.eqb i mid); lia.
      * intros j b Hj. specialize (H5 j). rewrite nth_update, Hj in H5. destruct (Nat.eqb_spec j d) as [->|Hne]; cbn [option_map] in H5.
        -- destruct (H5 _ eq_refl) as (b' & H6 & H7 & H8 & H9). exists b'. repeat split; auto.
           ++ intros Hi. apply H9 in Hi. cbn [push_follower b_followers] in Hi. rewrite in_app_iff in Hi. destruct Hi as [[Hi|[<-|[]]]|(-> & k & q & Hq)].
              ** left. exact Hi.
              ** right. split; [reflexivity|]. exists key, p. split; [left; reflexivity|exact Eg].
              ** right. split; [reflexivity|]. exists k, q. split; [right; tauto|tauto].
           ++ intros Hi. apply H9. cbn [push_follower b_followers]. rewrite in_app_iff. destruct Hi as [Hi|(-> & k & q & [Hq|Hq] & Hg)]; [tauto|left; right; left; reflexivity|]. right. split; [reflexivity|]. exists k, q. auto.
        -- destruct (H5 _ eq_refl) as (b' & H6 & H7 & H8 & H9). exists b'. repeat split; auto.
           ++ intros Hi. apply H9 in Hi. destruct Hi as [Hi|(-> & k & q & Hq & Hg)]; [tauto|]. right. split; [reflexivity|]. exists k, q. split; [right; exact Hq|exact Hg].
           ++ intros Hi. apply H9. destruct Hi as [Hi|(-> & k & q & [Hq|Hq] & Hg)]; [tauto| |right; split; [reflexivity|]; exists k, q; auto]. injection Hq as <- <-. congruence.
    + edestruct IH as (H1 & H2 & H3 & H4 & H5); [|exact E|]; [exact Hl|]. repeat split; auto. intros j b Hj. destruct (H5 j b Hj) as (b' & H6 & H7 & H8 & H9). exists b'. repeat split; auto.
      * intros Hi. apply H9 in Hi. destruct Hi as [Hi|(-> & k & q & Hq & Hg)]; [tauto|]. right. split; [reflexivity|]. exists k, q. split; [right; exact Hq|exact Hg].
      * intros Hi. apply H9. destruct Hi as [Hi|(-> & k & q & [Hq|Hq] & Hg)]; [tauto| |right; split; [reflexivity|]; exists k, q; auto]. injection Hq as <- <-. congruence.
Qed.

Lemma nth_path_inj sources i j si sj : NoDup (map s_path sources) -> nth_error sources i = Some si -> nth_error sources j = Some sj -> s_path si = s_path sj -> i = j.
Proof.
  intros Hn Hi Hj E. apply (proj1 (NoDup_nth_error _) Hn).
  - rewrite map_length. apply nth_error_Some. congruence.
  - rewrite !nth_error_map, Hi, Hj. cbn. congruence.
Qed.

Lemma skipn_step {A} (l : list A) n x r : skipn n l = x :: r -> skipn (S n) l = r.
Proof.
  revert l. induction n as [|n IH]; intros l H; [cbn in H; subst l; reflexivity|]. destruct l as [|y l]; [discriminate|]. cbn [skipn] in H |- *. exact (IH l H).
Qed.

(** What the setup of a prefix of the sources establishes. *)
Record ready (sources : list source) (n : nat) (paths : list (path * nat)) (ms : list building) : Prop := {
  r_length : List.length ms = n;
  r_source : forall i, i < n -> exists b si, nth_error ms i = Some b /\ nth_error sources i = Some si /\ b_source b = si;
  r_paths : forall p j, path_get p paths = Some j <-> j < n /\ exists sj, nth_error sources j = Some sj /\ s_path sj = p;
  r_count : forall i b, nth_error ms i = Some b -> b_leader_count b = S (total i ms);
  r_followers : forall j b i, nth_error ms j = Some b -> In i (b_followers b) <-> i < n /\ imports sources i j }.

Lemma setup_ok sources : ordered sources -> forall rest n paths ms paths' ms', skipn n sources = rest -> n <= List.length sources -> ready sources n paths ms ->
  setup rest paths ms = (paths', ms') -> ready sources (List.length sources) paths' ms'.
Proof.
  intros (Hnd & Hord). induction rest as [|src rest IH]; intros n paths ms paths' ms' Hs Hn Hr E.
  - cbn in E. injection E as <- <-. assert (n = List.length sources) as <-; [|exact Hr]. apply (f_equal (@List.length _)) in Hs. rewrite skipn_length in Hs. cbn in Hs. lia.
  - cbn [setup] in E. destruct Hr as [Hl Hsrc Hpaths Hcount Hfol].
    assert (Hnth : nth_error sources n = Some src).
    { rewrite <- (firstn_skipn n sources), Hs, nth_error_app2; rewrite firstn_length; [|lia]. replace (n - Nat.min n (List.length sources)) with 0 by lia. reflexivity. }
    assert (Hlt : n < List.length sources) by (apply nth_error_Some; congruence).
    assert (Hs' : skipn (S n) sources = rest).
    { exact (skipn_step _ _ _ _ Hs). }
    rewrite Hl in E. destruct (link n (s_deps src) paths _ ms) as (m', ms1) eqn:El.
    pose proof (link_ok n (s_deps src) paths (fun p j H => proj1 (proj1 (Hpaths p j) H)) _ _ _ _ Hl El) as (H1 & H2 & H3 & H4 & H5). cbn [b_source b_followers b_leader_count] in *.
    eapply (IH (S n)); [exact Hs'|lia| |exact E]. constructor.
    + rewrite app_length. cbn. lia.
    + intros i Hi. destruct (Nat.eq_dec i n) as [->|Hne].
      * exists m', src. rewrite nth_error_app2, H1, Nat.sub_diag by lia. auto.
      * destruct (Hsrc i) as (b & si & Hb & Hsi & Eb); [lia|]. destruct (H5 i b Hb) as (b' & Hb' & E1 & _). exists b', si. rewrite nth_error_app1 by lia. repeat split; congruence.
    + intros p j. cbn [path_get]. destruct (path_eqb p (s_path src)) eqn:Ep.
      * apply path_eqb_eq in Ep. subst p. split.
        -- intros Ej. injection Ej as <-. split; [lia|]. exists src. auto.
        -- intros (Hj & sj & Hsj & Epj). f_equal. eapply nth_path_inj; eauto.
      * rewrite Hpaths. split; intros (Hj & sj & Hsj & Epj); (split; [|exists sj; auto]); [lia|]. destruct (Nat.eq_dec j n) as [->|]; [|lia].
        exfalso. assert (sj = src) by congruence. subst. rewrite path_eqb_refl in Ep. discriminate.
    + intros i b Hb. rewrite total_app. rewrite H3. cbn [occ count_occ]. destruct (Nat.eq_dec i n) as [->|Hne].
      * rewrite nth_error_app2, H1, Nat.sub_diag in Hb by lia. injection Hb as <-. specialize (H4 n). rewrite Nat.eqb_refl in H4.
        assert (total n ms = 0); [|lia]. clear - Hfol Hl. unfold total. assert (H : forall b, In b ms -> occ n (b_followers b) = 0).
        { intros b Hb. apply In_nth_error in Hb. destruct Hb as (j & Hj). destruct (occ n (b_followers b)) eqn:Eo; [reflexivity|].
          assert (Hin : In n (b_followers b)) by (apply occ_in; lia). apply (Hfol j b n Hj) in Hin. lia. }
        clear Hfol Hl. induction ms as [|b ms IH]; [reflexivity|]. cbn. rewrite (H b (or_introl eq_refl)). apply IH. intros b' Hb'. apply H. right. exact Hb'.
      * assert (Hi : i < n). { assert (i < S n); [|lia]. replace (S n) with (List.length (ms1 ++ [m'])) by (rewrite app_length; cbn; lia). apply nth_error_Some. congruence. }
        rewrite nth_error_app1 in Hb by lia. destruct (nth_error ms i) as [b0|] eqn:E0; [|apply nth_error_None in E0; lia].
        destruct (H5 i b0 E0) as (b' & Hb' & _ & E2 & _). assert (b' = b) by congruence. subst b'. rewrite E2, (Hcount i b0 E0). specialize (H4 i).
        destruct (Nat.eqb_spec i n); [contradiction|]. unfold occ in *. cbn. lia.
    + intros j b i Hb. destruct (Nat.eq_dec j n) as [->|Hne].
      * rewrite nth_error_app2, H1, Nat.sub_diag in Hb by lia. injection Hb as <-. rewrite H3. split; [intros []|]. intros (Hi & si & sj & key & Hsi & Hsj & Hin).
        destruct (Hord i si key _ Hsi Hin) as (j' & sj' & Hj' & Hsj' & E'). pose proof (nth_path_inj _ _ _ _ _ Hnd Hsj' Hsj E') as ->. lia.
      * assert (Hj : j < n). { assert (j < S n); [|lia]. replace (S n) with (List.length (ms1 ++ [m'])) by (rewrite app_length; cbn; lia). apply nth_error_Some. congruence. }
        rewrite nth_error_app1 in Hb by lia. destruct (nth_error ms j) as [b0|] eqn:E0; [|apply nth_error_None in E0; lia].
        destruct (H5 j b0 E0) as (b' & Hb' & _ & _ & H6). assert (b' = b) by congruence. subst b'. rewrite H6, (Hfol j b0 i E0). split.
        -- intros [(Hi & Him)|(-> & key & p & Hin & Hg)]; [split; [lia|exact Him]|]. split; [lia|]. apply Hpaths in Hg. destruct Hg as (_ & sj & Hsj & <-). exists src, sj, key. auto.
        -- intros (Hi & Him). destruct (Nat.eq_dec i n) as [->|]; [|left; split; [lia|exact Him]]. right. split; [reflexivity|]. destruct Him as (si & sj & key & Hsi & Hsj & Hin).
           assert (si = src) by congruence. subst si. exists key, (s_path sj). split; [exact Hin|]. apply Hpaths. split; [exact Hj|]. exists sj. auto.
Qed.

Lemma setup_ready sources paths ms : ordered sources -> setup sources [] [] = (paths, ms) -> ready sources (List.length sources) paths ms.
Proof.
  intros Ho E. eapply (setup_ok sources Ho sources 0); [reflexivity|lia| |exact E]. constructor.
  - reflexivity.
  - intros i Hi. lia.
  - intros p j. split; [discriminate|]. intros (H & _). lia.
  - intros [|i] b Hb; discriminate.
  - intros [|j] b i Hb; discriminate.
Qed.
