(** The dependencies read off a source are those its code declares. *)
From Verif.Base Require Import Base BaseFacts Assoc.
From Verif.Sexp Require Import Model.
From Verif.Path Require Import Model Facts.
From Verif.Scope Require ProofsPort.
From Verif.Collect Require Import Model Spec.

Lemma no_std_match s : match_no_implicit_std s = true <-> no_std_form s.
Proof.
  unfold match_no_implicit_std. destruct s as [l [| | | | |[|[l1 [| |h| | | | | |]] [|w ws]]| | |]]; try (split; [discriminate|intros H; inversion H]; fail).
  rewrite text_eqb_eq. split; [intros ->; constructor|]. intros H. inversion H; subst. reflexivity.
Qed.

Lemma import_match s t ts : Scope.Model.match_import s = Some (t, ts) <-> import_form s t ts.
Proof.
  pose proof (ProofsPort.match_import_spec s) as H. destruct (Scope.Model.match_import s) as [(t', ts')|].
  - split; [intros E; injection E as <- <-; exact H|]. intros H'. destruct (ProofsPort.import_form_fun _ _ _ _ _ H H') as (-> & ->). reflexivity.
  - split; [discriminate|]. intros H'. destruct (H _ _ H').
Qed.

Lemma no_std_not_import s t ts : no_std_form s -> ~ import_form s t ts.
Proof. intros H H'. inversion H; subst. inversion H'. Qed.

Lemma relative_eq self q : (if is_current (package q) && negb (is_current (package self)) then {| package := package self; module := module q |} else q) = relative self q.
Proof. unfold relative. destruct (package q) as [n|], (package self) as [m|] eqn:E; reflexivity. Qed.

Definition functional (self : path) (deps : list (text * path)) : Prop := NoDup (keys deps) /\ forall key d, In (key, d) deps -> exists q, parse_path key = Ok q /\ d = relative self q.

Lemma in_insert self t q deps : functional self deps -> parse_path t = Ok q -> functional self (hinsert t (relative self q) deps) /\
  forall key d, In (key, d) (hinsert t (relative self q) deps) <-> (key = t /\ d = relative self q) \/ In (key, d) deps.
Proof.
  intros (Hn & Hf) Hp. assert (Hin : forall key d, In (key, d) (hinsert t (relative self q) deps) <-> (key = t /\ d = relative self q) \/ In (key, d) deps).
  { intros key d. unfold hinsert. cbn [In]. rewrite in_hremove. cbn [fst]. split.
    - intros [E|(H & _)]; [injection E as <- <-; auto|auto].
    - intros [(-> & ->)|H]; [auto|]. destruct (text_eqb key t) eqn:E; [|right; split; [exact H|intros ->; rewrite text_eqb_refl in E; discriminate]].
      apply text_eqb_eq in E. subst key. left. destruct (Hf t d H) as (q' & E1 & ->). congruence. }
  split; [|exact Hin]. split; [apply nodup_hinsert, Hn|]. intros key d H. apply Hin in H. destruct H as [(-> & ->)|H]; [exists q; auto|apply Hf, H].
Qed.

Lemma scan_ok self ss : forall std deps errs, functional self deps -> let '(std', deps', errs') := scan self ss std deps errs in
  (std' = true <-> std = true /\ forall s, In s ss -> ~ no_std_form s) /\
  functional self deps' /\
  (forall key d, In (key, d) deps' <-> In (key, d) deps \/ exists s ts q, In s ss /\ import_form s key ts /\ parse_path key = Ok q /\ d = relative self q /\ d <> self) /\
  (errs' = [] <-> errs = [] /\ forall s key ts, In s ss -> import_form s key ts -> exists q, parse_path key = Ok q /\ relative self q <> self).
Proof.
  induction ss as [|s ss IH]; intros std deps errs Hf.
  - cbn [scan]. split; [split; [intros E; split; [exact E|intros s []]|tauto]|]. split; [exact Hf|]. split; [|split; [intros E; split; [exact E|intros s key ts []]|tauto]].
    intros key d. split; [auto|]. intros [H|(s & ts & q & [] & _)]; exact H.
  - cbn [scan]. destruct (match_no_implicit_std s) eqn:En.
    + apply no_std_match in En. specialize (IH false deps errs Hf). destruct (scan self ss false deps errs) as ((std', deps'), errs'). destruct IH as (H1 & H2 & H3 & H4). split; [split|split; [exact H2|split; [intros key d; split|split]]].
      * intros E. apply H1 in E. destruct E as (E & _). discriminate.
      * intros (_ & H). destruct (H s (or_introl eq_refl) En).
      * intros H. apply H3 in H. destruct H as [H|(s' & ts & q & Hin & H)]; [auto|]. right. exists s', ts, q. split; [right; exact Hin|exact H].
      * intros [H|(s' & ts & q & [<-|Hin] & Hi & H)]; apply H3; [auto|destruct (no_std_not_import _ _ _ En Hi)|]. right. exists s', ts, q. auto.
      * intros E. apply H4 in E. destruct E as (E & H). split; [exact E|]. intros s' key ts [<-|Hin] Hi; [destruct (no_std_not_import _ _ _ En Hi)|]. eapply H; eauto.
      * intros (E & H). apply H4. split; [exact E|]. intros s' key ts Hin. apply H. right. exact Hin.
    + assert (Hs : ~ no_std_form s) by (intros H; apply no_std_match in H; congruence).
      assert (Hstd : forall P : Prop, (P /\ (forall s', In s' ss -> ~ no_std_form s')) <-> (P /\ forall s', In s' (s :: ss) -> ~ no_std_form s')).
      { intros P. split; intros (HP & H); (split; [exact HP|]); [intros s' [<-|H']; auto|intros s' H'; apply H; right; exact H']. }
      destruct (Scope.Model.match_import s) as [(t, ts)|] eqn:Em.
      * apply import_match in Em. assert (Huniq : forall key ts', import_form s key ts' -> key = t) by (intros key ts' H; destruct (ProofsPort.import_form_fun _ _ _ _ _ Em H); congruence).
        destruct (parse_path t) as [q|e] eqn:Ep.
        -- rewrite relative_eq. destruct (path_eqb (relative self q) self) eqn:Eq.
           ++ apply path_eqb_eq in Eq. specialize (IH std deps (errs ++ [CannotImportModuleItself]) Hf). destruct (scan self ss std deps _) as ((std', deps'), errs'). destruct IH as (H1 & H2 & H3 & H4).
              rewrite <- Hstd. split; [exact H1|]. split; [exact H2|]. split.
              ** intros key d. rewrite H3. split; (intros [H|(s' & ts' & q' & Hin & H)]; [auto|]).
                 --- right. exists s', ts', q'. split; [right; exact Hin|exact H].
                 --- destruct Hin as [<-|Hin]; [|right; exists s', ts', q'; auto]. exfalso. destruct H as (Hi & Hp & -> & Hne). rewrite (Huniq _ _ Hi) in Hp. apply Hne. congruence.
              ** rewrite H4. split; [intros (E & _); destruct errs; discriminate|]. intros (_ & H). exfalso. destruct (H s t ts (or_introl eq_refl) Em) as (q' & Hp & Hne). apply Hne. congruence.
           ++ assert (Hne : relative self q <> self) by (intros E; rewrite E, path_eqb_refl in Eq; discriminate). destruct (in_insert self t q deps Hf Ep) as (Hf' & Hin').
              specialize (IH std (hinsert t (relative self q) deps) errs Hf'). destruct (scan self ss std _ errs) as ((std', deps'), errs'). destruct IH as (H1 & H2 & H3 & H4).
              rewrite <- Hstd. split; [exact H1|]. split; [exact H2|]. split.
              ** intros key d. rewrite H3, Hin'. split.
                 --- intros [[(-> & ->)|H]|(s' & ts' & q' & Hin & H)]; [right; exists s, ts, q; cbn; auto|auto|]. right. exists s', ts', q'. split; [right; exact Hin|exact H].
                 --- intros [H|(s' & ts' & q' & [<-|Hin] & H)]; [auto| |right; exists s', ts', q'; auto]. left. left. destruct H as (Hi & Hp & -> & _). rewrite (Huniq _ _ Hi) in *. split; congruence.
              ** rewrite H4. split; intros (E & H); (split; [exact E|]).
                 --- intros s' key ts' [<-|Hin] Hi; [rewrite (Huniq _ _ Hi); exists q; auto|eapply H; eauto].
                 --- intros s' key ts' Hin. apply H. right. exact Hin.
        -- specialize (IH std deps (errs ++ [InvalidImportPath t]) Hf). destruct (scan self ss std deps _) as ((std', deps'), errs'). destruct IH as (H1 & H2 & H3 & H4).
           rewrite <- Hstd. split; [exact H1|]. split; [exact H2|]. split.
           ++ intros key d. rewrite H3. split; (intros [H|(s' & ts' & q' & Hin & H)]; [auto|]).
              ** right. exists s', ts', q'. split; [right; exact Hin|exact H].
              ** destruct Hin as [<-|Hin]; [|right; exists s', ts', q'; auto]. exfalso. destruct H as (Hi & Hp & _). rewrite (Huniq _ _ Hi) in Hp. congruence.
           ++ rewrite H4. split; [intros (E' & _); destruct errs; discriminate|]. intros (_ & H). exfalso. destruct (H s t ts (or_introl eq_refl) Em) as (q' & Hp & _). congruence.
      * assert (Hno : forall key ts', ~ import_form s key ts') by (intros key ts' H; apply import_match in H; congruence).
        specialize (IH std deps errs Hf). destruct (scan self ss std deps errs) as ((std', deps'), errs'). destruct IH as (H1 & H2 & H3 & H4).
        rewrite <- Hstd. split; [exact H1|]. split; [exact H2|]. split.
        -- intros key d. rewrite H3. split; (intros [H|(s' & ts' & q' & Hin & H)]; [auto|]).
           ++ right. exists s', ts', q'. split; [right; exact Hin|exact H].
           ++ destruct Hin as [<-|Hin]; [destruct (Hno _ _ (proj1 H))|right; exists s', ts', q'; auto].
        -- rewrite H4. split; intros (E & H); (split; [exact E|]).
           ++ intros s' key ts' [<-|Hin] Hi; [destruct (Hno _ _ Hi)|eapply H; eauto].
           ++ intros s' key ts' Hin. apply H. right. exact Hin.
Qed.

Lemma builtin_parses self : exists q, parse_path (show_path builtin_path) = Ok q /\ builtin_path = relative self q.
Proof. exists builtin_path. split; [vm_compute; reflexivity|]. unfold relative. cbn. reflexivity. Qed.
Lemma std_parses self : exists q, parse_path (show_path std_path) = Ok q /\ std_path = relative self q.
Proof. exists std_path. split; [vm_compute; reflexivity|]. unfold relative. cbn. reflexivity. Qed.

Lemma source_ok self l : s_path (base (source_of self l)) = self /\ match code l with
  | None => s_deps (base (source_of self l)) = [] /\ errors (source_of self l) = load_errors l
  | Some ss =>
    (s_implicit_std (base (source_of self l)) = true <-> forall s, In s ss -> ~ no_std_form s) /\
    NoDup (keys (s_deps (base (source_of self l)))) /\
    (forall key d, In (key, d) (s_deps (base (source_of self l))) <-> dependency self ss key d) /\
    (errors (source_of self l) = [] <-> load_errors l = [] /\ resolvable self ss)
  end.
Proof.
  unfold source_of. destruct (code l) as [ss|]; [|cbn; auto]. assert (Hf0 : functional self []) by (split; [constructor|intros key d []]).
  pose proof (scan_ok self ss true [] (load_errors l) Hf0) as H. destruct (scan self ss true [] (load_errors l)) as ((std, deps), errs). destruct H as (H1 & H2 & H3 & H4).
  set (deps1 := if path_eqb self builtin_path then deps else hinsert (show_path builtin_path) builtin_path deps).
  assert (Hd1 : functional self deps1 /\ forall key d, In (key, d) deps1 <-> In (key, d) deps \/ (self <> builtin_path /\ key = show_path builtin_path /\ d = builtin_path)).
  { unfold deps1. destruct (path_eqb self builtin_path) eqn:E.
    - apply path_eqb_eq in E. split; [exact H2|]. intros key d. split; [auto|]. intros [H|(Hn & _)]; [exact H|contradiction].
    - assert (Hn : self <> builtin_path) by (intros E'; rewrite E', path_eqb_refl in E; discriminate). destruct (builtin_parses self) as (q & Ep & Er).
      destruct (in_insert self _ q deps H2 Ep) as (Hf & Hin). rewrite <- Er in Hf, Hin. split; [exact Hf|]. intros key d. rewrite Hin. tauto. }
  clearbody deps1. destruct Hd1 as (Hf1 & Hin1).
  assert (Hno : forall P : Prop, (std = true /\ P) <-> ((forall s, In s ss -> ~ no_std_form s) /\ P)) by (intros P; rewrite H1; tauto).
  assert (Hex : std = false -> exists s, In s ss /\ no_std_form s).
  { intros E. destruct (existsb match_no_implicit_std ss) eqn:Ee.
    - apply existsb_exists in Ee. destruct Ee as (s & Hs & Em). exists s. split; [exact Hs|apply no_std_match, Em].
    - exfalso. assert (std = true); [|congruence]. apply H1. split; [reflexivity|]. intros s Hs Hn. apply no_std_match in Hn. assert (existsb match_no_implicit_std ss = true) by (apply existsb_exists; exists s; auto). congruence. }
  destruct std.
  - destruct (path_eqb self std_path) eqn:Es; cbn [base errors s_path s_deps Build.Model.s_path Build.Model.s_deps Build.Model.s_implicit_std].
    + apply path_eqb_eq in Es. split; [reflexivity|]. split; [tauto|]. split; [apply Hf1|]. split.
      * intros key d. rewrite Hin1, H3. unfold dependency. cbn [In]. split; [intros [[[]|H]|H]; auto|]. intros [H|[H|(_ & Hn & _)]]; [auto|auto|contradiction].
      * split; [destruct errs; discriminate|]. intros (_ & _ & H). destruct (H Es) as (s & Hs & Hn). exfalso. apply (proj2 (proj1 H1 eq_refl) s Hs Hn).
    + assert (Hn : self <> std_path) by (intros E'; rewrite E', path_eqb_refl in Es; discriminate). destruct (std_parses self) as (q & Ep & Er).
      destruct (in_insert self _ q deps1 Hf1 Ep) as (Hf2 & Hin2). rewrite <- Er in Hf2, Hin2. split; [reflexivity|]. split; [tauto|]. split; [apply Hf2|]. split.
      * intros key d. rewrite Hin2, Hin1, H3. unfold dependency. cbn [In]. destruct (proj1 H1 eq_refl) as (_ & Hns). split; [intros [(-> & ->)|[[[]|H]|H]]; auto 7|]. intros [H|[H|(_ & _ & H)]]; auto.
      * rewrite H4. unfold resolvable. split; [intros (E & H); split; [exact E|]; split; [exact H|]; intros E'; contradiction|]. tauto.
  - cbn [base errors Build.Model.s_path Build.Model.s_deps Build.Model.s_implicit_std]. split; [reflexivity|]. destruct (Hex eq_refl) as (s0 & Hs0 & Hns0). split; [|split; [apply Hf1|split]].
    + split; [discriminate|]. intros H. destruct (H s0 Hs0 Hns0).
    + intros key d. rewrite Hin1, H3. unfold dependency. cbn [In]. split; [intros [[[]|H]|H]; auto|]. intros [H|[H|(H & _)]]; [auto|auto|]. destruct (H s0 Hs0 Hns0).
    + rewrite H4. unfold resolvable. split; [intros (E & H); split; [exact E|]; split; [exact H|]; intros _; exists s0; auto|]. tauto.
Qed.

Lemma dependency_not_self self ss key d : dependency self ss key d -> d <> self.
Proof. intros [(s & ts & q & _ & _ & _ & _ & H)|[(H & _ & ->)|(_ & H & _ & ->)]]; congruence. Qed.

Lemma source_deps load p d : In d (map snd (s_deps (base (source_of p (load p))))) <-> depends_on load p d.
Proof.
  destruct (source_ok p (load p)) as (_ & H). unfold depends_on. rewrite in_map_iff. destruct (code (load p)) as [ss|].
  - destruct H as (_ & _ & H & _). split.
    + intros ((key & d') & E & Hin). cbn in E. subst d'. exists ss, key. split; [reflexivity|]. apply H, Hin.
    + intros (ss' & key & E & Hd). injection E as <-. exists (key, d). split; [reflexivity|]. apply H, Hd.
  - destruct H as (-> & _). split; [intros (x & _ & [])|]. intros (ss & key & E & _). discriminate.
Qed.
