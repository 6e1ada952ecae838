(** Every interleaving of the collector loads each module of the program once. *)
From Verif.Base Require Import Base BaseFacts.
From Verif.Path Require Import Model Facts.
From Verif.Build Require ProofsSetup.
From Verif.Collect Require Import Model Spec ProofsDeps.
From Coq Require Import Permutation.

Notation nth_update := ProofsSetup.nth_update.
Notation length_update := ProofsSetup.length_update.

Lemma mem_in p l : mem p l = true <-> In p l.
Proof.
  unfold mem. rewrite existsb_exists. split.
  - intros (q & H & E). apply path_eqb_eq in E. congruence.
  - intros H. exists p. split; [exact H|apply path_eqb_refl].
Qed.
Lemma mem_not p l : mem p l = false <-> ~ In p l.
Proof. rewrite <- mem_in. destruct (mem p l); split; congruence || (intros H; exfalso; apply H; reflexivity) || reflexivity. Qed.

Notation src_path src := (s_path (base src)).

Section Run.
Variable load : path -> loaded.
Variable inputs : list path.
Notation src p := (source_of p (load p)).
Notation deps_of p := (map snd (s_deps (base (src p)))).

Lemma src_path_of p : src_path (src p) = p.
Proof. apply source_ok. Qed.

(** What the task of [p] has done so far. *)
Inductive fine (s : state) (p : path) : task -> Prop :=
| f_begin : ~ In p (located s) -> ~ In p (loads s) -> ~ In p (map (fun x => src_path x) (result s)) -> fine s p (Begin p)
| f_loading : ~ In p (loads s) -> ~ In p (map (fun x => src_path x) (result s)) -> fine s p (Loading p)
| f_visiting ds0 ds : In p (loads s) -> ~ In p (map (fun x => src_path x) (result s)) -> deps_of p = ds0 ++ ds ->
    (forall d, In d ds0 -> In d (ongoing s)) -> fine s p (Visiting (src p) ds)
| f_ended : In p (loads s) -> In (src p) (result s) -> (forall d, In d (deps_of p) -> In d (ongoing s)) -> fine s p Ended.

Record inv (s : state) : Prop := {
  i_nodup : NoDup (ongoing s);
  i_len : List.length (tasks s) = List.length (ongoing s);
  i_task : forall k p t, nth_error (rev (ongoing s)) k = Some p -> nth_error (tasks s) k = Some t -> fine s p t;
  i_loads : NoDup (loads s) /\ forall p, In p (loads s) -> In p (ongoing s);
  i_located : forall p, In p (located s) -> In p (ongoing s);
  i_result : NoDup (map (fun x => src_path x) (result s)) /\ forall x, In x (result s) -> exists p, In p (ongoing s) /\ x = src p;
  i_program : forall p, In p (ongoing s) -> program load inputs p }.
Definition main_ok (s : state) : Prop := (forall p, In p (main s) -> In p inputs) /\ forall p, In p inputs -> In p (main s) \/ In p (ongoing s).

Lemma inv_start : inv (start inputs) /\ main_ok (start inputs).
Proof.
  split; [|split; cbn; auto]. constructor; cbn; [constructor|reflexivity|intros [|k] p t H; discriminate|split; [constructor|intros p []]|intros p []|split; [constructor|intros p []]|intros p []].
Qed.

Lemma fine_more s s' p t : fine s p t -> located s' = located s -> loads s' = loads s -> result s' = result s -> (forall d, In d (ongoing s) -> In d (ongoing s')) -> fine s' p t.
Proof. intros H E1 E2 E3 Ho. destruct H; econstructor; rewrite ?E1, ?E2, ?E3; eauto. Qed.

Lemma inv_main l s : inv s -> inv (set_main l s).
Proof.
  intros I. constructor; cbn; try apply I. intros k p t Hp Ht. eapply fine_more; [apply (i_task s I k p t Hp Ht)|reflexivity..|auto].
Qed.

Lemma collect_in p s : In p (ongoing (collect p s)).
Proof. unfold collect. destruct (mem p (ongoing s)) eqn:E; [apply mem_in, E|left; reflexivity]. Qed.
Lemma collect_more p s q : In q (ongoing s) -> In q (ongoing (collect p s)).
Proof. unfold collect. destruct (mem p (ongoing s)); [auto|right; assumption]. Qed.
Lemma collect_main p s : main (collect p s) = main s.
Proof. unfold collect. destruct (mem p (ongoing s)); reflexivity. Qed.

Lemma inv_collect p s : inv s -> program load inputs p -> inv (collect p s).
Proof.
  intros I Hp. unfold collect. destruct (mem p (ongoing s)) eqn:Em; [exact I|]. destruct I as [Hn Hlen Ht (Hl1 & Hl2) Hloc (Hr1 & Hr2) Hpr].
  apply mem_not in Em. constructor; cbn [ongoing tasks located loads result main]; auto.
  - constructor; assumption.
  - rewrite app_length. cbn. lia.
  - intros k q t Hq Hk. cbn [rev] in Hq. destruct (Nat.lt_ge_cases k (List.length (tasks s))) as [Hlt|Hge].
    + rewrite nth_error_app1 in Hq, Hk by (rewrite ?rev_length; lia). eapply fine_more; [apply (Ht k q t Hq Hk)|reflexivity..|cbn; auto].
    + rewrite nth_error_app2 in Hq, Hk by (rewrite ?rev_length; lia). rewrite rev_length, <- Hlen in Hq. destruct (k - List.length (tasks s)) as [|k']; [|destruct k'; discriminate].
      cbn in Hq, Hk. injection Hq as <-. injection Hk as <-. constructor; cbn; [intros H; apply Em, Hloc, H|intros H; apply Em, Hl2, H|].
      rewrite in_map_iff. intros (x & Ex & Hx). destruct (Hr2 x Hx) as (q & Hq & ->). rewrite src_path_of in Ex. subst q. contradiction.
  - split; [exact Hl1|]. intros q Hq. right. apply Hl2, Hq.
  - intros q Hq. right. apply Hloc, Hq.
  - split; [exact Hr1|]. intros x Hx. destruct (Hr2 x Hx) as (q & Hq & E). exists q. split; [right; exact Hq|exact E].
  - intros q [<-|Hq]; auto.
Qed.

Lemma update_app {A} k (f : A -> A) l l' : k < List.length l -> Build.Model.update k f (l ++ l') = Build.Model.update k f l ++ l'.
Proof. revert k. induction l as [|x l IH]; intros [|k] H; cbn in *; try lia; [reflexivity|]. rewrite IH by lia. reflexivity. Qed.
Lemma collect_set_task d k t s : k < List.length (tasks s) -> collect d (set_task k t s) = set_task k t (collect d s).
Proof. intros H. unfold collect. cbn [set_task ongoing]. destruct (mem d (ongoing s)); [reflexivity|]. unfold set_task. cbn. rewrite update_app by exact H. reflexivity. Qed.

Lemma owner s k t : inv s -> nth_error (tasks s) k = Some t -> exists p, nth_error (rev (ongoing s)) k = Some p /\ fine s p t /\ In p (ongoing s).
Proof.
  intros I Ht. destruct (nth_error (rev (ongoing s)) k) as [p|] eqn:E.
  - exists p. split; [reflexivity|]. split; [eapply i_task; eauto|]. apply in_rev. eapply nth_error_In, E.
  - apply nth_error_None in E. rewrite rev_length, <- (i_len s I) in E. apply nth_error_None in E. congruence.
Qed.

(** Changing the task of [p] and adding [p] to the tables. *)
Lemma fine_other s s' k p t' : inv s -> nth_error (rev (ongoing s)) k = Some p -> ongoing s' = ongoing s ->
  tasks s' = Build.Model.update k (fun _ => t') (tasks s) ->
  (forall q, q <> p -> (In q (located s') <-> In q (located s)) /\ (In q (loads s') <-> In q (loads s)) /\ (In q (map (fun x => src_path x) (result s')) <-> In q (map (fun x => src_path x) (result s))) /\ (In (src q) (result s) -> In (src q) (result s'))) ->
  fine s' p t' ->
  forall j q t, nth_error (rev (ongoing s')) j = Some q -> nth_error (tasks s') j = Some t -> fine s' q t.
Proof.
  intros I Hk Eo Et Hsame Hf j q t Hq Ht. rewrite Eo in Hq. rewrite Et, nth_update in Ht. destruct (Nat.eqb_spec j k) as [Ej|Hne].
  - subst j. assert (q = p) by congruence. subst q. destruct (nth_error (tasks s) k); [|discriminate]. injection Ht as <-. exact Hf.
  - assert (Hqp : q <> p).
    { intros E. subst q. apply Hne. pose proof (i_nodup s I) as Hn. apply NoDup_rev in Hn. apply (proj1 (NoDup_nth_error _) Hn); [|congruence].
      apply nth_error_Some. congruence. }
    destruct (Hsame q Hqp) as (H1 & H2 & H3 & H4). pose proof (i_task s I j q t Hq Ht) as F. destruct F; econstructor; rewrite ?H1, ?H2, ?H3, ?Eo; eauto.
Qed.

Definition weight_begin (p : path) : nat := List.length (deps_of p) + 3.
Definition weight (t : task) : nat :=
  match t with
  | Begin p => weight_begin p
  | Loading p => List.length (deps_of p) + 2
  | Visiting _ ds => List.length ds + 1
  | Ended => 0
  end.
Fixpoint list_sum (l : list nat) : nat := match l with [] => 0 | x :: l => x + list_sum l end.
Lemma list_sum_app l l' : list_sum (l ++ l') = list_sum l + list_sum l'.
Proof. induction l as [|x l IH]; cbn; lia. Qed.
(** The work ahead when the program lies within [all]. *)
Definition ahead (all : list path) (s : state) : nat :=
  List.length (main s) + list_sum (map (fun p => if mem p (ongoing s) then 0 else weight_begin p) all) + list_sum (map weight (tasks s)).

Lemma ahead_collect all p s : (forall q, program load inputs q -> In q all) -> program load inputs p -> ahead all (collect p s) <= ahead all s.
Proof.
  intros Hall Hp. unfold collect. destruct (mem p (ongoing s)) eqn:Em; [lia|]. unfold ahead. cbn [main ongoing tasks]. rewrite map_app, list_sum_app. cbn [map list_sum weight].
  enough (list_sum (map (fun q => if mem q (p :: ongoing s) then 0 else weight_begin q) all) + weight_begin p <= list_sum (map (fun q => if mem q (ongoing s) then 0 else weight_begin q) all)) by lia.
  specialize (Hall p Hp). clear Hp. assert (Hle : forall l, list_sum (map (fun q => if mem q (p :: ongoing s) then 0 else weight_begin q) l) <= list_sum (map (fun q => if mem q (ongoing s) then 0 else weight_begin q) l)).
  { induction l as [|q l IH]; [cbn; lia|]. cbn [map list_sum] in *.  change (mem q (p :: ongoing s)) with (path_eqb q p || mem q (ongoing s)). destruct (path_eqb q p), (mem q (ongoing s)); cbn [orb]; lia. }
  induction all as [|q l IH]; [destruct Hall|]. cbn [map list_sum] in *.  change (mem q (p :: ongoing s)) with (path_eqb q p || mem q (ongoing s)).
  destruct Hall as [->|Hin].
  - rewrite path_eqb_refl, Em. cbn [orb]. specialize (Hle l). lia.
  - specialize (IH Hin). destruct (path_eqb q p), (mem q (ongoing s)); cbn [orb]; lia.
Qed.

Lemma sum_update k t t0 l : nth_error l k = Some t0 -> list_sum (map weight (Build.Model.update k (fun _ => t) l)) + weight t0 = list_sum (map weight l) + weight t.
Proof. revert k. induction l as [|x l IH]; intros [|k] H; try discriminate; cbn [nth_error Build.Model.update map list_sum] in *; [injection H as ->; lia|]. specialize (IH k H).  lia. Qed.

Lemma ahead_set all k t t0 s : nth_error (tasks s) k = Some t0 -> ahead all (set_task k t s) + weight t0 = ahead all s + weight t.
Proof. intros H. unfold ahead. cbn [set_task main ongoing tasks]. pose proof (sum_update k t t0 (tasks s) H). lia. Qed.

Lemma step_task_inv k s : inv s -> main_ok s -> exists s', step_task load k s = Ret s' /\ inv s' /\ main_ok s' /\
  forall all, (forall q, program load inputs q -> In q all) -> busy (Task k) s -> ahead all s' < ahead all s.
Proof.
  intros I M. unfold step_task. destruct (nth_error (tasks s) k) as [t|] eqn:Ek; [|exists s; split; [reflexivity|]; split; [exact I|]; split; [exact M|]; intros all _ (x & E & _); congruence].
  destruct (owner s k t I Ek) as (p & Hp & Hf & Hpo).
  inversion Hf as [H1 H2 H3 Et|H1 H2 Et|ds0 ds H1 H2 H3 H4 Et|H1 H2 H3 Et].
  - rewrite (proj2 (mem_not _ _) H1). eexists. split; [reflexivity|]. split; [|split; [exact M|]].
    + constructor; try (cbn; apply I).
      * cbn. rewrite length_update. apply I.
      * eapply (fine_other s _ k p (Loading p)); cbn; auto.
        -- intros q Hq. split; [|tauto]. split; [intros [E|H]; [congruence|exact H]|auto].
        -- constructor; cbn; auto.
      * intros q [<-|Hq]; [exact Hpo|apply (i_located s I), Hq].
    + intros all _ _. match goal with |- ahead all (set_task k ?t1 ?s1) < _ => pose proof (ahead_set all k t1 t s1 Ek) as E; change (ahead all s1) with (ahead all s) in E end.
      rewrite <- Et in E. cbn [weight] in E. unfold weight_begin in E. lia.
  - eexists. split; [reflexivity|]. split; [|split; [exact M|]].
    + constructor; try (cbn; apply I).
      * cbn. rewrite length_update. apply I.
      * eapply (fine_other s _ k p (Visiting (src p) (deps_of p))); cbn; auto.
        -- intros q Hq. split; [tauto|]. split; [|tauto]. split; [intros [E|H]; [congruence|exact H]|auto].
        -- econstructor 3 with (ds0 := []); cbn; auto. intros d [].
      * cbn. split; [constructor; [exact H1|apply I]|]. intros q [<-|Hq]; [exact Hpo|apply (i_loads s I), Hq].
    + intros all _ _. match goal with |- ahead all (set_task k ?t1 ?s1) < _ => pose proof (ahead_set all k t1 t s1 Ek) as E; change (ahead all s1) with (ahead all s) in E end.
      rewrite <- Et in E. cbn [weight] in E. lia.
  - destruct ds as [|d ds].
    + eexists. split; [reflexivity|]. split; [|split; [exact M|]].
      * pose proof (i_result s I) as (R1 & R2).
        assert (Hfil : filter (fun x => negb (path_eqb (src_path x) (src_path (src p)))) (result s) = result s).
        { rewrite src_path_of. clear -H2. induction (result s) as [|x l IH]; [reflexivity|]. cbn in *. destruct (path_eqb (src_path x) p) eqn:E; [apply path_eqb_eq in E; tauto|]. cbn. rewrite IH; tauto. }
        constructor; try (cbn [ongoing tasks located loads result main set_task]; apply I).
        -- cbn. rewrite length_update. apply I.
        -- eapply (fine_other s _ k p Ended); cbn [ongoing tasks located loads result main set_task set_insert]; auto; unfold set_insert; rewrite Hfil.
           ++ intros q Hq. split; [tauto|]. split; [tauto|]. cbn [map In]. rewrite src_path_of. split; [|tauto]. split; [intros [E|H]; [congruence|exact H]|auto].
           ++ rewrite app_nil_r in H3. rewrite <- H3 in H4. constructor; cbn; auto.
        -- cbn [result set_task]. unfold set_insert. rewrite Hfil. cbn [map]. rewrite src_path_of. split; [constructor; assumption|]. intros x [<-|Hx]; [exists p; auto|apply R2, Hx].
      * intros all _ _. match goal with |- ahead all (set_task k ?t1 ?s1) < _ => pose proof (ahead_set all k t1 t s1 Ek) as E; change (ahead all s1) with (ahead all s) in E end.
        rewrite <- Et in E. cbn [weight List.length] in E. lia.
    + assert (Hd : In d (deps_of p)) by (rewrite H3; apply in_elt).
      assert (Hpd : program load inputs d) by (eapply pr_dep; [apply (i_program s I p Hpo)|apply source_deps, Hd]).
      assert (Hk : k < List.length (tasks s)) by (apply nth_error_Some; congruence).
      pose proof (inv_collect d s I Hpd) as Ic. rewrite (collect_set_task d k _ s Hk). eexists. split; [reflexivity|].
      assert (Ekc : nth_error (tasks (collect d s)) k = Some t) by (unfold collect; destruct (mem d (ongoing s)); [exact Ek|]; cbn [tasks]; rewrite nth_error_app1 by exact Hk; exact Ek).
      destruct (owner _ k t Ic Ekc) as (p' & Hp' & Hf' & Hpo').
      assert (p' = p).
      { unfold collect in Hp'. destruct (mem d (ongoing s)); [congruence|]. cbn [ongoing rev] in Hp'. rewrite nth_error_app1 in Hp' by (rewrite rev_length, <- (i_len s I); exact Hk). congruence. }
      subst p'. split; [|split].
      * constructor; try (cbn [ongoing tasks located loads result main set_task]; apply Ic).
        -- cbn. rewrite length_update. apply Ic.
        -- eapply (fine_other (collect d s) _ k p (Visiting (src p) ds)); cbn [ongoing tasks located loads result main set_task]; auto.
           ++ intros q Hq. tauto.
           ++ inversion Hf' as [? ? ? E|? ? E|ds0' ds' G1 G2 G3 G4 E|? ? ? E]; try congruence. apply (f_visiting _ _ (ds0 ++ [d])); cbn [ongoing loads result set_task]; auto.
              ** rewrite <- app_assoc. exact H3.
              ** intros x Hx. rewrite in_app_iff in Hx. destruct Hx as [Hx|[<-|[]]]; [apply collect_more, H4, Hx|apply collect_in].
      * destruct M as (M1 & M2). split; cbn [main ongoing set_task]; rewrite collect_main; [exact M1|]. intros q Hq. destruct (M2 q Hq); [auto|right; apply collect_more; assumption].
      * intros all Hall _. pose proof (ahead_set all k (Visiting (src p) ds) t (collect d s) Ekc) as E. pose proof (ahead_collect all d s Hall Hpd). rewrite <- Et in E. cbn [weight List.length] in E. lia.
  - exists s. split; [reflexivity|]. split; [exact I|]. split; [exact M|]. intros all _ (x & E & Hx). congruence.
Qed.

Lemma step_main_inv s : inv s -> main_ok s -> exists s', step_main s = Ret s' /\ inv s' /\ main_ok s' /\
  forall all, (forall q, program load inputs q -> In q all) -> busy Main s -> ahead all s' < ahead all s.
Proof.
  intros I (M1 & M2). unfold step_main. destruct (main s) as [|p l] eqn:Em.
  - exists s. split; [reflexivity|]. split; [exact I|]. split; [split; rewrite Em; [exact M1|exact M2]|]. intros all _ H. cbn in H. congruence.
  - assert (Hp : program load inputs p) by (apply pr_input, M1; left; reflexivity). eexists. split; [reflexivity|]. split; [|split].
    + apply inv_collect; [apply inv_main, I|exact Hp].
    + split; rewrite collect_main; cbn [main set_main]; [intros q Hq; apply M1; right; exact Hq|]. intros q Hq. destruct (M2 q Hq) as [[<-|H]|H]; [right; apply collect_in|auto|right; apply collect_more; exact H].
    + intros all Hall _. pose proof (ahead_collect all p (set_main l s) Hall Hp). assert (ahead all (set_main l s) < ahead all s) by (unfold ahead; cbn [main set_main ongoing tasks]; rewrite Em; cbn [List.length]; lia). lia.
Qed.

Lemma step_inv t s : inv s -> main_ok s -> exists s', step load t s = Ret s' /\ inv s' /\ main_ok s' /\
  forall all, (forall q, program load inputs q -> In q all) -> busy t s -> ahead all s' < ahead all s.
Proof. destruct t as [|k]; [apply step_main_inv|apply step_task_inv]. Qed.

Lemma exec_inv schedule : forall s, inv s -> main_ok s -> exists s', exec load schedule s = Ret s' /\ inv s' /\ main_ok s' /\
  forall all, (forall q, program load inputs q -> In q all) -> all_busy (step load) schedule s -> List.length schedule + ahead all s' <= ahead all s.
Proof.
  induction schedule as [|t schedule IH]; intros s I M.
  - exists s. split; [reflexivity|]. split; [exact I|]. split; [exact M|]. intros all _ _. cbn. lia.
  - destruct (step_inv t s I M) as (s1 & E1 & I1 & M1 & A1). destruct (IH s1 I1 M1) as (s2 & E2 & I2 & M2 & A2). exists s2. cbn [exec]. rewrite E1. split; [exact E2|]. split; [exact I2|]. split; [exact M2|].
    intros all Hall (Hb & Hr). specialize (A1 all Hall Hb). specialize (A2 all Hall (Hr s1 E1)). cbn [List.length]. lia.
Qed.

Lemma collect_safe_ok schedule : exists s, exec load schedule (start inputs) = Ret s /\ NoDup (loads s) /\ forall p, In p (loads s) -> program load inputs p.
Proof.
  destruct inv_start as (I & M). destruct (exec_inv schedule _ I M) as (s & E & I' & _). exists s. split; [exact E|]. split; [apply I'|]. intros p Hp. apply (i_program s I'), (i_loads s I'), Hp.
Qed.

Lemma collect_exact_ok schedule s : exec load schedule (start inputs) = Ret s -> complete s ->
  NoDup (map (fun x => src_path x) (result s)) /\
  (forall x, In x (result s) <-> exists p, program load inputs p /\ x = src p) /\ (forall p, In p (loads s) <-> program load inputs p).
Proof.
  intros E (Cm & Ct). destruct inv_start as (I0 & M0). destruct (exec_inv schedule _ I0 M0) as (s1 & E1 & I & M & _). assert (s1 = s) by congruence. subst s1. clear I0 M0 E1.
  assert (Hdone : forall p, In p (ongoing s) -> In p (loads s) /\ In (src p) (result s) /\ forall d, In d (deps_of p) -> In d (ongoing s)).
  { intros p Hp. apply in_rev, In_nth_error in Hp. destruct Hp as (k & Hk). destruct (nth_error (tasks s) k) as [t|] eqn:Et.
    - pose proof (i_task s I k p t Hk Et) as F. rewrite (Ct t (nth_error_In _ _ Et)) in F. inversion F; auto.
    - apply nth_error_None in Et. rewrite (i_len s I) in Et. assert (k < List.length (rev (ongoing s))) by (apply nth_error_Some; congruence). rewrite rev_length in H. lia. }
  assert (Hall : forall p, program load inputs p -> In p (ongoing s)).
  { intros p Hp. induction Hp as [p Hp|p d Hp IH Hd].
    - destruct (proj2 M p Hp) as [H|H]; [rewrite Cm in H; destruct H|exact H].
    - destruct (Hdone p IH) as (_ & _ & H). apply H, source_deps, Hd. }
  split; [apply I|]. split.
  - intros x. split.
    + intros Hx. destruct (proj2 (i_result s I) x Hx) as (p & Hp & Ex). exists p. split; [apply (i_program s I), Hp|exact Ex].
    + intros (p & Hp & ->). apply Hdone, Hall, Hp.
  - intros p. split; [intros Hp; apply (i_program s I), (i_loads s I), Hp|]. intros Hp. apply Hdone, Hall, Hp.
Qed.

Lemma collect_terminates_ok all : (forall p, program load inputs p -> In p all) ->
  exists bound, forall schedule, all_busy (step load) schedule (start inputs) -> List.length schedule <= bound.
Proof.
  intros Hall. exists (ahead all (start inputs)). intros schedule Hb. destruct inv_start as (I & M). destruct (exec_inv schedule _ I M) as (s & _ & _ & _ & A). specialize (A all Hall Hb). lia.
Qed.
End Run.
