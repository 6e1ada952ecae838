(** The order of dependencies, and the collected program as input of the build. *)
From Verif.Base Require Import Base BaseFacts Assoc.
From Verif.Path Require Import Model Facts.
From Verif.Topo Require Spec Proofs.
From Verif.Build Require Model Spec.
From Verif.Collect Require Import Model Spec ProofsDeps ProofsRun.
From Coq Require Import Permutation Sorted.

Notation deps_of := (fun src => map snd (s_deps (base src))).
Notation data_of sources := (map (fun src => (s_path (base src), src)) sources).
Notation depends := (Topo.Spec.depends deps_of).
Notation reaches := (Topo.Spec.reaches deps_of).

Lemma nth_data sources i k v : nth_error (data_of sources) i = Some (k, v) <-> nth_error sources i = Some v /\ k = src_path v.
Proof.
  rewrite nth_error_map. destruct (nth_error sources i) as [x|]; cbn; [|split; [discriminate|intros (E & _); discriminate]].
  split; [intros E; injection E as <- <-; auto|]. intros (E & ->). injection E as ->. reflexivity.
Qed.

Lemma in_snd {A B} (l : list (A * B)) b : In b (map snd l) <-> exists a, In (a, b) l.
Proof. rewrite in_map_iff. split; [intros ((a & b') & E & H); cbn in E; subst b'; eauto|intros (a & H); exists (a, b); auto]. Qed.

Lemma depends_iff sources i j : depends (data_of sources) i j <->
  exists a b key, nth_error sources i = Some a /\ nth_error sources j = Some b /\ In (key, src_path b) (s_deps (base a)).
Proof.
  unfold Topo.Spec.depends. split.
  - intros (ki & vi & kj & vj & H1 & H2 & H3). apply nth_data in H1, H2. destruct H1 as (H1 & ->), H2 as (H2 & ->). apply in_snd in H3. destruct H3 as (key & H3). eauto 7.
  - intros (a & b & key & H1 & H2 & H3). exists (src_path a), a, (src_path b), b. rewrite !nth_data. repeat split; auto. apply in_snd. eauto.
Qed.

Lemma reaches_leads sources i j a : reaches (data_of sources) i j -> nth_error sources i = Some a -> forall b, nth_error sources j = Some b -> i = j \/ leads sources a b.
Proof.
  intros H Ha. induction H as [|j k H IH Hd]; [auto|]. intros c Hc. right. apply depends_iff in Hd. destruct Hd as (b & c' & key & Hb & Hc' & Hk). assert (c' = c) by congruence. subst c'.
  assert (Hbc : leads sources b c) by (eapply ld_dep; [eapply nth_error_In, Hb|eapply nth_error_In, Hc|exact Hk]).
  destruct (IH b Hb) as [E|Hl]; [subst j; assert (a = b) by congruence; subst b; exact Hbc|eapply ld_trans; eassumption].
Qed.

Lemma reaches_trans sources i j k : reaches (data_of sources) i j -> reaches (data_of sources) j k -> reaches (data_of sources) i k.
Proof. intros H1 H2. induction H2 as [|b c H IH Hd]; [exact H1|]. eapply Topo.Spec.reaches_step; [exact IH|exact Hd]. Qed.

Lemma leads_in sources a b : leads sources a b -> In a sources /\ In b sources.
Proof. induction 1; tauto. Qed.

Lemma nth_same {A B} (f : A -> B) l i j a b : NoDup (map f l) -> nth_error l i = Some a -> nth_error l j = Some b -> f a = f b -> i = j.
Proof.
  intros Hn Hi Hj E. apply (proj1 (NoDup_nth_error _) Hn); [rewrite map_length; apply nth_error_Some; congruence|]. rewrite !nth_error_map, Hi, Hj. cbn. congruence.
Qed.

Lemma leads_reaches sources a b : NoDup (map (fun x => src_path x) sources) -> leads sources a b -> forall i j, nth_error sources i = Some a -> nth_error sources j = Some b -> reaches (data_of sources) i j.
Proof.
  intros Hn H. induction H as [a b key Ha Hb Hk|a b c H1 IH1 H2 IH2]; intros i j Hi Hj.
  - eapply Topo.Spec.reaches_step; [apply Topo.Spec.reaches_refl|]. apply depends_iff. eauto 7.
  - destruct (leads_in _ _ _ H1) as (_ & Hb). apply In_nth_error in Hb. destruct Hb as (m & Hm). eapply reaches_trans; eauto.
Qed.

Lemma singletons_spec groups : match singletons groups with
  | inl l => groups = map (fun x => [x]) l
  | inr e => exists a g, nth_error groups a = Some g /\ List.length g <> 1 /\ e = map (fun x => src_path x) g
  end.
Proof.
  induction groups as [|g groups IH]; [reflexivity|]. destruct g as [|x [|y g]]; cbn [singletons].
  - exists 0, []. cbn. auto.
  - destruct (singletons groups) as [l|e]; [cbn; congruence|]. destruct IH as (a & g & H1 & H2). exists (S a), g. auto.
  - exists 0, (x :: y :: g). cbn. auto.
Qed.

Lemma forall2_nth {A B} (R : A -> B -> Prop) l l' : Forall2 R l l' -> forall i a, nth_error l i = Some a -> exists b, nth_error l' i = Some b /\ R a b.
Proof. induction 1; intros [|i] a' Hi; try discriminate; cbn in *; [injection Hi as <-; eauto|auto]. Qed.
Lemma forall2_nth' {A B} (R : A -> B -> Prop) l l' : Forall2 R l l' -> forall i b, nth_error l' i = Some b -> exists a, nth_error l i = Some a /\ R a b.
Proof. induction 1; intros [|i] a' Hi; try discriminate; cbn in *; [injection Hi as <-; eauto|auto]. Qed.
Lemma forall2_len {A B} (R : A -> B -> Prop) l l' : Forall2 R l l' -> List.length l = List.length l'.
Proof. induction 1; cbn; congruence. Qed.

Lemma flat_seq {A} (l : list A) : forall pre, flat_map (fun i => match nth_error (pre ++ l) i with Some v => [v] | None => [] end) (seq (List.length pre) (List.length l)) = l.
Proof.
  induction l as [|x l IH]; intros pre; [reflexivity|]. cbn [List.length seq flat_map]. rewrite nth_error_app2, Nat.sub_diag by lia. cbn [nth_error app]. f_equal.
  specialize (IH (pre ++ [x])). rewrite app_length in IH. cbn in IH. rewrite Nat.add_1_r, <- app_assoc in IH. exact IH.
Qed.
Lemma flat_picks {A} (l l' : list A) is : Forall2 (fun v i => nth_error l i = Some v) l' is -> flat_map (fun i => match nth_error l i with Some v => [v] | None => [] end) is = l'.
Proof. induction 1 as [|v i l' is H _ IH]; [reflexivity|]. cbn. rewrite H, IH. reflexivity. Qed.
Lemma picks_perm {A} (l l' : list A) is : Forall2 (fun v i => nth_error l i = Some v) l' is -> Permutation is (seq 0 (List.length l)) -> Permutation l' l.
Proof.
  intros H Hp. rewrite <- (flat_picks _ _ _ H). pose proof (flat_seq l []) as E. cbn [List.length app] in E.
  eapply Permutation_trans; [apply Permutation_flat_map, Hp|]. rewrite E. apply Permutation_refl.
Qed.

Lemma in_concat_group pos i : In i (List.concat pos) <-> exists a, Topo.Spec.in_group pos a i.
Proof.
  rewrite in_concat. split.
  - intros (g & Hg & Hi). apply In_nth_error in Hg. destruct Hg as (a & Ha). exists a, g. auto.
  - intros (a & g & Ha & Hi). exists g. split; [eapply nth_error_In, Ha|exact Hi].
Qed.

Lemma sorted_nodup (g : list nat) : StronglySorted lt g -> NoDup g.
Proof. induction 1 as [|a l Hs IH Hf]; constructor; [|exact IH]. intros Hin. rewrite Forall_forall in Hf. specialize (Hf a Hin). lia. Qed.

Lemma order_ok sources : NoDup (map (fun x => src_path x) sources) -> (forall a key, In a sources -> ~ In (key, src_path a) (s_deps (base a))) ->
  exists r, dependencies_order sources = Ret r /\ match r with
  | inl l => Permutation l sources /\
    forall i j a b key, nth_error l i = Some a -> nth_error l j = Some b -> In (key, src_path b) (s_deps (base a)) -> j < i
  | inr cycle => 2 <= List.length cycle /\ NoDup cycle /\ exists a, In a sources /\
    forall p, In p cycle <-> exists b, In b sources /\ p = src_path b /\ (b = a \/ leads sources a b /\ leads sources b a)
  end.
Proof.
  intros Hn Hself. unfold dependencies_order.
  assert (Hk : NoDup (map fst (data_of sources))) by (rewrite map_map; exact Hn).
  destruct (Topo.Proofs.run_sorts path_eqb deps_of path_eqb_eq (data_of sources) Hk) as (groups & Er & pos & Hpos & Hperm & Hgood & Hord).
  assert (Hlen : List.length (data_of sources) = List.length sources) by apply map_length. rewrite Hlen in Hperm.
  exists (singletons groups). split; [rewrite Er; reflexivity|]. pose proof (singletons_spec groups) as Hs.
  assert (Hidx : forall b i, nth_error sources i = Some b -> exists a, Topo.Spec.in_group pos a i).
  { intros b i Hi. apply in_concat_group. eapply Permutation_in; [symmetry; exact Hperm|]. apply in_seq. assert (i < List.length sources) by (apply nth_error_Some; congruence). lia. }
  destruct (singletons groups) as [l|cycle].
  - subst groups. assert (His : exists is, pos = map (fun i => [i]) is /\ Forall2 (fun v i => nth_error sources i = Some v) l is).
    { clear -Hpos. unfold Topo.Spec.positions in Hpos. revert pos Hpos. induction l as [|x l IH]; intros pos H; inversion H as [|? g ? pos' Hg Hrest]; subst.
      - exists []. split; [reflexivity|constructor].
      - destruct (IH _ Hrest) as (is & -> & His). inversion Hg as [|? i ? g' (k & Hi) Hnil]; subst. inversion Hnil; subst. apply nth_data in Hi. exists (i :: is). split; [reflexivity|]. constructor; tauto. }
    destruct His as (is & -> & His). split.
    + eapply picks_perm; [exact His|]. replace is with (List.concat (map (fun i => [i]) is)); [exact Hperm|]. clear. induction is as [|i is IH]; [reflexivity|]. cbn. congruence.
    + intros i j a b key Hi Hj Hd. destruct (forall2_nth _ _ _ His i a Hi) as (x & Hx & Ha). destruct (forall2_nth _ _ _ His j b Hj) as (y & Hy & Hb).
      assert (Gx : Topo.Spec.in_group (map (fun i => [i]) is) i x) by (exists [x]; rewrite nth_error_map, Hx; cbn; auto).
      assert (Gy : Topo.Spec.in_group (map (fun i => [i]) is) j y) by (exists [y]; rewrite nth_error_map, Hy; cbn; auto).
      destruct (Hord i j x y Gx Gy) as (_ & H). assert (j <= i) by (apply H, depends_iff; eauto 7). destruct (Nat.eq_dec i j) as [E|]; [|lia]. subst j. exfalso. apply (Hself a key); [eapply nth_error_In, Ha|congruence].
  - destruct Hs as (a & g & Ha & Hlg & ->). destruct (forall2_nth _ _ _ Hpos a g Ha) as (is & Hpa & His).
    rewrite Forall_forall in Hgood. destruct (Hgood is (nth_error_In _ _ Hpa)) as (Hne & Hsort). apply sorted_nodup in Hsort.
    assert (His' : Forall2 (fun v i => nth_error sources i = Some v) g is).
    { clear -His. induction His as [|v i g is (k & H) _ IH]; constructor; [apply nth_data in H; tauto|exact IH]. }
    clear His. pose proof (forall2_len _ _ _ His') as Hl. rewrite map_length. split; [destruct is as [|x [|y is]]; [congruence|cbn in *; lia|cbn in *; lia]|].
    split.
    { clear -His' Hsort Hn. induction His' as [|v i g is H His IH]; [constructor|]. inversion Hsort as [|? ? Hni Hs]; subst. cbn [map]. constructor; [|apply IH, Hs].
      rewrite in_map_iff. intros (w & Ew & Hw). apply In_nth_error in Hw. destruct Hw as (m & Hm). destruct (forall2_nth _ _ _ His m w Hm) as (j & Hj & Hw).
      apply Hni. replace i with j; [eapply nth_error_In, Hj|]. eapply nth_same; [exact Hn|exact Hw|exact H|exact Ew]. }
    destruct is as [|x is]; [congruence|]. assert (Hx0 : In x (x :: is)) by (left; reflexivity). destruct g as [|v g]; [inversion His'|]. assert (Hv : nth_error sources x = Some v) by (inversion His'; assumption).
    exists v. split; [eapply nth_error_In, Hv|]. intros p. rewrite in_map_iff.
    assert (Gx : Topo.Spec.in_group pos a x) by (exists (x :: is); auto).
    split.
    + intros (b & <- & Hb). apply In_nth_error in Hb. destruct Hb as (m & Hm). destruct (forall2_nth _ _ _ His' m b Hm) as (y & Hy & Hb). exists b. split; [eapply nth_error_In, Hb|]. split; [reflexivity|].
      assert (Gy : Topo.Spec.in_group pos a y) by (exists (x :: is); split; [exact Hpa|eapply nth_error_In, Hy]).
      destruct (Hord a a x y Gx Gy) as ((H & _) & _). destruct (H eq_refl) as (R1 & R2).
      destruct (reaches_leads _ _ _ _ R1 Hv b Hb) as [E|L1]; [left; congruence|]. destruct (reaches_leads _ _ _ _ R2 Hb v Hv) as [E|L2]; [left; congruence|]. auto.
    + intros (b & Hb & -> & Hrel). exists b. split; [reflexivity|]. apply In_nth_error in Hb. destruct Hb as (y & Hy). destruct Hrel as [->|(L1 & L2)]; [left; reflexivity|].
      destruct (Hidx b y Hy) as (c & Gy). destruct (Hord a c x y Gx Gy) as ((_ & H) & _). assert (Eac : a = c) by (apply H; split; [apply (leads_reaches sources v b Hn L1 x y Hv Hy)|apply (leads_reaches sources b v Hn L2 y x Hy Hv)]). subst c.
      destruct Gy as (is' & E & Hin). rewrite Hpa in E. injection E as <-. apply In_nth_error in Hin. destruct Hin as (m & Hm). destruct (forall2_nth' _ _ _ His' m y Hm) as (b' & Hb' & Hy').
      assert (b' = b) by congruence. subst b'. eapply nth_error_In, Hb'.
Qed.

Lemma has_key_in k deps : Build.Model.has_key k deps = true <-> exists d, In (k, d) deps.
Proof.
  unfold Build.Model.has_key. rewrite existsb_exists. split.
  - intros ((k' & d) & H & E). cbn in E. apply text_eqb_eq in E. subst k'. eauto.
  - intros (d & H). exists (k, d). split; [exact H|apply text_eqb_refl].
Qed.

(** A collected program without errors and cycles meets what the build asks for. *)
Lemma ready_ok load inputs schedule s sources l : (forall p, code (load p) = None -> load_errors (load p) <> []) ->
  exec load schedule (start inputs) = Ret s -> complete s -> Permutation sources (result s) ->
  (forall x, In x sources -> errors x = []) -> dependencies_order sources = Ret (inl l) ->
  Build.Model.asserts (map base l) = true /\ Build.Spec.ordered (map base l).
Proof.
  intros Hnone He Hc Hp Herr Hord. destruct (collect_exact_ok load inputs schedule s He Hc) as (Hn & Hr & _).
  assert (Hn' : NoDup (map (fun x => src_path x) sources)) by (eapply Permutation_NoDup; [symmetry; apply Permutation_map, Hp|exact Hn]).
  assert (Hsrc : forall x, In x sources <-> exists p, program load inputs p /\ x = source_of p (load p)).
  { intros x. rewrite <- Hr. split; apply Permutation_in; [exact Hp|symmetry; exact Hp]. }
  clear Hn Hr.
  assert (Hcode : forall p, program load inputs p -> exists ss, code (load p) = Some ss).
  { intros p Hpp. destruct (code (load p)) as [ss|] eqn:E; [eauto|]. exfalso. destruct (source_ok p (load p)) as (_ & H). rewrite E in H. destruct H as (_ & H). apply (Hnone p E). rewrite <- H. apply Herr, Hsrc. eauto. }
  assert (Hself : forall a key, In a sources -> ~ In (key, src_path a) (s_deps (base a))).
  { intros a key Ha Hin. apply Hsrc in Ha. destruct Ha as (p & Hpp & ->). destruct (source_ok p (load p)) as (Ep & H). rewrite Ep in Hin. destruct (Hcode p Hpp) as (ss & E). rewrite E in H. destruct H as (_ & _ & H & _). apply H in Hin. apply dependency_not_self in Hin. congruence. }
  destruct (order_ok sources Hn' Hself) as (r & Er & Hres). assert (r = inl l) by congruence. subst r. destruct Hres as (Hperm & Hsort).
  assert (Hl : forall x, In x l <-> exists p, program load inputs p /\ x = source_of p (load p)).
  { intros x. rewrite <- Hsrc. split; apply Permutation_in; [exact Hperm|symmetry; exact Hperm]. }
  assert (Hpath : forall p, program load inputs p -> exists j, nth_error l j = Some (source_of p (load p))).
  { intros p Hpp. apply In_nth_error, Hl. eauto. }
  split.
  - destruct l as [|first rest]; [reflexivity|]. cbn [map Build.Model.asserts]. rewrite !andb_true_iff. rewrite !forallb_forall. split; [split|].
    + apply path_eqb_eq. destruct (proj1 (Hl first) (or_introl eq_refl)) as (p & Hpp & Ef). rewrite Ef. destruct (source_ok p (load p)) as (-> & H). destruct (Hcode p Hpp) as (ss & E). rewrite E in H. destruct H as (_ & _ & H & _).
      destruct (path_eqb p builtin_path) eqn:Eb; [apply path_eqb_eq, Eb|]. exfalso. assert (Hb : p <> builtin_path) by (intros E'; rewrite E', path_eqb_refl in Eb; discriminate).
      assert (Hd : dependency p ss (show_path builtin_path) builtin_path) by (right; left; auto).
      assert (Hpb : program load inputs builtin_path) by (eapply pr_dep; [exact Hpp|exists ss, (show_path builtin_path); auto]).
      destruct (Hpath _ Hpb) as (j & Hj). specialize (Hsort 0 j first _ (show_path builtin_path) eq_refl Hj). rewrite src_path_of in Hsort. apply H in Hd. rewrite <- Ef in Hd. specialize (Hsort Hd). lia.
    + intros x Hx. apply in_map_iff in Hx. destruct Hx as (a & <- & Ha). apply In_nth_error in Ha. destruct Ha as (i & Hi). destruct (proj1 (Hl a)) as (p & Hpp & Ea); [right; eapply nth_error_In, Hi|].
      rewrite Ea. destruct (source_ok p (load p)) as (Ep & H). destruct (Hcode p Hpp) as (ss & E). rewrite E in H. destruct H as (_ & _ & H & _). apply has_key_in. exists builtin_path. apply H. right. left. split; [|auto].
      intros ->. assert (Hfirst : src_path first = builtin_path).
      { destruct (proj1 (Hl first) (or_introl eq_refl)) as (q & Hq & Ef). rewrite Ef, src_path_of. destruct (path_eqb q builtin_path) eqn:Eb; [apply path_eqb_eq, Eb|]. exfalso.
        destruct (source_ok q (load q)) as (_ & Hq'). destruct (Hcode q Hq) as (ss' & E'). rewrite E' in Hq'. destruct Hq' as (_ & _ & Hq' & _).
        assert (Hd : dependency q ss' (show_path builtin_path) builtin_path) by (right; left; split; [intros E''; rewrite E'', path_eqb_refl in Eb; discriminate|auto]).
        apply Hq' in Hd. rewrite <- Ef in Hd. assert (Hi' : nth_error (first :: rest) (S i) = Some a) by exact Hi.
        assert (Hda : In (show_path builtin_path, src_path a) (s_deps (base first))) by (rewrite Ea, src_path_of; exact Hd).
        specialize (Hsort 0 (S i) first a _ eq_refl Hi' Hda). lia. }
      assert (Hnl : NoDup (map (fun x => src_path x) (first :: rest))) by (eapply Permutation_NoDup; [symmetry; apply Permutation_map, Hperm|exact Hn']).
      assert (0 = S i); [|lia]. eapply (nth_same (fun x => src_path x)); [exact Hnl|reflexivity|exact Hi|]. cbn beta. rewrite Ea, src_path_of. exact Hfirst.
    + intros x Hx. change (base first :: map base rest) with (map base (first :: rest)) in Hx. apply in_map_iff in Hx. destruct Hx as (a & <- & Ha). apply Hl in Ha. destruct Ha as (p & Hpp & ->).
      destruct (s_implicit_std (base (source_of p (load p)))) eqn:Es; [|reflexivity]. cbn [negb orb]. apply has_key_in. exists std_path. assert (Hee : errors (source_of p (load p)) = []) by (apply Herr, Hsrc; eauto).
      destruct (source_ok p (load p)) as (Ep & H). destruct (Hcode p Hpp) as (ss & E). rewrite E in H. destruct H as (H1 & _ & H & H2). apply H. right. right. split; [apply H1, Es|]. split; [|auto].
      intros ->. apply H2 in Hee. destruct Hee as (_ & _ & Hstd). destruct (Hstd eq_refl) as (s0 & Hs0 & Hns). exact (proj1 H1 Es s0 Hs0 Hns).
  - split.
    + rewrite map_map. eapply Permutation_NoDup; [symmetry; apply Permutation_map, Hperm|exact Hn'].
    + intros i si key p Hi Hd. rewrite nth_error_map in Hi. destruct (nth_error l i) as [a|] eqn:Ea; [|discriminate]. cbn in Hi. injection Hi as <-.
      destruct (proj1 (Hl a) (nth_error_In _ _ Ea)) as (q & Hq & Eq). assert (Hpp : program load inputs p) by (eapply pr_dep; [exact Hq|]; apply source_deps; rewrite <- Eq; apply in_snd; eauto).
      destruct (Hpath p Hpp) as (j & Hj). exists j, (base (source_of p (load p))). rewrite nth_error_map, Hj, src_path_of. split; [|split; reflexivity].
      eapply (Hsort i j a _ key); [exact Ea|exact Hj|]. rewrite src_path_of. exact Hd.
Qed.
