(** The theorems about kind inference of whole modules. *)
From Verif.Base Require Import Base Vec VecFacts.
From Verif.Kind Require Import Model Spec.
From Verif.Topo Require Model Spec Properties.
From Verif.KindInfer Require Import Model Spec ProofsSort ProofsRun ProofsTop ProofsRoot ProofsModule.
Import ListNotations.

Lemma infer_root_conv mods r gs x : root_groups r = Ret gs ->
  conv (fun n => infer_root mods n r) x <-> conv (fun n => infer_groups mods n gs) x.
Proof.
  intros E. split; intros H; (eapply conv_ext; [|exact H]); intros n; unfold infer_root; rewrite E; reflexivity.
Qed.

Lemma Forall_perm {A} (P : A -> Prop) l l' : Permutation l l' -> Forall P l -> Forall P l'.
Proof. intros Hp H. rewrite Forall_forall in *. intros x Hx. apply H. eapply Permutation_in; [apply Permutation_sym; exact Hp|exact Hx]. Qed.

Lemma Forall_flat {A B} (P : B -> Prop) (f : A -> list B) l : Forall P (flat_map f l) <-> Forall (fun x => Forall P (f x)) l.
Proof.
  rewrite !Forall_forall. split.
  - intros H x Hx. rewrite Forall_forall. intros y Hy. apply H. apply in_flat_map. eauto.
  - intros H y Hy. apply in_flat_map in Hy. destruct Hy as (x & Hx & Hy). specialize (H x Hx). rewrite Forall_forall in H. auto.
Qed.

Lemma module_proper ds cs r : Permutation (List.concat ds) (data_types r) -> Permutation (List.concat cs) (classes r) ->
  root_annotations_proper r -> Forall annotations_proper (groups_of ds cs r).
Proof.
  intros Pd Pc H. apply Forall_flat. eapply Forall_perm; [apply Permutation_sym; now apply groups_of_generics|exact H].
Qed.

Section Top.
  Variable mods : modules.
  Hypothesis Hknown : known mods.

  Lemma root_sorted r : NoDup (map dt_id (data_types r)) -> NoDup (map cls_id (classes r)) ->
    exists ds cs, root_groups r = Ret (groups_of ds cs r) /\
      ordered dt_id data_deps (data_types r) ds /\ ordered cls_id class_deps (classes r) cs.
  Proof.
    intros Nd Nc. assert (Heq : forall x y : nat, Nat.eqb x y = true <-> x = y) by (intros; apply Nat.eqb_eq).
    destruct (Topo.Properties.topological_sort_correct _ _ Nat.eqb data_deps Heq (map (fun d => (dt_id d, d)) (data_types r))) as (ds & Ed & Sd).
    { rewrite map_map. cbn. exact Nd. }
    destruct (Topo.Properties.topological_sort_correct _ _ Nat.eqb class_deps Heq (map (fun d => (cls_id d, d)) (classes r))) as (cs & Ec & Sc).
    { rewrite map_map. cbn. exact Nc. }
    apply (sorted_ordered dt_id) in Sd; [|exact Nd]. apply (sorted_ordered cls_id) in Sc; [|exact Nc].
    exists ds, cs. split; [unfold root_groups; rewrite Ed; cbn; rewrite Ec; reflexivity|]. split; [exact Sd|exact Sc].
  Qed.

  Lemma module_ends r : NoDup (map dt_id (data_types r)) -> NoDup (map cls_id (classes r)) -> root_annotations_proper r -> exists x, conv (fun n => infer_root mods n r) x.
  Proof.
    intros Nd Nc Ha. destruct (root_sorted r Nd Nc) as (ds & cs & E & Hd & Hc).
    destruct (kind_inference_ends mods Hknown (groups_of ds cs r)) as [x Hx].
    { exact (module_proper ds cs r (ord_all _ _ _ _ Hd) (ord_all _ _ _ _ Hc) Ha). }
    exists x. apply (infer_root_conv mods r _ x E). exact Hx.
  Qed.

  Lemma module_fits r kinds : NoDup (map dt_id (data_types r)) -> NoDup (map cls_id (classes r)) -> root_annotations_proper r -> conv (fun n => infer_root mods n r) (inr kinds) ->
    exists K, respects mods K /\ extends_kinds kinds K /\ root_fits K r /\
      (forall c, In c (root_declared r) <-> exists k, assoc c kinds = Some k) /\
      (forall c k, assoc c kinds = Some k -> complete k).
  Proof.
    intros Nd Nc Ha Hx. destruct (root_sorted r Nd Nc) as (ds & cs & E & Hd & Hc).
    apply (infer_root_conv mods r _ _ E) in Hx. pose proof (ord_all _ _ _ _ Hd) as Pd. pose proof (ord_all _ _ _ _ Hc) as Pc.
    destruct (kind_inference_sound mods Hknown _ _ (module_proper ds cs r Pd Pc Ha) Hx) as (K & H1 & H2 & H3 & H4 & H5).
    exists K. split; [exact H1|split; [exact H2|split; [|split; [|exact H5]]]].
    - assert (Hg : Forall (fun g => Forall (generic_fits K) (generics g)) (groups_of ds cs r)).
      { eapply Forall_impl; [|exact H3]. intros g [[A _] _]. exact A. }
      assert (Hch : Forall (fun g => Forall (check_fits K) (checks g)) (groups_of ds cs r)).
      { eapply Forall_impl; [|exact H3]. intros g [[_ A] _]. exact A. }
      assert (Hf : Forall (fun g => Forall (fun x => Forall (fun t => first_class (K (tp t))) (generic_types x)) (generics g)) (groups_of ds cs r)).
      { eapply Forall_impl; [|exact H3]. intros g [_ A]. exact A. }
      apply Forall_flat in Hg, Hch, Hf. split; [|split].
      + eapply Forall_perm; [exact (groups_of_generics ds cs r Pd Pc)|exact Hg].
      + eapply Forall_perm; [exact (groups_of_checks ds cs r Pd Pc)|exact Hch].
      + eapply Forall_perm; [exact (groups_of_generics ds cs r Pd Pc)|exact Hf].
    - intros c. rewrite <- H4. pose proof (groups_of_declared ds cs r Pd Pc) as P.
      split; apply Permutation_in; [apply Permutation_sym|]; exact P.
  Qed.

  Lemma module_rejects r e : scoped mods r -> root_annotations_proper r -> conv (fun n => infer_root mods n r) (inl e) ->
    exists before g after kinds, root_groups r = Ret (before ++ g :: after) /\ conv (fun n => infer_groups mods n before) (inr kinds) /\
      forall K, respects mods K -> extends_kinds kinds K -> ~ (group_fits K g /\ params_first_class K g).
  Proof.
    intros Hsc Ha Hx. destruct (module_groups mods r Hsc) as (ds & cs & E & Hd & Hc & Ho).
    apply (infer_root_conv mods r _ _ E) in Hx. pose proof (ord_all _ _ _ _ Hd) as Pd. pose proof (ord_all _ _ _ _ Hc) as Pc.
    destruct (kind_inference_rejects mods Hknown _ _ (module_proper ds cs r Pd Pc Ha) Ho Hx) as (before & g & after & kinds & E2 & H1 & H2).
    exists before, g, after, kinds. rewrite E, E2. auto.
  Qed.

  (** * The order of the tables *)

  Lemma perm_reordered a b : Permutation a b -> reordered a b.
  Proof. intros P. exists b. split; [exact P|]. clear P. induction b; constructor; [split; reflexivity|assumption]. Qed.

  Lemma reordered_app a a' b b' : reordered a a' -> reordered b b' -> reordered (a ++ b) (a' ++ b').
  Proof. intros (l & P & F) (l' & P' & F'). exists (l ++ l'). split; [now apply Permutation_app|now apply Forall2_app]. Qed.

  Lemma reordered_flat {A} (R : A -> A -> Prop) (f : A -> list group) l l' : (forall x y, R x y -> reordered (f x) (f y)) ->
    (exists m, Permutation l m /\ Forall2 R m l') -> reordered (flat_map f l) (flat_map f l').
  Proof.
    intros HR (m & P & F).
    assert (H : reordered (flat_map f m) (flat_map f l')).
    { clear P. induction F as [|x y m l' Hxy _ IH]; [apply perm_reordered; reflexivity|]. cbn. apply reordered_app; auto. }
    destruct H as (q & Pq & Fq). exists q. split; [|exact Fq]. etransitivity; [|exact Pq]. now apply Permutation_flat_map.
  Qed.

  Lemma data_group_same g g' : Permutation g g' -> same_group (data_group g) (data_group g').
  Proof. intros P. split; cbn; [now apply Permutation_map|now apply Permutation_flat_map]. Qed.

  Lemma class_groups_same g g' : Permutation g g' -> reordered (class_groups g) (class_groups g').
  Proof.
    intros P. unfold class_groups. apply (reordered_app [_] [_]).
    - eexists [_]. split; [reflexivity|]. constructor; [|constructor]. split; cbn; now apply Permutation_flat_map.
    - apply perm_reordered. now apply Permutation_flat_map.
  Qed.

  Lemma groups_reordered r r' ds ds' cs cs' : scoped mods r -> same_tables r r' ->
    ordered dt_id data_deps (data_types r) ds -> ordered dt_id data_deps (data_types r') ds' ->
    ordered cls_id class_deps (classes r) cs -> ordered cls_id class_deps (classes r') cs' ->
    reordered (groups_of ds cs r) (groups_of ds' cs' r').
  Proof.
    intros Hsc (P1 & P2 & P3 & P4 & P5 & P6 & P7 & P8 & P9) Hd Hd' Hc Hc'. unfold groups_of.
    pose proof (ordered_unique _ _ _ _ _ _ (NoDup_map_inv _ _ (data_ids mods r Hsc)) P2 Hd Hd') as Ud.
    pose proof (ordered_unique _ _ _ _ _ _ (NoDup_map_inv _ _ (class_ids mods r Hsc)) P3 Hc Hc') as Uc.
    apply reordered_app; [apply perm_reordered; now apply Permutation_map|].
    apply reordered_app.
    { rewrite <- !flat_map_one. apply reordered_flat with (R := @Permutation data_type); [|exact Ud].
      intros x y P. exists [data_group x]. split; [reflexivity|]. constructor; [now apply data_group_same|constructor]. }
    apply reordered_app; [apply perm_reordered; now apply Permutation_flat_map|].
    apply reordered_app; [apply reordered_flat with (R := @Permutation class_def); [exact class_groups_same|exact Uc]|].
    apply reordered_app; [apply perm_reordered; now apply Permutation_flat_map|].
    apply reordered_app; [apply perm_reordered; now apply Permutation_map|].
    apply reordered_app; [apply perm_reordered; now apply Permutation_flat_map|].
    apply reordered_app; [apply perm_reordered; now apply Permutation_flat_map|].
    apply reordered_app; [apply perm_reordered; now apply Permutation_flat_map|].
    apply perm_reordered; now apply Permutation_flat_map.
  Qed.

  Lemma same_tables_generics r r' : same_tables r r' -> Permutation (root_generics r) (root_generics r').
  Proof.
    intros (P1 & P2 & P3 & P4 & P5 & P6 & P7 & P8 & P9). unfold root_generics.
    repeat apply Permutation_app; first [now apply Permutation_map|now apply Permutation_flat_map].
  Qed.

  Lemma scoped_impl r r' : (forall c, known_type mods r c -> known_type mods r' c) ->
    forall (kc kc' : nat -> Prop), (forall c, kc c -> kc' c) ->
    (forall params t, scoped_type mods r params t -> scoped_type mods r' params t) /\
    (forall params k, scoped_constraint mods r kc params k -> scoped_constraint mods r' kc' params k) /\
    (forall params s, scoped_scheme mods r kc params s -> scoped_scheme mods r' kc' params s) /\
    (forall i params, scoped_item mods r kc params i -> scoped_item mods r' kc' params i).
  Proof.
    intros Ht kc kc' Hk.
    assert (A : forall params t, scoped_type mods r params t -> scoped_type mods r' params t).
    { intros params t [H1 H2]. split; [|exact H2]. intros c Hc. apply Ht, H1, Hc. }
    assert (B : forall params k, scoped_constraint mods r kc params k -> scoped_constraint mods r' kc' params k).
    { intros params k [H1 H2]. split; [apply Hk, H1|]. eapply Forall_impl; [|exact H2]. apply A. }
    assert (C : forall params s, scoped_scheme mods r kc params s -> scoped_scheme mods r' kc' params s).
    { intros params s [H1 H2]. split; [|apply A; exact H2]. eapply Forall_impl; [|exact H1]. apply B. }
    split; [exact A|split; [exact B|split; [exact C|]]].
    induction i as [t|id ann body IH] using item_ind'; intros params H; [apply A; exact H|].
    cbn [scoped_item] in *. destruct H as [H1 H2]. split; [destruct ann; [apply C; exact H1|exact I]|].
    apply fold_and. apply fold_and in H2. rewrite Forall_forall in *. intros i Hi. apply (IH i Hi). exact (H2 i Hi).
  Qed.

  Lemma scoped_same r r' : same_tables r r' -> scoped mods r -> scoped mods r'.
  Proof.
    intros Hs [s1 s2 s3 s4 s5 s6 s7 s8 s9 s10 s11 s12].
    assert (Pd : Permutation (root_declared r) (root_declared r')) by (apply Permutation_flat_map; now apply same_tables_generics).
    destruct Hs as (P1 & P2 & P3 & P4 & P5 & P6 & P7 & P8 & P9).
    assert (Ht : forall c, known_type mods r c -> known_type mods r' c).
    { intros c [H|H]; [left|right; exact H]. eapply Permutation_in; [|exact H]. apply Permutation_app; now apply Permutation_map. }
    assert (Hk : forall c, known_class mods r c -> known_class mods r' c).
    { intros c [H|H]; [left|right; exact H]. eapply Permutation_in; [|exact H]. now apply Permutation_map. }
    assert (Hdef : forall c b, default_class mods r c b -> default_class mods r' c b).
    { intros c b [H|H]; [left|right; exact H]. induction H as [x y (u & v & Hu & Hv & H)|x|x y z _ I1 _ I2]; [apply rt_step|apply rt_refl|eapply rt_trans; eassumption].
      exists u, v. split; [eapply Permutation_in; eassumption|split; [eapply Permutation_in; eassumption|exact H]]. }
    destruct (scoped_impl r r' Ht _ _ Hk) as (A & B & C & D).
    assert (Hback : forall {X} (l l' : list X) x, Permutation l l' -> In x l' -> In x l).
    { intros X l l' x P. apply Permutation_in. now apply Permutation_sym. }
    constructor.
    - eapply Permutation_NoDup; eassumption.
    - intros c Hc. apply s2. eapply Hback; eassumption.
    - intros b fs t Hb Hf Hi. apply A. eapply s3; [eapply Hback; [exact P1|exact Hb]|exact Hf|exact Hi].
    - intros d t Hd Hi. apply A. eapply s4; [eapply Hback; [exact P2|exact Hd]|exact Hi].
    - intros c Hc. eapply Forall_impl; [|apply s5; eapply Hback; [exact P3|exact Hc]]. apply B.
    - intros c m Hc Hm. destruct (s6 c m (Hback _ _ _ c P3 Hc) Hm) as [H1 H2]. split; [apply C; exact H1|].
      destruct (scoped_impl r r' Ht _ _ (Hdef c)) as (_ & _ & _ & D'). eapply Forall_impl; [|exact H2]. intros i. apply D'.
    - intros id ann body Hf. apply D. apply s7. eapply Hback; [exact P4|exact Hf].
    - intros t Hi. apply A. apply s8. eapply Hback; [exact P5|exact Hi].
    - intros id s Hi. apply C. apply (s9 id). eapply Hback; [exact P6|exact Hi].
    - intros is i His Hi. apply D. apply (s10 is); [eapply Hback; [exact P7|exact His]|exact Hi].
    - intros i Hi. destruct (s11 i (Hback _ _ _ i P8 Hi)) as [H1 H2]. split; [eapply Forall_impl; [|exact H1]; apply B|].
      intros id ann body Hm. apply D. exact (H2 id ann body Hm).
    - intros is i His Hi. apply D. apply (s12 is); [eapply Hback; [exact P9|exact His]|exact Hi].
  Qed.

  Lemma module_order r r' kinds : scoped mods r -> root_annotations_proper r -> same_tables r r' ->
    conv (fun n => infer_root mods n r) (inr kinds) ->
    exists kinds', conv (fun n => infer_root mods n r') (inr kinds') /\ forall c, assoc c kinds' = assoc c kinds.
  Proof.
    intros Hsc Ha Hs Hx. pose proof (scoped_same r r' Hs Hsc) as Hsc'.
    destruct (module_groups mods r Hsc) as (ds & cs & E & Hd & Hc & Ho).
    destruct (module_groups mods r' Hsc') as (ds' & cs' & E' & Hd' & Hc' & Ho').
    apply (infer_root_conv mods r _ _ E) in Hx.
    destruct (kind_inference_order mods Hknown _ (groups_of ds' cs' r') kinds
      (module_proper ds cs r (ord_all _ _ _ _ Hd) (ord_all _ _ _ _ Hc) Ha) Ho Ho'
      (groups_reordered r r' ds ds' cs cs' Hsc Hs Hd Hd' Hc Hc') Hx) as (kinds' & H1 & H2).
    exists kinds'. split; [|exact H2]. apply (infer_root_conv mods r' _ _ E'). exact H1.
  Qed.
End Top.
