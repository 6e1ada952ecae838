(** Kind inference of whole modules. *)
From Verif.Base Require Import Base Vec VecFacts.
From Verif.Kind Require Import Model Spec.
From Verif.Topo Require Model Spec Properties.
From Verif.KindInfer Require Import Model Spec ProofsSort ProofsRun ProofsTop ProofsRoot.
Import ListNotations.

Section Module.
  Variables (mods : modules) (r : root).
  Hypothesis Hsc : scoped mods r.

  Lemma data_declared g d : In d g -> In (dt_id d) (declared (data_group g)) /\ incl (map tp (dt_params d)) (declared (data_group g)).
  Proof.
    intros H. unfold declared, data_group. cbn. rewrite flat_map_map. split.
    - apply in_flat_map. exists d. split; [exact H|now left].
    - intros x Hx. apply in_flat_map. exists d. split; [exact H|now right].
  Qed.

  Definition class_head (g : list class_def) : group := {| generics := flat_map class_generics g; checks := flat_map class_checks g |}.

  Lemma class_declared g c : In c g -> In (cls_id c) (declared (class_head g)) /\ incl (map tp (cls_params c)) (declared (class_head g)).
  Proof.
    intros H. unfold declared, class_head. cbn. rewrite flat_map_flat. split.
    - apply in_flat_map. exists c. split; [exact H|now left].
    - intros x Hx. apply in_flat_map. exists c. split; [exact H|]. cbn. right. apply in_or_app. now left.
  Qed.

  Lemma method_declared g c m : In c g -> In m (methods c) -> incl (inner (map tp (cls_params c)) (Some (cm_ann m))) (declared (class_head g)).
  Proof.
    intros Hc Hm. cbn. apply incl_app; [|now apply class_declared].
    intros x Hx. unfold declared, class_head. cbn. rewrite flat_map_flat. apply in_flat_map. exists c. split; [exact Hc|].
    cbn. right. apply in_or_app. right. rewrite flat_map_map. apply in_flat_map. exists m. split; [exact Hm|now right].
  Qed.

  Lemma in_block {A} (vs : list A) X g Y v : Permutation (List.concat (X ++ g :: Y)) vs -> In v g -> In v vs.
  Proof.
    intros P Hv. eapply Permutation_in; [exact P|]. apply in_concat. exists g. split; [apply in_or_app; right; now left|exact Hv].
  Qed.

  Lemma data_uses ds seen : ordered dt_id data_deps (data_types r) ds -> incl (map bt_id (builtin_types r)) seen -> uses mods seen (map data_group ds).
  Proof.
    intros Ho Hb. rewrite <- flat_map_one. apply uses_flat. intros X g Y E. cbn. split; [|exact I].
    intros c Hc. unfold mentions in Hc. cbn [checks data_group] in Hc. apply in_flat_map in Hc. destruct Hc as (k & Hk & Hc).
    apply in_flat_map in Hk. destruct Hk as (d & Hd & Hk). apply in_map_iff in Hk. destruct Hk as (t & <- & Ht). cbn in Hc.
    assert (Hdr : In d (data_types r)) by (subst ds; exact (in_block _ _ _ _ _ (ord_all _ _ _ _ Ho) Hd)).
    destruct (sc_data _ _ Hsc d t Hdr Ht) as [H1 H2]. destruct (mentions_type t c Hc) as [Hm|Hm].
    - destruct (H1 c Hm) as [Hkn|Hn]; [|right; exact Hn]. left. apply in_app_or in Hkn. destruct Hkn as [Hkn|Hkn].
      + apply in_or_app. right. apply in_or_app. right. now apply Hb.
      + apply in_map_iff in Hkn. destruct Hkn as (w & <- & Hw).
        assert (Hn : needs_all dt_id data_deps (data_types r) d w).
        { apply rt_step. split; [exact Hdr|split; [exact Hw|]]. apply in_flat_map. exists t. auto. }
        pose proof (ord_before _ _ _ _ Ho X g Y d w E Hd Hn) as Hb'. apply in_concat in Hb'. destruct Hb' as (g' & Hg' & Hw').
        apply in_app_or in Hg'. destruct Hg' as [Hg'|[<-|[]]].
        * apply in_or_app. right. apply in_or_app. left. apply in_flat_map. exists (data_group g').
          split; [rewrite flat_map_one; now apply in_map|now apply data_declared].
        * apply in_or_app. left. now apply data_declared.
    - left. apply in_or_app. left. apply (proj2 (data_declared g d Hd)), H2, Hm.
  Qed.

  Lemma constraints_deps (kc : nat -> Prop) params ks : Forall (scoped_constraint mods r kc params) ks ->
    Forall (scoped_constraint mods r (fun b => kc b /\ In b (map class ks)) params) ks.
  Proof.
    rewrite !Forall_forall. intros H k Hk. destruct (H k Hk) as [H1 H2]. split; [|exact H2]. split; [exact H1|now apply in_map].
  Qed.

  Lemma NoDup_app_r {A} (l l' : list A) : NoDup (l ++ l') -> NoDup l'.
  Proof. induction l as [|x l IH]; intros H; [exact H|]. cbn in H. apply NoDup_cons_iff in H. tauto. Qed.

  Lemma NoDup_heads {A} (f : A -> nat) (h : A -> list nat) l : NoDup (flat_map (fun x => f x :: h x) l) -> NoDup (map f l).
  Proof.
    induction l as [|a l IH]; intros H; [constructor|]. cbn in H. apply NoDup_cons_iff in H. destruct H as [H1 H2]. cbn. constructor.
    - intros Hin. apply H1. apply in_map_iff in Hin. destruct Hin as (b & Eb & Hb). apply in_or_app. right.
      apply in_flat_map. exists b. split; [exact Hb|now left].
    - apply IH. exact (NoDup_app_r _ _ H2).
  Qed.

  Lemma map_once {A} (f : A -> nat) l a b : NoDup (map f l) -> In a l -> In b l -> f a = f b -> a = b.
  Proof.
    induction l as [|x l IH]; intros Hn Ha Hb E; [destruct Ha|]. cbn in Hn. apply NoDup_cons_iff in Hn. destruct Hn as [H1 H2].
    destruct Ha as [<-|Ha], Hb as [<-|Hb]; [reflexivity| | |now apply IH].
    - exfalso. apply H1. rewrite E. now apply in_map.
    - exfalso. apply H1. rewrite <- E. now apply in_map.
  Qed.

  Lemma data_ids : NoDup (map dt_id (data_types r)).
  Proof.
    pose proof (sc_ids _ _ Hsc) as Hnd. unfold root_declared, root_generics in Hnd. rewrite !flat_map_app in Hnd.
    apply NoDup_app_r, NoDup_app_l in Hnd. rewrite flat_map_map in Hnd. exact (NoDup_heads _ _ _ Hnd).
  Qed.

  Lemma class_ids : NoDup (map cls_id (classes r)).
  Proof.
    pose proof (sc_ids _ _ Hsc) as Hnd. unfold root_declared, root_generics in Hnd. rewrite !flat_map_app in Hnd.
    apply NoDup_app_r, NoDup_app_r, NoDup_app_l in Hnd. rewrite flat_map_flat in Hnd. exact (NoDup_heads _ _ _ Hnd).
  Qed.

  Lemma class_reaches c b : In c (classes r) -> clos_refl_trans nat (class_needs r) (cls_id c) b ->
    exists w, In w (classes r) /\ cls_id w = b /\ needs_all cls_id class_deps (classes r) c w.
  Proof.
    intros Hc H. apply clos_rt_rtn1 in H. induction H as [|y z Hs _ IH].
    - exists c. split; [exact Hc|split; [reflexivity|apply rt_refl]].
    - destruct IH as (w & Hw & Ew & Hn). destruct Hs as (c1 & d & Hc1 & Hd & E1 & E2 & Hin).
      assert (c1 = w) as -> by (apply (map_once cls_id (classes r)); [exact class_ids|exact Hc1|exact Hw|congruence]).
      exists d. split; [exact Hd|split; [exact E2|]]. eapply rt_trans; [exact Hn|]. apply rt_step.
      split; [exact Hw|split; [exact Hd|]]. now rewrite E2.
  Qed.

  Lemma classes_uses cs seen : ordered cls_id class_deps (classes r) cs -> types_seen mods r seen -> uses mods seen (flat_map class_groups cs).
  Proof.
    intros Ho Ht. apply uses_flat. intros X g Y E. set (seen' := flat_map declared (flat_map class_groups X) ++ seen).
    assert (Ht' : types_seen mods r (declared (class_head g) ++ seen')).
    { eapply types_seen_mono; [|exact Ht]. unfold seen'. intros x Hx. rewrite !in_app_iff. tauto. }
    assert (Hg : forall c, In c g -> In c (classes r)).
    { intros c Hc. subst cs. exact (in_block _ _ _ _ _ (ord_all _ _ _ _ Ho) Hc). }
    assert (Hneed : forall c w, In c g -> needs_all cls_id class_deps (classes r) c w -> In (cls_id w) (declared (class_head g) ++ seen')).
    { intros c w Hc Hn. pose proof (ord_before _ _ _ _ Ho X g Y c w E Hc Hn) as Hb. apply in_concat in Hb. destruct Hb as (g' & Hg' & Hw').
      apply in_app_or in Hg'. apply in_or_app. destruct Hg' as [Hg'|[<-|[]]]; [right|left; now apply class_declared].
      unfold seen'. apply in_or_app. left. apply in_flat_map. exists (class_head g').
      split; [apply in_flat_map; exists g'; split; [exact Hg'|now left]|now apply class_declared]. }
    assert (Hdep : forall c b, In c g -> known_class mods r b -> In b (class_deps c) -> avail mods (declared (class_head g) ++ seen') b).
    { intros c b Hc [Hk|Hk] Hd; [|right; exact Hk]. left. apply in_map_iff in Hk. destruct Hk as (w & <- & Hw).
      apply (Hneed c w Hc). apply rt_step. split; [now apply Hg|split; [exact Hw|exact Hd]]. }
    assert (Hpar : forall c, In c g -> incl (map tp (cls_params c)) (declared (class_head g) ++ seen')).
    { intros c Hc. apply incl_appl. now apply class_declared. }
    unfold class_groups. fold (class_head g). cbn [uses]. split.
    - intros b Hb. unfold mentions in Hb. cbn [checks class_head] in Hb. rewrite flat_map_flat in Hb. apply in_flat_map in Hb.
      destruct Hb as (c & Hc & Hb). unfold class_checks in Hb. rewrite flat_map_app in Hb. apply in_app_or in Hb. destruct Hb as [Hb|Hb].
      + eapply scoped_constraints_avail; [exact Ht'| |exact (Hpar c Hc)| |exact Hb].
        2: { apply constraints_deps. exact (sc_super _ _ Hsc c (Hg c Hc)). }
        intros d [Hd1 Hd2]. apply (Hdep c d Hc Hd1). unfold class_deps. rewrite map_app. apply in_or_app. now left.
      + rewrite flat_map_flat in Hb. apply in_flat_map in Hb. destruct Hb as (m & Hm & Hb).
        destruct (sc_method _ _ Hsc c m (Hg c Hc) Hm) as [[Hs1 Hs2] _].
        eapply scoped_scheme_avail with (kc := fun b => known_class mods r b /\ In b (map class (s_params (cm_ann m)))); [exact Ht'| | | |exact Hb].
        2: { apply incl_appl. exact (method_declared g c m Hc Hm). }
        2: { split; [apply constraints_deps; exact Hs1|exact Hs2]. }
        intros d [Hd1 Hd2]. apply (Hdep c d Hc Hd1). unfold class_deps. rewrite map_app. apply in_or_app. right.
        apply in_map_iff in Hd2. destruct Hd2 as (k & <- & Hk). apply in_map. apply in_flat_map. exists m. auto.
    - apply uses_each. intros c Hc. apply uses_each. intros m Hm. apply uses_each. intros i Hi.
      destruct (sc_method _ _ Hsc c m (Hg c Hc) Hm) as [_ Hdef]. rewrite Forall_forall in Hdef.
      eapply item_uses; [exact Ht'| |apply incl_appl; exact (method_declared g c m Hc Hm)|exact (Hdef i Hi)].
      intros b [Hb|Hb]; [|right; exact Hb]. left. destruct (class_reaches c b (Hg c Hc) Hb) as (w & Hw & <- & Hn). exact (Hneed c w Hc Hn).
  Qed.

  Lemma instance_uses i seen : In i (instances r) -> types_seen mods r seen -> (forall c, known_class mods r c -> avail mods seen c) ->
    uses mods seen (instance_groups i).
  Proof.
    intros Hi Ht Hk. destruct (sc_instance _ _ Hsc i Hi) as [H1 H2]. unfold instance_groups.
    set (anns := flat_map _ (inst_methods i)). cbn [uses].
    match goal with |- context [declared ?g] => set (h := g) end.
    assert (Hp : incl (map tp (inst_params i)) (declared h)).
    { intros x Hx. unfold declared, h. cbn. right. apply in_or_app. now left. }
    assert (Hin : forall id s body, In (id, Some s, body) (inst_methods i) -> In (id, s) anns).
    { intros id s body Hm. unfold anns. apply in_flat_map. exists (id, Some s, body). split; [exact Hm|now left]. }
    assert (Hin2 : forall id s, In (id, s) anns -> incl (inner (map tp (inst_params i)) (Some s)) (declared h)).
    { intros id s Hs. cbn. apply incl_app; [|exact Hp]. intros x Hx. unfold declared, h. cbn. right. apply in_or_app. right.
      rewrite flat_map_map. apply in_flat_map. exists (id, s). split; [exact Hs|now right]. }
    assert (Ht' : types_seen mods r (declared h ++ seen)) by (eapply types_seen_mono; [|exact Ht]; apply incl_appr, incl_refl).
    assert (Hk' : forall c, known_class mods r c -> avail mods (declared h ++ seen) c).
    { intros c Hc. eapply avail_mono; [|exact (Hk c Hc)]. apply incl_appr, incl_refl. }
    split.
    - intros c Hc. unfold mentions in Hc. unfold h in Hc. cbn [checks] in Hc. rewrite !flat_map_app in Hc. rewrite !in_app_iff in Hc.
      destruct Hc as [Hc|[Hc|Hc]].
      + eapply scoped_constraints_avail; [exact Ht'|exact Hk'|apply incl_appl; exact Hp|exact (Forall_inv_tail H1)|exact Hc].
      + cbn in Hc. rewrite app_nil_r in Hc.
        eapply scoped_constraint_avail; [exact Ht'|exact Hk'|apply incl_appl; exact Hp|exact (Forall_inv H1)|exact Hc].
      + rewrite flat_map_flat in Hc. apply in_flat_map in Hc. destruct Hc as ([id s] & Hs & Hc). cbn [snd] in Hc.
        assert (Hm : exists body, In (id, Some s, body) (inst_methods i)).
        { unfold anns in Hs. apply in_flat_map in Hs. destruct Hs as ([[id' [s'|]] body] & Hm & E); [destruct E as [E|[]]|destruct E].
          injection E as -> ->. now exists body. }
        destruct Hm as [body Hm]. destruct (H2 _ _ _ Hm) as [Hsch _].
        eapply scoped_scheme_avail; [exact Ht'|exact Hk'|apply incl_appl; exact (Hin2 id s Hs)|exact Hsch|exact Hc].
    - apply uses_each. intros [[id ann] body] Hm. cbn [snd]. destruct (H2 _ _ _ Hm) as [_ Hb]. apply fold_and in Hb. rewrite Forall_forall in Hb.
      apply uses_each. intros it Hit. eapply item_uses; [exact Ht'|exact Hk'| |exact (Hb it Hit)].
      apply incl_appl. destruct ann as [s|]; [|exact Hp]. exact (Hin2 id s (Hin _ _ _ Hm)).
  Qed.

  Lemma groups_uses ds cs : ordered dt_id data_deps (data_types r) ds -> ordered cls_id class_deps (classes r) cs ->
    uses mods [] (groups_of ds cs r).
  Proof.
    intros Hd Hc. unfold groups_of.
    assert (Hb : forall b, In b (builtin_types r) -> incl (bt_id b :: map tp (bt_params b)) (flat_map declared (map builtin_group (builtin_types r)) ++ [])).
    { intros b Hin x Hx. apply in_or_app. left. rewrite flat_map_map.
      apply in_flat_map. exists b. split; [exact Hin|]. cbn. rewrite app_nil_r. exact Hx. }
    apply uses_app.
    { rewrite <- flat_map_one. apply uses_each. intros b _. cbn. split; [intros c []|exact I]. }
    revert Hb. generalize (flat_map declared (map builtin_group (builtin_types r)) ++ []). intros s1 Hb.
    assert (Hb1 : incl (map bt_id (builtin_types r)) s1).
    { intros x Hx. apply in_map_iff in Hx. destruct Hx as (b & <- & Hin). apply (Hb b Hin). now left. }
    apply uses_app; [exact (data_uses ds s1 Hd Hb1)|].
    assert (Ht : types_seen mods r (flat_map declared (map data_group ds) ++ s1)).
    { intros c [Hk|Hk]; [|right; exact Hk]. left. apply in_or_app. apply in_app_or in Hk. destruct Hk as [Hk|Hk]; [right; now apply Hb1|left].
      apply in_map_iff in Hk. destruct Hk as (d & <- & Hin). eapply Permutation_in in Hin; [|apply Permutation_sym; exact (ord_all _ _ _ _ Hd)].
      apply in_concat in Hin. destruct Hin as (g & Hg & Hdg). rewrite flat_map_map. apply in_flat_map. exists g. split; [exact Hg|now apply data_declared]. }
    assert (Hb2 : forall b, In b (builtin_types r) -> incl (map tp (bt_params b)) (flat_map declared (map data_group ds) ++ s1)).
    { intros b Hin x Hx. apply in_or_app. right. apply (Hb b Hin). now right. }
    clear Hb Hb1. revert Ht Hb2. generalize (flat_map declared (map data_group ds) ++ s1). intros s2 Ht Hb.
    apply uses_app.
    { apply uses_each. intros b Hb'. unfold builtin_value_groups. rewrite <- flat_map_one. apply uses_each. intros fs Hfs. cbn. split; [|exact I].
      intros c Hcm. unfold mentions in Hcm. cbn in Hcm. rewrite flat_map_map in Hcm. apply in_flat_map in Hcm. destruct Hcm as (t & Hin & Hcm). cbn in Hcm.
      exact (scoped_type_avail mods r s2 _ t c Ht (Hb b Hb') (sc_builtin _ _ Hsc b fs t Hb' Hfs Hin) Hcm). }
    clear Hb. match goal with |- uses mods (?a ++ s2) _ => eapply types_seen_mono with (seen' := a ++ s2) in Ht; [|apply incl_appr, incl_refl]; revert Ht; generalize (a ++ s2) end.
    clear s1 s2. intros s3 Ht. apply uses_app; [exact (classes_uses cs s3 Hc Ht)|].
    assert (Hk : forall c, known_class mods r c -> avail mods (flat_map declared (flat_map class_groups cs) ++ s3) c).
    { intros c [Hk|Hk]; [|right; exact Hk]. left. apply in_or_app. left. apply in_map_iff in Hk. destruct Hk as (k & <- & Hin).
      eapply Permutation_in in Hin; [|apply Permutation_sym; exact (ord_all _ _ _ _ Hc)].
      apply in_concat in Hin. destruct Hin as (g & Hg & Hdg). apply in_flat_map. exists (class_head g).
      split; [apply in_flat_map; exists g; split; [exact Hg|now left]|now apply class_declared]. }
    eapply types_seen_mono with (seen' := flat_map declared (flat_map class_groups cs) ++ s3) in Ht; [|apply incl_appr, incl_refl].
    revert Ht Hk. generalize (flat_map declared (flat_map class_groups cs) ++ s3). clear s3. intros s Ht Hk.
    assert (Hskip : forall a b, uses mods s a -> uses mods s b -> uses mods s (a ++ b)).
    { intros a b Ha Hb. apply uses_app; [exact Ha|]. eapply uses_mono; [|exact Hb]. apply incl_appr, incl_refl. }
    apply Hskip.
    { apply uses_each. intros [[id ann] body] Hin. exact (item_uses mods r _ (ILocalFun id ann body) s [] Ht Hk (incl_nil_l s) (sc_function _ _ Hsc id ann body Hin)). }
    apply Hskip.
    { rewrite <- flat_map_one. apply uses_each. intros t Hin. exact (item_uses mods r (known_class mods r) (IType t) s [] Ht Hk (incl_nil_l s) (sc_c_function _ _ Hsc t Hin)). }
    apply Hskip.
    { apply uses_each. intros [id sch] Hin. exact (function_groups_uses mods r s _ [] id (Some sch) Ht Hk (incl_nil_l s) (sc_op _ _ Hsc id sch Hin)). }
    apply Hskip.
    { apply uses_each. intros is His. apply uses_each. intros i Hi. exact (item_uses mods r _ i s [] Ht Hk (incl_nil_l s) (sc_macro _ _ Hsc is i His Hi)). }
    apply Hskip.
    { apply uses_each. intros i Hi. exact (instance_uses i s Hi Ht Hk). }
    apply uses_each. intros is His. apply uses_each. intros i Hi. exact (item_uses mods r _ i s [] Ht Hk (incl_nil_l s) (sc_init _ _ Hsc is i His Hi)).
  Qed.

  (** The groups of the module. *)
  Lemma module_groups : exists ds cs, root_groups r = Ret (groups_of ds cs r) /\ ordered dt_id data_deps (data_types r) ds /\ ordered cls_id class_deps (classes r) cs /\ in_order mods [] (groups_of ds cs r).
  Proof.
    assert (Heq : forall x y : nat, Nat.eqb x y = true <-> x = y) by (intros; apply Nat.eqb_eq).
    destruct (Topo.Properties.topological_sort_correct _ _ Nat.eqb data_deps Heq (map (fun d => (dt_id d, d)) (data_types r))) as (ds & Ed & Sd).
    { rewrite map_map. cbn. exact data_ids. }
    destruct (Topo.Properties.topological_sort_correct _ _ Nat.eqb class_deps Heq (map (fun d => (cls_id d, d)) (classes r))) as (cs & Ec & Sc).
    { rewrite map_map. cbn. exact class_ids. }
    apply (sorted_ordered dt_id) in Sd; [|exact data_ids]. apply (sorted_ordered cls_id) in Sc; [|exact class_ids].
    exists ds, cs. split; [unfold root_groups; rewrite Ed; cbn; rewrite Ec; reflexivity|]. split; [exact Sd|split; [exact Sc|]].
    pose proof (groups_of_declared ds cs r (ord_all _ _ _ _ Sd) (ord_all _ _ _ _ Sc)) as P.
    apply uses_in_order.
    - rewrite app_nil_r. eapply Permutation_NoDup; [apply Permutation_sym; exact P|exact (sc_ids _ _ Hsc)].
    - intros c Hc. apply (sc_local _ _ Hsc). eapply Permutation_in; [exact P|exact Hc].
    - now apply groups_uses.
  Qed.
End Module.
