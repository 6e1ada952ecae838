From Verif.Base Require Import Base BaseFacts VecFacts.
From Verif.Types Require Import Model Spec Proofs ProofsUnify ProofsMain ProofsApi ProofsReach.
From Verif.Instances Require Import Model Spec ProofsBase ProofsDecl ProofsLists ProofsOverlap ProofsSearch.

Section Build.
  Variable env : kind_env.
  Variable D : decls.
  Variable assumed : list constr.
  Variable pr : premise.
  Notation wf := (wf env).
  Notation later := (later env).
  Notation cok := (cok env D).
  Notation decl := (decl env D).
  Notation pok := (pok env D assumed pr).
  Notation post := (post env D assumed pr).

  Lemma pok_entries kap p : pok kap p -> Forall (eok env kap p (nparams D)) pr.
  Proof.
    intros (H & _). eapply Forall_impl; [|exact H]. intros e He. split; [apply (cok_typed env D) in He; exact He|]. eapply Forall2_len. exact He.
  Qed.

  Lemma build_step b f c count : search_ok env D assumed pr b f -> forall kap p checked, wf kap p -> decl kap p -> pok kap p -> cok kap p c -> (recursion_limit <? count)%N = false ->
    (forall n st c, f n st c = build D env pr n st c (count + 1)%N) ->
    exists kap' p' checked' r, conv (fun n => build D env pr n (p, checked) c count) (p', checked', r) /\ later kap p kap' p' /\ post (S b) p checked c p' checked' r.
  Proof.
    intros Hf kap p checked Hwf Hd Hp Hc Hcount Ef. destruct (canonical_exists p (proj1 Hwf)) as (s0 & Hcan).
    pose proof (cok_typed env D _ _ _ Hc) as Hct. pose proof (pok_entries kap p Hp) as Hpe.
    destruct (find_premise_ok env (nparams D) (c_class c) (c_args c) pr) with (kap := kap) (p := p) (s0 := s0) as (o & p1 & F1 & F2 & F3); auto.
    { eapply Forall2_len. exact Hc. }
    pose proof (proj1 (same_later env kap p p1 F2)) as L1. pose proof (proj2 (proj2 (proj2 L1))) as E1.
    destruct o as [e|].
    - exists kap, p1, checked, (Yes (ByPremise (e_id e) (e_path e))). split; [|split; [exact L1|split]].
      + eapply (conv_step _ _ _ (fun n => eq_refl)). cbn [build]. rewrite Hcount.
        eapply (conv_bind (fun n => find_premise n p pr (c_class c) (c_args c))); [exact F1|]. apply conv_ret.
      + intros s Hs. destruct F3 as (Hin & Ecl & Eargs). pose proof (E1 s (proj1 Hs)) as Hs0. destruct (proj2 Hp s Hs0 e Hin) as (a & Ha & Eid & Hl).
        rewrite <- Eid. eapply proves_premise; [exact Ha|rewrite <- Ecl; exact Hl|].
        rewrite Forall_forall in Hpe. apply (erase_all env kap p s0 s); auto. apply (Hpe e Hin).
      + intros _ Hch. eapply chk_mono; [exact E1|exact Hch].
    - destruct (ensure_ok env D assumed pr kap p1 checked (c_class c)) as (k2 & p2 & ch2 & r2 & G1 & L2 & G2).
      { apply L1. } { eapply decl_later; eauto. }
      pose proof (later_trans env _ _ _ _ _ _ L1 L2) as L12. pose proof (proj2 (proj2 (proj2 L12))) as E12.
      destruct r2 as [|err].
      + destruct G2 as (G2 & G3).
        destruct (try_ok env D assumed pr b f c (available D (c_class c)) Hf k2 p2 ch2) as (k3 & p3 & ch3 & r3 & T1 & T2 & T3); auto.
        { apply L12. } { eapply decl_later; eauto. } { eapply pok_later; eauto. } { eapply cok_later; eauto. } { apply incl_refl. }
        pose proof (proj2 (proj2 (proj2 T2))) as E3.
        exists k3, p3, ch3, r3. split; [|split; [eapply later_trans; eauto|]].
        * eapply (conv_step _ _ _ (fun n => eq_refl)). cbn [build]. rewrite Hcount.
          eapply (conv_bind (fun n => find_premise n p pr (c_class c) (c_args c))); [exact F1|]. cbn beta iota.
          eapply (conv_bind (fun n => ensure_overlap_checked D env n (p1, checked) (c_class c))); [exact G1|]. cbn beta iota.
          eapply conv_ext; [|exact T1]. intros n. cbn beta.
          generalize (available D (c_class c)) as l. generalize (p2, ch2) as st. clear -Ef.
          intros st l. revert st. induction l as [|i l IH]; intros [q ch]; [reflexivity|]. cbn [try_instances].
          destruct (instantiate_instance env n q (instances D i) bottom) as [[[inst tys] q1]| |]; cbn [bind]; auto.
          destruct (match_types_to_right env n q1 (i_target inst) c) as [[q2 [|e]]| |]; cbn [bind]; auto.
          match goal with |- bind ?x _ = bind ?y _ => assert (X : x = y) end.
          { generalize (q2, ch). generalize (i_s_params inst). clear -Ef. induction l as [|x l IH]; intros st; [reflexivity|]. cbn [all_satisfied]. rewrite Ef.
            destruct (build D env pr n st x (count + 1)%N) as [[st1 [e|e]]| |]; cbn [bind]; auto. rewrite IH. reflexivity. }
          rewrite X. reflexivity.
        * destruct r3 as [es|e3]; cbn [ProofsSearch.post post_try] in *.
          -- destruct T3 as (T3 & T4). split; [exact T3|]. intros Hg Hch. apply T4; [eapply gok_mono; eauto|].
             apply G3; [eapply gok_mono; eauto|eapply chk_mono; eauto].
          -- destruct T3 as (Y & T3). split; [intros Ee; destruct (Y Ee) as (cl & Z); exists cl; eapply overlaps_back; [|exact Z]; auto|].
             intros Hg Hch Hclosed s Hs d0 Hb Hgoal.
             assert (Hg2 : gok env D assumed pr p2) by (eapply gok_mono; eauto).
             assert (Hch2 : chk env D p2 ch2) by (apply G3; [eapply gok_mono; eauto|eapply chk_mono; eauto]).
             pose proof (T3 Hg2 Hch2 (closedc_mono _ _ _ E12 Hclosed) s Hs) as Hun0. pose proof (E12 s (E3 s (proj1 Hs))) as Hs0.
             unfold goal in Hgoal. inversion Hgoal as [d a path cl args args' Ha Hl Heq|d i tys cl args Hi Hk Ht HF]; subst.
             ++ destruct (proj1 (proj2 (proj2 Hg)) s Hs0 a path _ args' Ha Hl) as (e & He1 & He2 & He3).
                apply (F3 e He1 He2). pose proof (proj2 (proj2 (proj2 Hg)) e He1) as Hge.
                assert (X1 : map (interp s0) (e_args e) = map (interp s) (e_args e)).
                { apply map_ext_in. intros t Ht. rewrite Forall_forall in Hge. destruct (Hge t Ht) as (g & Hg1 & _). rewrite (Hg1 s Hs0), (Hg1 s0 (proj1 Hcan)). reflexivity. }
                rewrite X1, (closed_same p c s0 s Hclosed (proj1 Hcan) Hs0), He3. exact Heq.
             ++ refine (Hun0 d _ i tys Hi Hk Ht HF). destruct e3; cbn [bounded] in *; auto. lia.
      + exists k2, p2, ch2, (No OverlappingInstances). split; [|split; [exact L12|]].
        * eapply (conv_step _ _ _ (fun n => eq_refl)). cbn [build]. rewrite Hcount.
          eapply (conv_bind (fun n => find_premise n p pr (c_class c) (c_args c))); [exact F1|]. cbn beta iota.
          eapply (conv_bind (fun n => ensure_overlap_checked D env n (p1, checked) (c_class c))); [exact G1|]. apply conv_ret.
        * cbn [ProofsSearch.post]. split; [intros _; exists (c_class c); eapply overlaps_back; [|apply G2]; exact E1|]. intros _ _ _ s _ d [].
  Qed.

  Lemma build_ok count : search_ok env D assumed pr (N.to_nat (recursion_limit + 1 - count)) (fun n st c => build D env pr n st c count).
  Proof.
    remember (N.to_nat (recursion_limit + 1 - count)) as k eqn:Ek. revert count Ek. induction k as [|k IH]; intros count Ek kap p checked c Hwf Hd Hp Hc.
    - assert (Hcount : (recursion_limit <? count)%N = true) by (apply N.ltb_lt; lia).
      exists kap, p, checked, (No RecursionLimitExceeded). split; [|split; [apply later_refl, Hwf|]].
      2:{ split; [discriminate|]. intros _ _ _ s _ d Hb Hg. cbn [bounded] in Hb. assert (d = O) as -> by lia. inversion Hg. }
      eapply (conv_step _ _ _ (fun n => eq_refl)). cbn [build]. rewrite Hcount. apply conv_ret.
    - assert (Hcount : (recursion_limit <? count)%N = false) by (apply N.ltb_ge; lia).
      refine (build_step k (fun n st c => build D env pr n st c (count + 1)%N) c count _ kap p checked Hwf Hd Hp Hc Hcount (fun _ _ _ => eq_refl)).
      apply IH. lia.
  Qed.
End Build.
