From Verif.Base Require Import Base BaseFacts VecFacts.
From Verif.Types Require Import Model Spec Proofs ProofsUnify.

(** [unify] and [match_to_right] are instances of one function. *)
Fixpoint gun (strict : bool) (levels : nat -> context -> ty -> level -> outcome (context * result error))
    (env : kind_env) (fuel : nat) (pool : context) (a b : ty) : outcome (context * result error) :=
  match fuel with
  | O => OutOfFuel
  | S fuel =>
    let* r := resolve fuel pool a in
    let '(a, pool) := r in
    let* r := resolve fuel pool b in
    let '(b, pool) := r in
    if ty_eqb a b then Ret (pool, Ok)
    else match a, b with
         | YVar v k lv, t => bind_var env levels fuel pool v k lv t
         | YApp a_callee a_args, YApp b_callee b_args =>
           if negb (Nat.eqb (vars_len a_args) (vars_len b_args)) then Ret (pool, Err Mismatch)
           else
             let* r := gun strict levels env fuel pool (at_ a_callee) (at_ b_callee) in
             match r with
             | (pool, Ok) =>
               for_each (fun pool ab => gun strict levels env fuel pool (at_ (fst ab)) (at_ (snd ab))) pool
                        (combine (vars_iter a_args) (vars_iter b_args))
             | (pool, Err e) => Ret (pool, Err e)
             end
         | t, YVar v k lv => if strict then Ret (pool, Err Mismatch) else bind_var env levels fuel pool v k lv t
         | _, _ => Ret (pool, Err Mismatch)
         end
  end.

Lemma for_each_ext {A C E} (f g : C -> A -> outcome (C * result E)) l : (forall c a, f c a = g c a) -> forall c, for_each f c l = for_each g c l.
Proof.
  intros H. induction l as [|x l IH]; intros c; [reflexivity|]. cbn [for_each]. rewrite H.
  destruct (g c x) as [[c' [|e]]| |]; cbn [bind]; auto.
Qed.

Lemma unify_gun env n : forall p a b, unify env n p a b = gun false adjust_level env n p a b.
Proof.
  induction n as [|n IH]; intros p a b; [reflexivity|]. cbn [unify gun].
  destruct (resolve n p a) as [(a1 & p1)| |]; cbn [bind]; try reflexivity.
  destruct (resolve n p1 b) as [(b1 & p2)| |]; cbn [bind]; try reflexivity.
  destruct (ty_eqb a1 b1); [reflexivity|]. destruct a1; try reflexivity; destruct b1; try reflexivity.
  destruct (negb _); [reflexivity|]. rewrite IH. destruct (gun false adjust_level env n p2 _ _) as [(p3 & [|e])| |]; cbn [bind]; try reflexivity.
  apply for_each_ext. intros c ab. apply IH.
Qed.

Lemma match_gun env n : forall p a b, match_to_right env n p a b = gun true deny_adjust_required_level env n p a b.
Proof.
  induction n as [|n IH]; intros p a b; [reflexivity|]. cbn [match_to_right gun].
  destruct (resolve n p a) as [(a1 & p1)| |]; cbn [bind]; try reflexivity.
  destruct (resolve n p1 b) as [(b1 & p2)| |]; cbn [bind]; try reflexivity.
  destruct (ty_eqb a1 b1); [reflexivity|]. destruct a1; try reflexivity; destruct b1; try reflexivity.
  destruct (negb _); [reflexivity|]. rewrite IH. destruct (gun true deny_adjust_required_level env n p2 _ _) as [(p3 & [|e])| |]; cbn [bind]; try reflexivity.
  apply for_each_ext. intros c ab. apply IH.
Qed.

Lemma ground_mono p p' t : (forall s, equations p' s -> equations p s) -> ground p t -> ground p' t.
Proof. intros H (g & H1 & H2). exists g. split; auto. Qed.

Lemma ground_child p callee args j : shaped p -> tchild (YApp callee args) j -> ground p (YApp callee args) -> ground p (at_ j).
Proof.
  intros Hwf Hj (g & H1 & H2). destruct (canonical_exists p Hwf) as (s & Hs & _). pose proof (H1 s Hs) as E.
  exists (s j). split.
  - intros s' Hs'. pose proof (H1 s' Hs') as E'. rewrite <- E in E'. cbn [interp at_] in *. injection E' as Ec Ea.
    destruct Hj as [->|Hj]; [exact Ec|].
    apply ext_in_map with (a := j) in Ea; [exact Ea|exact Hj].
  - intros n k lv Hin. apply (H2 n k lv). rewrite <- E. cbn [interp leaves]. apply in_app_iff.
    destruct Hj as [->|Hj]; [left; exact Hin|right]. apply in_flat_map. exists (s j). split; [apply in_map, Hj|exact Hin].
Qed.

Section Main.
  Variable env : kind_env.
  Variable kap : var -> ast_kind.
  Variable strict : bool.
  Variable levels : nat -> context -> ty -> level -> outcome (context * result error).
  Hypothesis HL : levels_spec env kap strict levels.
  Notation hask := (hask env kap).
  Notation wf := (wf env kap).
  Notation same := (same env kap).
  Notation extends := (extends env kap).
  Notation exact_for := (exact_for env).
  Notation gun := (gun strict levels env).

  Definition typed (p : context) (t : ty) : Prop := tbound (len p) t /\ exists K, hask t K.

  Definition gun_spec (p : context) (a b : ty) : Prop :=
    exists p' r, conv (fun n => gun n p a b) (p', r) /\ extends p p' /\
      exact_for (strict = false \/ ground p b) p (fun s => interp s a = interp s b) p' r.

  Lemma at_typed p j : (j < len p)%nat -> typed p (at_ j).
  Proof. intros H. split; [intros x ->; exact H|]. exists (kap j). reflexivity. Qed.

  Lemma gun_list_ok U m ps :
    (forall p a b, wf p -> typed p a -> typed p b -> (count p < U)%nat -> gun_spec p a b) ->
    (forall p a b s, wf p -> typed p a -> typed p b -> (count p <= U)%nat -> equations p s ->
       (size (interp s a) < m)%nat -> gun_spec p a b) ->
    forall p, wf p -> (forall ab, In ab ps -> (fst ab < len p)%nat /\ (snd ab < len p)%nat) -> (count p <= U)%nat ->
    ((count p < U)%nat \/ exists s, equations p s /\ forall ab, In ab ps -> (size (s (fst ab)) < m)%nat) ->
    exists p' r, conv (fun n => for_each (fun pool ab => gun n pool (at_ (fst ab)) (at_ (snd ab))) p ps) (p', r) /\
      extends p p' /\
      exact_for (strict = false \/ forall ab, In ab ps -> ground p (at_ (snd ab))) p (fun s => forall ab, In ab ps -> s (fst ab) = s (snd ab)) p' r.
  Proof.
    intros HU Hm. induction ps as [|(a, b) ps IH]; intros p Hwf Hb HcU Hs.
    - exists p, Ok. split; [apply conv_ret|]. split; [apply same_extends, same_refl, Hwf|]. cbn. intros s. split; [|tauto].
      split; [|tauto]. intros H. split; [exact H|]. intros ab [].
    - assert (Hab : gun_spec p (at_ a) (at_ b)).
      { destruct (Hb (a, b) (or_introl eq_refl)) as (H1 & H2). cbn in H1, H2.
        destruct Hs as [Hs|(s & Hsol & Hs)].
        - apply HU; auto; apply at_typed; assumption.
        - apply (Hm p (at_ a) (at_ b) s); auto; [apply at_typed; assumption..|]. exact (Hs (a, b) (or_introl eq_refl)). }
      destruct Hab as (p1 & r & Hc1 & He1 & Hx1). pose proof He1 as (Hl1 & Hwf1 & _ & Heqs1 & Hprog).
      pose proof (extends_count env kap _ _ He1) as Hcnt. destruct r as [|e].
      + destruct (IH p1) as (p2 & r & Hc2 & He2 & Hx2).
        * exact Hwf1.
        * intros ab Hin. rewrite Hl1. apply Hb. right. exact Hin.
        * lia.
        * destruct Hprog as [Hsame|Hlt]; [|left; lia]. destruct Hs as [Hs|(s & Hsol & Hs)]; [left; lia|right].
          exists s. split; [apply Hsame, Hsol|]. intros ab Hin. apply Hs. right. exact Hin.
        * exists p2, r. split; [|split; [eapply extends_trans; eauto|]].
          -- cbn [for_each]. eapply (conv_bind (fun n => gun n p (at_ (fst (a, b))) (at_ (snd (a, b))))); [exact Hc1|]. exact Hc2.
          -- cbn [ProofsUnify.exact_for interp at_] in Hx1. destruct r as [|[]]; cbn [ProofsUnify.exact_for] in *.
             ++ intros s. destruct (Hx1 s) as (X1 & X2). destruct (Hx2 s) as (Y1 & Y2). split.
                ** rewrite Y1, X1. split.
                   --- intros ((H1 & H2) & H3). split; [exact H1|]. intros ab [<-|Hin]; [exact H2|exact (H3 ab Hin)].
                   --- intros (H1 & H2). split; [split; [exact H1|exact (H2 _ (or_introl eq_refl))]|]. intros ab Hin. apply H2. right. exact Hin.
                ** intros H2. rewrite (Y2 H2). apply X2. apply Y1, H2.
             ++ intros s Hsol H. apply (Hx2 s).
                ** apply (Hx1 s). split; [exact Hsol|exact (H _ (or_introl eq_refl))].
                ** intros ab Hin. apply H. right. exact Hin.
             ++ intros HC s (Hsol & Hf) H. assert (Hs1 : equations p1 s) by (apply (Hx1 s); split; [exact Hsol|exact (H _ (or_introl eq_refl))]).
                apply (Hx2 ltac:(destruct HC as [HC|HC]; [left; exact HC|right; intros ab Hin; eapply ground_mono; [exact Heqs1|apply HC; right; exact Hin]]) s).
                ** split; [exact Hs1|]. apply (proj2 (Hx1 s) Hs1), Hf.
                ** intros ab Hin. apply H. right. exact Hin.
      + exists p1, (Err e). split; [|split; [exact He1|]].
        * cbn [for_each]. eapply (conv_bind (fun n => gun n p (at_ (fst (a, b))) (at_ (snd (a, b))))); [exact Hc1|]. apply conv_ret.
        * cbn [ProofsUnify.exact_for interp at_] in *. destruct e.
          -- intros s Hsol H. apply (Hx1 s Hsol). exact (H _ (or_introl eq_refl)).
          -- intros HC s Hsol H. apply (Hx1 ltac:(destruct HC as [HC|HC]; [left; exact HC|right; exact (HC _ (or_introl eq_refl))]) s Hsol).
             exact (H _ (or_introl eq_refl)).
  Qed.

  Lemma gun_ok_sized U : forall m p a b s, wf p -> typed p a -> typed p b -> (count p <= U)%nat ->
    equations p s -> (size (interp s a) < m)%nat -> gun_spec p a b.
  Proof.
    induction U as [U IHU] using (well_founded_induction lt_wf).
    induction m as [|m IHm]; intros p a b s Hwf Ha Hb HU Hsol Hm; [lia|].
    assert (HltU : forall p a b, wf p -> typed p a -> typed p b -> (count p < U)%nat -> gun_spec p a b).
    { clear -IHU. intros p a b Hwf Ha Hb Hlt. destruct (canonical_exists p (proj1 Hwf)) as (s & Hs & _).
      apply (IHU (count p) Hlt (S (size (interp s a))) p a b s); auto. }
    destruct (resolve_ok env kap p a Hwf (proj1 Ha)) as (a1 & p1 & Hr1 & Hs1 & Hn1 & Hk1 & Hi1).
    pose proof Hs1 as (Hl1 & Hwf1 & Heq1 & _).
    destruct (resolve_ok env kap p1 b Hwf1) as (b1 & p2 & Hr2 & Hs2 & Hn2 & Hk2 & Hi2); [rewrite Hl1; apply Hb|].
    pose proof Hs2 as (Hl2 & Hwf2 & Heq2 & _). pose proof (same_trans env kap _ _ _ Hs1 Hs2) as Hs12.
    pose proof (same_normal env kap _ _ _ Hs2 Hn1) as Hn1'. pose proof Hs12 as (Hl12 & _ & Heq12 & _).
    assert (Hka : exists K, hask a1 K) by (destruct (proj2 Ha) as (K & HK); eauto).
    assert (Hkb : exists K, hask b1 K) by (destruct (proj2 Hb) as (K & HK); eauto).
    assert (Hsol' : forall s, equations p s -> (interp s a1 = interp s b1 <-> interp s a = interp s b)).
    { intros s' Hs'. rewrite (Hi1 s' Hs'), (Hi2 s'); [reflexivity|]. apply Heq1, Hs'. }
    assert (Hgr : ground p b -> ground p2 b1).
    { intros (g & H1 & H2). exists g. split; [|exact H2]. intros s' Hs'. apply Heq12 in Hs'. rewrite (Hi2 s'); [apply H1, Hs'|apply Heq1, Hs']. }
    assert (Hm1 : (size (interp s a1) <= m)%nat) by (rewrite (Hi1 s Hsol); lia).
    assert (Hwrap : forall body, (exists p' r, conv body (p', r) /\ extends p2 p' /\ exact_for (strict = false \/ ground p2 b1) p2 (fun s => interp s a1 = interp s b1) p' r) ->
      (forall n, (if ty_eqb a1 b1 then Ret (p2, Ok)
      else match a1, b1 with
           | YVar v k lv, t => bind_var env levels n p2 v k lv t
           | YApp a_callee a_args, YApp b_callee b_args =>
             if negb (Nat.eqb (vars_len a_args) (vars_len b_args)) then Ret (p2, Err Mismatch)
             else
               let* r := gun n p2 (at_ a_callee) (at_ b_callee) in
               match r with
               | (pool, Ok) =>
                 for_each (fun pool ab => gun n pool (at_ (fst ab)) (at_ (snd ab))) pool
                          (combine (vars_iter a_args) (vars_iter b_args))
               | (pool, Err e) => Ret (pool, Err e)
               end
           | t, YVar v k lv => if strict then Ret (p2, Err Mismatch) else bind_var env levels n p2 v k lv t
           | _, _ => Ret (p2, Err Mismatch)
           end) = body n) -> gun_spec p a b).
    { intros body (p' & r & Hc & He & Hx) Eb. exists p', r. split; [|split].
      - eapply conv_step; [intros n; reflexivity|]. eapply (conv_bind (fun n => resolve n p a)); [exact Hr1|]. cbn beta iota.
        eapply (conv_bind (fun n => resolve n p1 b)); [exact Hr2|]. cbn beta iota.
        eapply conv_ext; [exact Eb|]. exact Hc.
      - eapply extends_trans; [apply same_extends, Hs12|exact He].
      - eapply (exact_same env kap _ _ p p2); [|exact Hs12|eapply exact_ext; [|exact Hx]].
        + tauto.
        + intros s' Hs'. apply Hsol'. apply Heq12, Hs'. }
    pose proof (count_le p p2 (proj1 Hs12)) as Hcnt. specialize (Hcnt ltac:(intros i; apply (same_unres env kap p p2 i Hs12))).
    destruct (ty_eqb a1 b1) eqn:Eab.
    { apply ty_eqb_eq in Eab. subst b1. eapply Hwrap; [|intros n; reflexivity]. exists p2, Ok. split; [apply conv_ret|].
      split; [apply same_extends, same_refl, Hwf2|]. cbn. intros s'. tauto. }
    assert (Hmis : (strict = false \/ ground p2 b1 -> forall s, solution env p2 s -> interp s a1 <> interp s b1) ->
      exists p' r, conv (fun _ => Ret (p2, Err Mismatch)) (p', r) /\ extends p2 p' /\
      exact_for (strict = false \/ ground p2 b1) p2 (fun s => interp s a1 = interp s b1) p' r).
    { intros H. exists p2, (Err Mismatch). split; [apply conv_ret|]. split; [apply same_extends, same_refl, Hwf2|]. exact H. }
    assert (Hvne : forall v k lv t, normal p2 (YVar v k lv) -> normal p2 t -> YVar v k lv <> t -> forall k' lv', t <> YVar v k' lv').
    { intros v k lv t (_ & H1) (_ & H2) Hne k' lv' ->. cbn in H1, H2. unfold unresolved in *. congruence. }
    assert (Hnab : a1 <> b1) by (intros H; apply ty_eqb_eq in H; congruence).
    assert (Hvar2 : forall t w k' lv', normal p2 (YVar w k' lv') -> normal p2 t -> (exists K, hask t K) -> t <> YVar w k' lv' ->
      exists p' r, conv (fun n => if strict then Ret (p2, Err Mismatch) else bind_var env levels n p2 w k' lv' t) (p', r) /\
      extends p2 p' /\ exact_for (strict = false \/ ground p2 (YVar w k' lv')) p2 (fun s => interp s t = interp s (YVar w k' lv')) p' r).
    { clear -HL Hwf2 Hvne. intros t w k' lv' Hw Ht (K & HK) Hne. destruct strict.
      - exists p2, (Err Mismatch). split; [apply conv_ret|]. split; [apply same_extends, same_refl, Hwf2|].
        intros [HC|(g0 & HC1 & HC2)]; [discriminate|]. exfalso. destruct (canonical_exists p2 (proj1 Hwf2)) as (s2 & Hs2e & Hs2u).
        apply (HC2 w k' lv'). rewrite <- (HC1 s2 Hs2e). cbn [interp]. rewrite (Hs2u w k' lv' (proj2 Hw)). left. reflexivity.
      - destruct (bind_ok env kap false levels p2 w k' lv' t K HL Hwf2 (proj2 Hw) Ht HK (Hvne w k' lv' t Hw Ht ltac:(congruence)))
          as (p' & r & H1 & H2 & H3).
        exists p', r. split; [exact H1|]. split; [exact H2|].
        eapply (exact_same env kap _ (false = false \/ ground p2 t)); [intros _; left; reflexivity|apply same_refl; exact Hwf2|]. eapply exact_ext; [|exact H3].
        intros s' _. split; intros E; symmetry; exact E. }
    destruct a1 as [v k lv|c|a_callee a_args|g lv].
    1: { eapply Hwrap; [|intros n; reflexivity]. destruct Hkb as (K & HK).
      destruct (bind_ok env kap strict levels p2 v k lv b1 K HL Hwf2 (proj2 Hn1') Hn2 HK) as (p' & r & H1 & H2 & H3).
      - eapply Hvne; eauto.
      - exists p', r. split; [exact H1|]. split; [exact H2|]. exact H3. }
    all: destruct b1 as [w k' lv'|c'|b_callee b_args|g' lv'];
      try (eapply Hwrap; [apply Hmis; intros _ s' _; cbn [interp]; congruence|intros n; reflexivity]).
    all: try (eapply Hwrap; [|intros n; reflexivity]; apply (Hvar2 _ w k' lv'); auto; congruence).
    destruct (Nat.eqb_spec (vars_len a_args) (vars_len b_args)) as [Hlen|Hlen].
    2: { eapply Hwrap; [apply Hmis|intros n; cbn [negb]; reflexivity]. intros _ s' _ H. cbn [interp] in H.
         injection H as _ H. apply Hlen. rewrite <- !vars_iter_length. rewrite <- (map_length s' (vars_iter a_args)), H. apply map_length. }
    eapply Hwrap; [|intros n; cbn [negb]; reflexivity].
    assert (Hca : tchild (YApp a_callee a_args) a_callee) by (left; reflexivity).
    assert (Hcb : tchild (YApp b_callee b_args) b_callee) by (left; reflexivity).
    assert (Hcal : gun_spec p2 (at_ a_callee) (at_ b_callee)).
    { apply (IHm p2 (at_ a_callee) (at_ b_callee) s); auto.
      - apply at_typed. apply (proj1 Hn1'), Hca.
      - apply at_typed. apply (proj1 Hn2), Hcb.
      - lia.
      - apply Heq12, Hsol.
      - pose proof (interp_child_size s _ _ Hca). specialize (H ltac:(discriminate)). cbn [interp at_] in *. lia. }
    destruct Hcal as (p3 & r3 & Hc3 & He3 & Hx3). pose proof He3 as (Hl3 & Hwf3 & _ & Heqs3 & Hprog).
    pose proof (extends_count env kap _ _ He3) as Hcnt3.
    assert (Hlens : List.length (vars_iter a_args) = List.length (vars_iter b_args)) by (rewrite !vars_iter_length; exact Hlen).
    assert (HC0 : strict = false \/ ground p2 (YApp b_callee b_args) -> strict = false \/ ground p2 (at_ b_callee)).
    { intros [HC|HC]; [left; exact HC|right]. eapply ground_child; eauto. apply Hwf2. }
    destruct r3 as [|e].
    2: { exists p3, (Err e). split; [|split; [exact He3|]].
      - eapply (conv_bind (fun n => gun n p2 (at_ a_callee) (at_ b_callee))); [exact Hc3|]. apply conv_ret.
      - cbn [ProofsUnify.exact_for interp at_] in *. destruct e.
        + intros s' Hs' H. injection H as H2 H3. exact (Hx3 s' Hs' H2).
        + intros HC s' Hs' H. injection H as H2 H3. exact (Hx3 (HC0 HC) s' Hs' H2). }
    destruct (gun_list_ok U m (combine (vars_iter a_args) (vars_iter b_args)) HltU (fun p a b s => IHm p a b s) p3)
      as (p4 & r4 & Hc4 & He4 & Hx4).
    { exact Hwf3. }
    { intros (x, y) Hin. cbn. rewrite Hl3. split; [apply (proj1 Hn1')|apply (proj1 Hn2)]; right;
        [eapply in_combine_l|eapply in_combine_r]; eauto. }
    { lia. }
    { destruct Hprog as [Hsame|Hlt]; [right|left; lia]. exists s. split; [apply Hsame, Heq12, Hsol|]. intros (x, y) Hin. cbn.
      assert (Hx : tchild (YApp a_callee a_args) x) by (right; eapply in_combine_l; eauto).
      pose proof (interp_child_size s _ x Hx). specialize (H ltac:(discriminate)). lia. }
    exists p4, r4. split; [|split; [eapply extends_trans; eauto|]].
    - eapply (conv_bind (fun n => gun n p2 (at_ a_callee) (at_ b_callee))); [exact Hc3|]. exact Hc4.
    - cbn [ProofsUnify.exact_for interp at_] in Hx3. cbn [interp]. destruct r4 as [|[]]; cbn [ProofsUnify.exact_for] in *.
      + intros s'. destruct (Hx3 s') as (X1 & X2). destruct (Hx4 s') as (Y1 & Y2). split.
        * rewrite Y1, X1, <- (map_combine_eq s' _ _ Hlens). split.
          -- intros ((H1 & H2) & H3). split; [exact H1|congruence].
          -- intros (H1 & H2). injection H2 as H2 H3. auto.
        * intros H4. rewrite (Y2 H4). apply X2. apply Y1, H4.
      + intros s' Hs' H. injection H as H2 H3. apply (Hx4 s'); [apply (Hx3 s'); auto|]. apply (map_combine_eq s' _ _ Hlens), H3.
      + intros HC s' (Hs' & Hf) H. injection H as H2 H3. assert (Hs3 : equations p3 s') by (apply (Hx3 s'); auto).
        apply (Hx4 ltac:(destruct HC as [HC|HC]; [left; exact HC|right; intros (x, y) Hin; eapply ground_mono; [exact Heqs3|];
          eapply ground_child; [apply Hwf2| |exact HC]; right; eapply in_combine_r; eauto]) s').
        * split; [exact Hs3|]. apply (proj2 (Hx3 s') Hs3), Hf.
        * apply (map_combine_eq s' _ _ Hlens), H3.
  Qed.

  Lemma gun_ok p a b : wf p -> typed p a -> typed p b -> gun_spec p a b.
  Proof.
    intros Hwf Ha Hb. destruct (canonical_exists p (proj1 Hwf)) as (s & Hs & _).
    exact (gun_ok_sized (count p) (S (size (interp s a))) p a b s Hwf Ha Hb (le_n _) Hs (le_n _)).
  Qed.
End Main.
