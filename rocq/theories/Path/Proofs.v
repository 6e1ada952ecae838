From Verif.Base Require Import BaseFacts.
From Verif.Path Require Import Model Spec.

Lemma find_slash_none t : find_slash t = None <-> ~ In (c_ "/") t.
Proof.
  induction t as [|c t IH]; cbn [find_slash In]; [split; [tauto|reflexivity]|].
  change c_slash with (c_ "/"). destruct (N.eqb_spec c (c_ "/")) as [->|Hne].
  - split; [discriminate|]. tauto.
  - destruct (find_slash t) as [[a b]|]; split; try discriminate; try tauto.
    + intros H. exfalso. destruct IH as [_ IH]. assert (~ In (c_ "/") t) by tauto. apply IH in H0. discriminate.
Qed.

Lemma find_slash_some t a b : find_slash t = Some (a, b) <-> t = a ++ c_ "/" :: b /\ ~ In (c_ "/") a.
Proof.
  revert a b. induction t as [|c t IH]; intros a b; cbn [find_slash].
  - split; [discriminate|]. intros [E _]. destruct a; discriminate.
  - change c_slash with (c_ "/"). destruct (N.eqb_spec c (c_ "/")) as [->|Hne].
    + split.
      * intros E; injection E as <- <-. split; [reflexivity|]. intros [].
      * intros [E Hn]. destruct a as [|x a]; [injection E as ->; reflexivity|].
        injection E as <- _. exfalso; apply Hn; left; reflexivity.
    + destruct (find_slash t) as [[a' b']|] eqn:E.
      * split.
        -- intros H; injection H as <- <-. destruct (IH a' b') as [IH1 _]. destruct (IH1 eq_refl) as [-> Hn].
           split; [reflexivity|]. intros [H|H]; [congruence|tauto].
        -- intros [H Hn]. destruct a as [|x a]; [injection H as Hc _; exfalso; exact (Hne Hc)|]. injection H as -> H.
           destruct (IH a b) as [_ IH2]. assert (Hx : Some (a', b') = Some (a, b)) by (apply IH2; split; [assumption|intros Hi; apply Hn; right; assumption]).
           injection Hx as -> ->. reflexivity.
      * split; [discriminate|]. intros [H Hn]. destruct a as [|x a]; [injection H as Hc _; exfalso; exact (Hne Hc)|]. injection H as -> H.
        destruct (IH a b) as [_ IH2]. discriminate IH2. split; [assumption|intros Hi; apply Hn; right; assumption].
Qed.

Lemma text_eqb_spec a b : reflect (a = b) (text_eqb a b).
Proof.
  destruct (text_eqb a b) eqn:E; constructor; [apply text_eqb_eq; assumption|].
  intros ->. rewrite text_eqb_refl in E. discriminate.
Qed.

Lemma is_valid_part_spec t : is_valid_part t = true <-> segment t.
Proof.
  unfold is_valid_part, segment. rewrite !andb_true_iff, !negb_true_iff. rewrite <- find_slash_none.
  destruct (text_eqb_spec t (t_ "~")), (text_eqb_spec t (t_ ".")), (text_eqb_spec t (t_ ".."));
    destruct t as [|c t]; destruct (find_slash _); intuition congruence.
Qed.

Lemma parse_package_spec t p : parse_package t = Ok p <-> package_text t p.
Proof.
  unfold parse_package, external. destruct (text_eqb_spec t (t_ "~")) as [->|Hn].
  - split; [intros E; injection E as <-; constructor|]. intros H; inversion H as [|n (_ & _ & Hs & _)]; [reflexivity|congruence].
  - destruct (is_valid_part t) eqn:E.
    + apply is_valid_part_spec in E. split; [intros H; injection H as <-; constructor; assumption|].
      intros H; inversion H; [congruence|reflexivity].
    + split; [discriminate|]. intros H; inversion H as [|n Hs]; subst; [congruence|].
      apply is_valid_part_spec in Hs. congruence.
Qed.

Lemma split_slash_slashed t ss : slashed t ss -> forall acc s0 rest, ss = s0 :: rest ->
  split_slash acc t = (acc ++ s0) :: rest.
Proof.
  assert (Happ : forall s acc t, ~ In (c_ "/") s -> split_slash acc (s ++ t) = split_slash (acc ++ s) t).
  { induction s as [|c s IH]; intros acc u Hn; cbn [app split_slash]; [rewrite app_nil_r; reflexivity|].
    change c_slash with (c_ "/"). destruct (N.eqb_spec c (c_ "/")) as [->|]; [exfalso; apply Hn; left; reflexivity|].
    rewrite IH by (intros H; apply Hn; right; assumption). rewrite <- app_assoc. reflexivity. }
  induction 1 as [s Hs|s t ss Hs Ht IH]; intros acc s0 rest E; injection E as <- <-.
  - rewrite <- (app_nil_r s) at 1. rewrite Happ by apply Hs. reflexivity.
  - rewrite Happ by apply Hs. cbn [split_slash]. rewrite N.eqb_refl. f_equal.
    inversion Ht as [s1 Hs1|s1 t1 ss1 Hs1 Ht1]; subst; rewrite (IH [] _ _ eq_refl); reflexivity.
Qed.

Lemma split_slash_sound t : forall acc, ~ In (c_ "/") acc -> Forall segment (split_slash acc t) ->
  slashed (acc ++ t) (split_slash acc t).
Proof.
  induction t as [|c t IH]; intros acc Ha Hf; cbn [split_slash] in *.
  - inversion Hf; subst. rewrite app_nil_r. constructor; assumption.
  - change c_slash with (c_ "/") in *. destruct (N.eqb_spec c (c_ "/")) as [->|Hn].
    + inversion Hf; subst. constructor; [assumption|]. apply (IH []); [intros []|assumption].
    + specialize (IH (acc ++ [c])). rewrite <- app_assoc in IH. apply IH; [|assumption].
      intros H. apply in_app_or in H as [H|[H|[]]]; congruence.
Qed.

Lemma slashed_segments t ss : slashed t ss -> Forall segment ss.
Proof. induction 1; constructor; auto. Qed.

Lemma from_parts_spec parts m : from_parts parts = Ok m <->
  (parts = [t_ "prelude"] /\ m = []) \/ (parts <> [t_ "prelude"] /\ m = parts /\ Forall segment parts).
Proof.
  unfold from_parts.
  assert (Hp : (match parts with [p] => text_eqb p (t_ "prelude") | _ => false end) = true <-> parts = [t_ "prelude"]).
  { destruct parts as [|p [|]]; try (split; discriminate). rewrite text_eqb_eq. split; [intros ->; reflexivity|congruence]. }
  destruct (match parts with [p] => text_eqb p (t_ "prelude") | _ => false end).
  - assert (E : parts = [t_ "prelude"]) by (apply Hp; reflexivity).
    split; [intros H; injection H as <-; left; auto|]. intros [[_ ->]|[H _]]; [reflexivity|contradiction].
  - assert (E : parts <> [t_ "prelude"]) by (intros H; apply Hp in H; discriminate).
    destruct (find (fun p => negb (is_valid_part p)) parts) as [p|] eqn:Ef.
    + split; [discriminate|]. intros [[H _]|(_ & _ & H)]; [contradiction|].
      apply find_some in Ef as [Hin Hv]. rewrite Forall_forall in H. apply H, is_valid_part_spec in Hin.
      rewrite Hin in Hv. discriminate.
    + split.
      * intros H; injection H as <-. right. split; [assumption|]. split; [reflexivity|].
        apply Forall_forall. intros x Hx. pose proof (find_none _ _ Ef x Hx) as Hv. apply is_valid_part_spec.
        cbn in Hv. destruct (is_valid_part x); [reflexivity|discriminate].
      * intros [[H _]|(_ & -> & _)]; [contradiction|reflexivity].
Qed.

Lemma prelude_segment : segment (t_ "prelude").
Proof. apply is_valid_part_spec. reflexivity. Qed.

Lemma parse_module_spec t m : parse_module t = Ok m <->
  (t = t_ "prelude" /\ m = []) \/ (slashed t m /\ m <> [t_ "prelude"]).
Proof.
  unfold parse_module. rewrite from_parts_spec. split.
  - intros [[E ->]|(Hn & -> & Hf)].
    + left. split; [|reflexivity].
      pose proof (split_slash_sound t [] (fun H => H)) as Hs. rewrite E in Hs.
      specialize (Hs (Forall_cons _ prelude_segment (Forall_nil _))). cbn [app] in Hs.
      inversion Hs as [|? ? ? ? Hx]; [reflexivity|]. subst. inversion Hx.
    + right. split; [apply (split_slash_sound t []); [intros []|assumption]|assumption].
  - intros [[-> ->]|[Hs Hn]]; [left; split; reflexivity|]. right.
    assert (E : split_slash [] t = m).
    { inversion Hs as [s0 Hs0|s0 t0 ss0 Hs0 Ht0]; subst; rewrite (split_slash_slashed _ _ Hs [] _ _ eq_refl); reflexivity. }
    rewrite E. split; [assumption|]. split; [reflexivity|]. eapply slashed_segments; exact Hs.
Qed.

Lemma package_text_no_slash t p : package_text t p -> ~ In (c_ "/") t.
Proof. intros H; inversion H as [|n (_ & Hn & _)]; subst; [|assumption]. cbn. intros [H1|[]]. discriminate. Qed.

Lemma parse_path_spec t p : parse_path t = Ok p <-> path_text t p.
Proof.
  unfold parse_path. split.
  - destruct (find_slash t) as [[a b]|] eqn:E.
    + apply find_slash_some in E as [-> Hn].
      destruct (parse_package a) as [pk|] eqn:Ep; [|discriminate]. apply parse_package_spec in Ep.
      destruct (parse_module b) as [m|] eqn:Em; [|discriminate]. apply parse_module_spec in Em.
      intros H; injection H as <-. destruct Em as [[-> ->]|[Hs Hm]].
      * apply pa_prelude; assumption.
      * apply pa_module; assumption.
    + destruct (parse_package t) as [pk|] eqn:Ep; [|discriminate]. apply parse_package_spec in Ep.
      intros H; injection H as <-. constructor; assumption.
  - intros H. inversion H as [u pk Hp E1 E2|u pk Hp E1 E2|u pk v m Hp Hs Hm E1 E2]; subst.
    + pose proof (package_text_no_slash _ _ Hp) as Hn. apply find_slash_none in Hn. rewrite Hn.
      apply parse_package_spec in Hp. rewrite Hp. reflexivity.
    + assert (E : find_slash (u ++ t_ "/prelude") = Some (u, t_ "prelude")).
      { apply find_slash_some. split; [reflexivity|]. eapply package_text_no_slash; exact Hp. }
      rewrite E. apply parse_package_spec in Hp. rewrite Hp. reflexivity.
    + assert (E : find_slash (u ++ c_ "/" :: v) = Some (u, v)).
      { apply find_slash_some. split; [reflexivity|]. eapply package_text_no_slash; exact Hp. }
      rewrite E. apply parse_package_spec in Hp. rewrite Hp.
      assert (Em : parse_module v = Ok m) by (apply parse_module_spec; right; auto). rewrite Em. reflexivity.
Qed.

Lemma valid_package_spec p : valid_package p <-> package_text (show_package p) p.
Proof.
  unfold valid_package. split.
  - intros [->|(n & E)]; [constructor|]. unfold external in E. destruct (is_valid_part n) eqn:Ev; [|discriminate].
    injection E as <-. cbn. constructor. apply is_valid_part_spec; assumption.
  - intros H. destruct p as [n|]; [|left; reflexivity]. right. exists n. cbn in H.
    inversion H as [|m Hs]; subst. unfold external. apply is_valid_part_spec in Hs. rewrite Hs. reflexivity.
Qed.

Lemma valid_module_spec m : valid_module m <-> Forall segment m /\ m <> [t_ "prelude"].
Proof.
  unfold valid_module. split.
  - intros [->|(parts & E)]; [split; [constructor|discriminate]|].
    apply from_parts_spec in E as [[_ ->]|(Hn & -> & Hf)]; [split; [constructor|discriminate]|auto].
  - intros [Hf Hn]. right. exists m. apply from_parts_spec. right. auto.
Qed.

Lemma join_slashed m : m <> [] -> Forall segment m -> slashed (join_slash m) m.
Proof.
  intros Hn Hf. induction Hf as [|s ss Hs Hf IH]; [congruence|]. destruct ss as [|s' ss].
  - constructor; assumption.
  - change (join_slash (s :: s' :: ss)) with (s ++ c_ "/" :: join_slash (s' :: ss)).
    constructor; [assumption|]. apply IH; discriminate.
Qed.

Lemma slashed_join t ss : slashed t ss -> join_slash ss = t.
Proof.
  induction 1 as [s Hs|s t ss Hs Ht IH]; [reflexivity|].
  destruct ss as [|s' ss]; [inversion Ht|].
  change (join_slash (s :: s' :: ss)) with (s ++ c_ "/" :: join_slash (s' :: ss)). rewrite IH. reflexivity.
Qed.

Lemma show_path_text p : valid_path p -> path_text (show_path p) p.
Proof.
  destruct p as [pk m]. intros [Hp Hm]. cbn [package module] in *. apply valid_package_spec in Hp. apply valid_module_spec in Hm as [Hf Hn].
  unfold show_path; cbn [package module]. destruct m as [|s m]; cbn [is_prelude].
  - constructor; assumption.
  - apply pa_module; [assumption| |assumption]. unfold show_module. apply join_slashed; [discriminate|assumption].
Qed.

Lemma show_parse p : valid_path p -> parse_path (show_path p) = Ok p.
Proof. intros H. apply parse_path_spec, show_path_text, H. Qed.

Lemma package_text_valid t p : package_text t p -> valid_package p.
Proof.
  intros [|n Hs]; [left; reflexivity|]. right; exists n; unfold external. apply is_valid_part_spec in Hs. rewrite Hs. reflexivity.
Qed.

Lemma path_text_valid t p : path_text t p -> valid_path p.
Proof.
  intros H. inversion H as [u pk Hp|u pk Hp|u pk v m Hp Hs Hm]; subst; (split; cbn [package module];
    [|apply valid_module_spec]).
  1,3,5: (eapply package_text_valid; exact Hp).
  1,2: split; [constructor|discriminate].
  split; [eapply slashed_segments; exact Hs|assumption].
Qed.

Lemma package_show t p : package_text t p -> show_package p = t.
Proof. intros H; inversion H; reflexivity. Qed.

Lemma parse_show t p : parse_path t = Ok p ->
  valid_path p /\ (t = show_path p \/ (module p = [] /\ t = show_path p ++ t_ "/prelude")).
Proof.
  intros H. apply parse_path_spec in H. split; [eapply path_text_valid; exact H|].
  inversion H as [u pk Hp|u pk Hp|u pk v m Hp Hs Hm]; subst; unfold show_path; cbn [package module is_prelude];
    rewrite ?(package_show _ _ Hp).
  - left; reflexivity.
  - right; split; reflexivity.
  - left. destruct m as [|s m]; [inversion Hs|]. cbn [is_prelude show_module].
    rewrite (slashed_join _ _ Hs). reflexivity.
Qed.

Lemma show_injective p q : valid_path p -> valid_path q -> show_path p = show_path q -> p = q.
Proof. intros Hp Hq E. apply show_parse in Hp, Hq. rewrite E in Hp. rewrite Hp in Hq. congruence. Qed.
