From Verif.Base Require Import Base BaseFacts VecFacts.
From Verif.Topo Require Model Spec Proofs Properties.
From Verif.KindInfer Require Import ProofsSort.
From Verif.Types Require Import Model.
From Verif.Instances Require Import Model Spec.
From Coq Require Import Permutation.

Section Hierarchy.
  Variable cs : list (N * list N).
  Hypothesis Hnd : NoDup (map fst cs).
  Notation needs_all := (needs_all (@fst N (list N)) (@snd N (list N)) cs).
  Notation needs := (needs (@fst N (list N)) (@snd N (list N)) cs).

  Lemma key_unique x a b : In (x, a) cs -> In (x, b) cs -> a = b.
  Proof.
    intros Ha Hb. clear -Hnd Ha Hb. induction cs as [|(y & l) r IH]; [destruct Ha|]. cbn in Hnd. apply NoDup_cons_iff in Hnd. destruct Hnd as (Hn & Hnd').
    destruct Ha as [Ha|Ha], Hb as [Hb|Hb]; try congruence; [| |auto]; exfalso; apply Hn.
    - injection Ha as -> _. change x with (fst (x, b)). apply in_map, Hb.
    - injection Hb as -> _. change x with (fst (x, a)). apply in_map, Ha.
  Qed.

  Lemma ancestor_needs x y : ancestor cs x y -> forall sy, In (y, sy) cs -> exists sx, In (x, sx) cs /\ needs_all (x, sx) (y, sy).
  Proof.
    intros H. induction H as [x y (ss & H1 & H2)|x y z _ IH1 _ IH2]; intros sy Hy.
    - exists ss. split; [exact H1|]. apply rt_step. split; [exact H1|]. split; [exact Hy|exact H2].
    - destruct (IH2 sy Hy) as (s1 & X1 & X2). destruct (IH1 s1 X1) as (s2 & X3 & X4). exists s2. split; [exact X3|]. eapply rt_trans; eauto.
  Qed.

  Lemma ancestor_in x y : ancestor cs x y -> exists sx, In (x, sx) cs.
  Proof. intros H. induction H as [x y (ss & H1 & _)|x y z _ IH1 _ _]; eauto. Qed.

  Lemma needs_ancestor v w : needs_all v w -> v = w \/ ancestor cs (fst v) (fst w).
  Proof.
    induction 1 as [v w (H1 & H2 & H3)|v|u v w _ IH1 _ IH2].
    - right. apply t_step. exists (snd v). split; [destruct v; exact H1|exact H3].
    - left. reflexivity.
    - destruct IH1 as [->|IH1]; [exact IH2|]. destruct IH2 as [<-|IH2]; [right; exact IH1|]. right. eapply t_trans; eauto.
  Qed.

  Lemma groups_of : exists groups, Topo.Model.run N.eqb (fun v : N * list N => snd v) (map (fun c => (fst c, c)) cs) = Ret groups /\ ordered fst snd cs groups.
  Proof.
    destruct (Topo.Properties.topological_sort_correct N (N * list N) N.eqb (fun v => snd v) N.eqb_eq (map (fun c => (fst c, c)) cs)) as (groups & H1 & H2).
    { rewrite map_map. exact Hnd. }
    exists groups. split; [exact H1|]. apply sorted_ordered; [exact Hnd|exact H2].
  Qed.

  Lemma hierarchy_exact : exists r, verify_classes_hierarchy cs = Ret r /\
    match r with
    | Ok => forall x y, ancestor cs x y -> ancestor cs y x -> x = y
    | Err g => (exists x y, In x g /\ In y g /\ x <> y) /\ (forall x y, In x g -> In y g -> x <> y -> ancestor cs x y)
    end.
  Proof.
    destruct groups_of as (groups & H1 & H2). unfold verify_classes_hierarchy. rewrite H1. cbn [bind].
    destruct (find (fun g => (2 <=? List.length g)%nat) groups) as [g|] eqn:E.
    - exists (Err (map fst g)). split; [reflexivity|]. apply find_some in E. destruct E as (Hg & Hlen). apply Nat.leb_le in Hlen.
      assert (Hsub : incl g cs). { intros v Hv. eapply Permutation_in; [exact (ord_all _ _ _ _ H2)|]. apply in_concat. exists g. auto. }
      assert (Hn : NoDup (map fst g)).
      { assert (Hall : NoDup (map fst (List.concat groups))). { eapply Permutation_NoDup; [apply Permutation_map, Permutation_sym, (ord_all _ _ _ _ H2)|exact Hnd]. }
        clear -Hall Hg. induction groups as [|h r IH]; [destruct Hg|]. cbn in Hall. rewrite map_app in Hall. destruct Hg as [->|Hg].
        - clear -Hall. induction (map fst g) as [|a l IHl]; [constructor|]. cbn in Hall. apply NoDup_cons_iff in Hall. destruct Hall as (A & B). constructor; [|auto].
          intros Ha. apply A, in_or_app. left. exact Ha.
        - apply IH; auto. clear -Hall. induction (map fst h) as [|a l IHl]; [exact Hall|]. apply IHl. cbn in Hall. apply NoDup_cons_iff in Hall. apply Hall. }
      split.
      + destruct g as [|v [|w g]]; cbn in Hlen; try lia. exists (fst v), (fst w). cbn in Hn. split; [left; reflexivity|]. split; [right; left; reflexivity|].
        apply NoDup_cons_iff in Hn. intros E. apply (proj1 Hn). left. auto.
      + intros x y Hx Hy Hne. apply in_map_iff in Hx, Hy. destruct Hx as (v & <- & Hv), Hy as (w & <- & Hw).
        destruct (proj1 (ord_class _ _ _ _ H2 g v w Hg Hv (Hsub w Hw)) Hw) as (X & _). destruct (needs_ancestor v w X) as [->|A]; [contradiction|exact A].
    - exists Ok. split; [reflexivity|]. intros x y Hxy Hyx. destruct (ancestor_in _ _ Hxy) as (sx & Hx), (ancestor_in _ _ Hyx) as (sy & Hy).
      destruct (ancestor_needs _ _ Hxy sy Hy) as (sx' & Hx' & N1). rewrite (key_unique x sx' sx Hx' Hx) in N1.
      destruct (ancestor_needs _ _ Hyx sx Hx) as (sy' & Hy' & N2). rewrite (key_unique y sy' sy Hy' Hy) in N2.
      assert (Hin : In (x, sx) (List.concat groups)) by (eapply Permutation_in; [apply Permutation_sym, (ord_all _ _ _ _ H2)|exact Hx]).
      apply in_concat in Hin. destruct Hin as (g & Hg & Hvg).
      pose proof (proj2 (ord_class _ _ _ _ H2 g _ _ Hg Hvg Hy) (conj N1 N2)) as Hwg.
      pose proof (find_none _ _ E g Hg) as Hl. apply Nat.leb_gt in Hl. destruct g as [|a [|b g]]; cbn in Hl; try lia; [destruct Hvg|].
      destruct Hvg as [->|[]], Hwg as [Ew|[]]. injection Ew as -> _. reflexivity.
  Qed.

  (** * The order of the classes *)
  Fixpoint place (x : N) (l : list (N * list N)) : nat :=
    match l with [] => O | v :: l => if (fst v =? x)%N then O else S (place x l) end.

  Lemma place_lt x l B : In x (map fst l) -> (place x (l ++ B) < List.length l)%nat.
  Proof.
    induction l as [|v l IH]; [intros []|]. cbn. destruct (N.eqb_spec (fst v) x) as [->|Hne]; [lia|]. intros [H|H]; [contradiction|]. specialize (IH H). lia.
  Qed.

  Lemma place_at l v B : NoDup (map fst (l ++ v :: B)) -> place (fst v) (l ++ v :: B) = List.length l.
  Proof.
    induction l as [|a l IH]; cbn; intros H; [rewrite N.eqb_refl; reflexivity|]. apply NoDup_cons_iff in H. destruct H as (H1 & H2).
    destruct (N.eqb_spec (fst a) (fst v)) as [E|_]; [|rewrite IH; auto]. exfalso. apply H1. rewrite E. apply in_map, in_or_app. right. left. reflexivity.
  Qed.

  Lemma singles {A} (groups : list (list A)) : Forall (fun g => g <> []) groups -> (forall g, In g groups -> (List.length g < 2)%nat) ->
    groups = map (fun x => [x]) (List.concat groups).
  Proof.
    induction groups as [|g groups IH]; intros H1 H2; [reflexivity|]. pose proof (H2 g (or_introl eq_refl)) as Hl. pose proof (Forall_inv H1) as Hn.
    destruct g as [|a [|b g]]; cbn in Hl; try lia; [contradiction|]. cbn. f_equal. apply IH; [exact (Forall_inv_tail H1)|]. intros g Hg. apply H2. right. exact Hg.
  Qed.

  Lemma hierarchy_order : verify_classes_hierarchy cs = Ret Ok -> (forall x, ~ superclass cs x x) ->
    exists rank : N -> nat, forall x y, In y (map fst cs) -> superclass cs x y -> (rank y < rank x)%nat.
  Proof.
    intros Hv Hself. destruct groups_of as (groups & H1 & H2). unfold verify_classes_hierarchy in Hv. rewrite H1 in Hv. cbn [bind] in Hv.
    destruct (find (fun g => (2 <=? List.length g)%nat) groups) as [g|] eqn:E; [discriminate|]. clear Hv.
    pose proof (singles groups (ord_nonempty _ _ _ _ H2) (fun g Hg => proj1 (Nat.leb_gt _ _) (find_none _ _ E g Hg))) as Hsing.
    set (l := List.concat groups) in *. pose proof (ord_all _ _ _ _ H2) as Hperm. fold l in Hperm.
    assert (Hnl : NoDup (map fst l)) by (eapply Permutation_NoDup; [apply Permutation_map, Permutation_sym, Hperm|exact Hnd]).
    exists (fun x => place x l). intros x y Hy (ss & Hx & Hs). apply in_map_iff in Hy. destruct Hy as ((y' & sy) & <- & Hy). cbn [fst] in *.
    assert (Hxl : In (x, ss) l) by (eapply Permutation_in; [apply Permutation_sym, Hperm|exact Hx]).
    apply in_split in Hxl. destruct Hxl as (A & B & El).
    assert (Hneed : needs_all (x, ss) (y', sy)) by (apply rt_step; split; [exact Hx|]; split; [exact Hy|exact Hs]).
    assert (Eg : groups = map (fun v => [v]) A ++ [(x, ss)] :: map (fun v => [v]) B) by (rewrite Hsing, El, map_app; reflexivity).
    pose proof (ord_before _ _ _ _ H2 _ _ _ (x, ss) (y', sy) Eg (or_introl eq_refl) Hneed) as Hin.
    rewrite concat_app in Hin. cbn [List.concat] in Hin. rewrite app_nil_r in Hin.
    assert (Hc : forall X : list (N * list N), List.concat (map (fun v => [v]) X) = X) by (induction X as [|a X IHX]; cbn; congruence).
    rewrite Hc in Hin. rewrite El. rewrite El in Hnl. pose proof (place_at A (x, ss) B Hnl) as P. cbn [fst] in P. rewrite P.
    apply place_lt. apply in_app_or in Hin. destruct Hin as [Hin|[Hin|[]]].
    - change y' with (fst (y', sy)). apply in_map, Hin.
    - exfalso. injection Hin as -> _. apply (Hself y'). exists ss. auto.
  Qed.
End Hierarchy.

(** The classes of a module, put on those it imports. *)
Lemma well_founded_all (D : decls) cs : NoDup (map fst cs) ->
  (forall x ss, In (x, ss) cs -> ss = map c_class (k_supers (classes D x))) ->
  verify_classes_hierarchy cs = Ret Ok -> (forall x, ~ superclass cs x x) ->
  (exists rank : N -> nat, forall cl c, ~ In cl (map fst cs) -> In c (k_supers (classes D cl)) -> ~ In (c_class c) (map fst cs) /\ (rank (c_class c) < rank cl)%nat) ->
  well_founded_classes D.
Proof.
  intros Hnd Hcs Hv Hself (r0 & H0). destruct (hierarchy_order cs Hnd Hv Hself) as (r1 & H1).
  set (top := S (list_max (map r0 (flat_map snd cs)))).
  exists (fun x => if existsb (N.eqb x) (map fst cs) then (top + r1 x)%nat else r0 x).
  assert (Hex : forall x, existsb (N.eqb x) (map fst cs) = true <-> In x (map fst cs)).
  { intros x. rewrite existsb_exists. split; [intros (y & Hy & E); apply N.eqb_eq in E; subst; exact Hy|]. intros Hx. exists x. split; [exact Hx|apply N.eqb_refl]. }
  intros cl c Hc. destruct (existsb (N.eqb cl) (map fst cs)) eqn:Ecl.
  - apply Hex in Ecl. apply in_map_iff in Ecl. destruct Ecl as ((x & ss) & Ex & Hx). cbn in Ex. subst x.
    assert (Hin : In (c_class c) ss) by (rewrite (Hcs _ _ Hx); apply in_map, Hc).
    destruct (existsb (N.eqb (c_class c)) (map fst cs)) eqn:Ec.
    + apply Hex in Ec. assert (X : (r1 (c_class c) < r1 cl)%nat) by (apply H1; [exact Ec|exists ss; auto]). lia.
    + assert (X : (r0 (c_class c) <= list_max (map r0 (flat_map snd cs)))%nat).
      { assert (Y : In (r0 (c_class c)) (map r0 (flat_map snd cs))) by (apply in_map, in_flat_map; exists (cl, ss); auto).
        pose proof (proj1 (list_max_le (map r0 (flat_map snd cs)) _) (le_n _)) as F. rewrite Forall_forall in F. exact (F _ Y). }
      unfold top. lia.
  - assert (Hncl : ~ In cl (map fst cs)) by (intros X; apply Hex in X; congruence). destruct (H0 cl c Hncl Hc) as (X & Y).
    destruct (existsb (N.eqb (c_class c)) (map fst cs)) eqn:Ec; [exfalso; apply X, Hex, Ec|exact Y].
Qed.
