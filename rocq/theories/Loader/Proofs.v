From Verif.Base Require Import BaseFacts.
From Verif.Path Require Import Model Spec Proofs.
From Verif.Loader Require Import Model Spec.

Lemma package_eqb_eq a b : package_eqb a b = true <-> a = b.
Proof.
  destruct a as [a|], b as [b|]; cbn; try (split; congruence). rewrite text_eqb_eq. split; [intros ->; reflexivity|congruence].
Qed.
Lemma package_eqb_spec a b : reflect (a = b) (package_eqb a b).
Proof. apply iff_reflect. symmetry. apply package_eqb_eq. Qed.
Lemma module_eqb_spec a b : reflect (a = b) (module_eqb a b).
Proof.
  apply iff_reflect. symmetry. revert b. induction a as [|x a IH]; intros [|y b]; cbn; try (split; congruence).
  rewrite andb_true_iff, text_eqb_eq, IH. split; [intros [-> ->]; reflexivity|]. intros H; injection H as -> ->. auto.
Qed.

Section Loader.
  Context {A : Type}.

  Lemma for_package_dec p (r : @request A) : for_package p r \/ ~ for_package p r.
  Proof. destruct r as [q x|q s]; cbn; [destruct (package_eqb_spec q p)|destruct (package_eqb_spec (package q) p)]; auto. Qed.

  (** The state of one package as a function of the requests. *)
  Definition pstate (o : option (@loadable_package A)) (p : package_name) (r : request) : option loadable_package :=
    match r with
    | AddPackage q x => if package_eqb q p then match o with None => Some x | _ => o end else o
    | AddSource q s =>
      if package_eqb (package q) p then
        match o with
        | None => Some (InMemory [(module q, s)])
        | Some (InMemory m) => Some (InMemory ((module q, s) :: m))
        | Some (FileSystem _) => o
        end
      else o
    end.

  Lemma register_lookup l r p : lookup_package (register l r) p = pstate (lookup_package l p) p r.
  Proof.
    destruct r as [q x|q s]; cbn [register pstate].
    - unfold add_package. destruct (package_eqb_spec q p) as [->|Hn].
      + destruct (lookup_package l p) eqn:E; cbn [snd]; [assumption|]. cbn [lookup_package].
        destruct (package_eqb_spec p p); [reflexivity|contradiction].
      + destruct (lookup_package l q); cbn [snd lookup_package]; [reflexivity|].
        destruct (package_eqb_spec p q); [congruence|reflexivity].
    - unfold add_source. destruct (package_eqb_spec (package q) p) as [<-|Hn].
      + destruct (lookup_package l (package q)) as [[m|root]|] eqn:E; cbn [snd lookup_package]; try assumption;
          destruct (package_eqb_spec (package q) (package q)); (reflexivity || contradiction).
      + destruct (lookup_package l (package q)) as [[m|root]|]; cbn [snd lookup_package]; try reflexivity;
          destruct (package_eqb_spec p (package q)); (reflexivity || congruence).
  Qed.

  Lemma register_all_lookup rs l p : lookup_package (fold_left register rs l) p =
    fold_left (fun o r => pstate o p r) rs (lookup_package l p).
  Proof. revert l. induction rs as [|r rs IH]; intros l; cbn [fold_left]; [reflexivity|]. rewrite IH, register_lookup. reflexivity. Qed.

  Lemma pstate_skip rs p o : (forall r, In r rs -> ~ for_package p r) -> fold_left (fun o r => pstate o p r) rs o = o.
  Proof.
    revert o. induction rs as [|r rs IH]; intros o H; cbn [fold_left]; [reflexivity|].
    rewrite IH by (intros r' Hr; apply H; right; assumption). specialize (H r (or_introl eq_refl)).
    destruct r as [q x|q s]; cbn [pstate for_package] in *; [destruct (package_eqb_spec q p)|destruct (package_eqb_spec (package q) p)];
      (contradiction || reflexivity).
  Qed.

  Lemma pstate_files rs p root : fold_left (fun o r => pstate o p r) rs (Some (FileSystem root)) = Some (FileSystem root).
  Proof.
    induction rs as [|r rs IH]; cbn [fold_left]; [reflexivity|].
    assert (E : pstate (Some (FileSystem root)) p r = Some (FileSystem root)).
    { destruct r as [q x|q s]; cbn [pstate]; [destruct (package_eqb q p)|destruct (package_eqb (package q) p)]; reflexivity. }
    rewrite E. exact IH.
  Qed.

  Lemma pstate_memory rs p m : fold_left (fun o r => pstate o p r) rs (Some (InMemory m)) = Some (InMemory (added p rs m)).
  Proof.
    revert m. induction rs as [|r rs IH]; intros m; cbn [fold_left added]; [reflexivity|].
    destruct r as [q x|q s]; cbn [pstate].
    - replace (if package_eqb q p then _ else _) with (Some (InMemory m)) by (destruct (package_eqb q p); reflexivity). apply IH.
    - destruct (package_eqb (package q) p); apply IH.
  Qed.

  Lemma pstate_first p (r : @request A) : for_package p r -> pstate None p r = Some (created_by r).
  Proof.
    destruct r as [q x|q s]; cbn; intros <-; [destruct (package_eqb_spec q q)|destruct (package_eqb_spec (package q) (package q))];
      (contradiction || reflexivity).
  Qed.

  Lemma lookup_module_some l m (s : A) : lookup_module l m = Some s <->
    exists l1 l2, l = l1 ++ (m, s) :: l2 /\ ~ In m (map fst l1).
  Proof.
    split.
    - induction l as [|[q x] l IH]; cbn; [discriminate|]. destruct (module_eqb_spec m q) as [->|Hn].
      + intros H; injection H as ->. exists [], l. split; [reflexivity|intros []].
      + intros H. destruct (IH H) as (l1 & l2 & -> & Hi). exists ((q, x) :: l1), l2. split; [reflexivity|]. cbn. intros [E|E]; congruence.
    - intros (l1 & l2 & -> & Hi). induction l1 as [|[q x] l1 IH]; cbn in *.
      + destruct (module_eqb_spec m m); [reflexivity|contradiction].
      + destruct (module_eqb_spec m q) as [->|]; [tauto|]. apply IH. tauto.
  Qed.
  Lemma lookup_module_none l m : @lookup_module A l m = None <-> ~ In m (map fst l).
  Proof.
    induction l as [|[q x] l IH]; cbn; [tauto|]. destruct (module_eqb_spec m q) as [->|Hn].
    - split; [discriminate|tauto].
    - rewrite IH. intuition congruence.
  Qed.

  Lemma first_for p (rs : list (@request A)) : (forall r, In r rs -> ~ for_package p r) \/
    exists rs1 r rs2, rs = rs1 ++ r :: rs2 /\ (forall r', In r' rs1 -> ~ for_package p r') /\ for_package p r.
  Proof.
    induction rs as [|r rs IH]; [left; intros r []|]. destruct (for_package_dec p r) as [H|H].
    - right. exists [], r, rs. split; [reflexivity|]. split; [intros r' []|assumption].
    - destruct IH as [IH|(rs1 & r0 & rs2 & -> & H1 & H2)].
      + left. intros r' [<-|Hi]; auto.
      + right. exists (r :: rs1), r0, rs2. split; [reflexivity|]. split; [|assumption]. intros r' [<-|Hi]; auto.
  Qed.

  Lemma load_sound (rs : list (@request A)) p : denotes rs p (load (register_all rs) p).
  Proof.
    unfold load, register_all. rewrite register_all_lookup. cbn [new_loader lookup_package].
    destruct (first_for (package p) rs) as [H|(rs1 & r & rs2 & -> & H1 & H2)].
    - rewrite pstate_skip by assumption. constructor; assumption.
    - rewrite fold_left_app. cbn [fold_left]. rewrite (pstate_skip rs1) by assumption. rewrite pstate_first by assumption.
      destruct (created_by r) as [m|root] eqn:E.
      + rewrite pstate_memory. destruct (lookup_module (added (package p) rs2 m) (module p)) as [s|] eqn:El.
        * apply lookup_module_some in El as (l1 & l2 & El & Hi). eapply dn_found; eauto.
        * apply lookup_module_none in El. eapply dn_missing; eauto.
      + rewrite pstate_files. eapply dn_files; eauto.
  Qed.

  Lemma load_complete (rs : list (@request A)) p x : denotes rs p x -> load (register_all rs) p = x.
  Proof.
    intros H. unfold load, register_all. rewrite register_all_lookup. cbn [new_loader lookup_package].
    destruct H as [H|rs1 r rs2 root -> H1 H2 E|rs1 r rs2 m l1 s l2 -> H1 H2 E Ea Hi|rs1 r rs2 m -> H1 H2 E Hi].
    - rewrite pstate_skip by assumption. reflexivity.
    - rewrite fold_left_app. cbn [fold_left]. rewrite (pstate_skip rs1), pstate_first, E, pstate_files by assumption. reflexivity.
    - rewrite fold_left_app. cbn [fold_left]. rewrite (pstate_skip rs1), pstate_first, E, pstate_memory by assumption.
      assert (El : lookup_module (added (package p) rs2 m) (module p) = Some s) by (apply lookup_module_some; eauto).
      rewrite El. reflexivity.
    - rewrite fold_left_app. cbn [fold_left]. rewrite (pstate_skip rs1), pstate_first, E, pstate_memory by assumption.
      apply lookup_module_none in Hi. rewrite Hi. reflexivity.
  Qed.
End Loader.

(** File names. *)
Lemma rsplit_dot_none t : ~ In (c_ ".") t -> rsplit_dot t = None.
Proof.
  induction t as [|c t IH]; intros H; cbn [rsplit_dot]; [reflexivity|]. rewrite IH by (intros Hi; apply H; right; assumption).
  destruct (N.eqb_spec c (c_ ".")) as [->|]; [exfalso; apply H; left; reflexivity|reflexivity].
Qed.

Lemma map_last_snoc {B} (f : B -> B) l x : map_last f (l ++ [x]) = l ++ [f x].
Proof.
  induction l as [|y l IH]; [reflexivity|]. cbn [app map_last]. destruct (l ++ [x]) eqn:E; [destruct l; discriminate|].
  rewrite <- IH. reflexivity.
Qed.

Definition file_parts (m : module_name) : list text := match m with [] => [t_ "prelude"] | parts => parts end.

Lemma module_file_plain root m : plain m -> exists l x,
  file_parts m = l ++ [x] /\ module_file root m = root ++ l ++ [x ++ t_ ".llrl"].
Proof.
  intros H. unfold module_file. fold (file_parts m).
  destruct (exists_last (l := file_parts m)) as (l & x & E); [destruct m; discriminate|].
  exists l, x. split; [assumption|]. rewrite E, app_assoc, map_last_snoc, <- app_assoc. unfold set_extension, file_stem.
  rewrite rsplit_dot_none; [reflexivity|]. destruct H as [->|H].
  - destruct l as [|y l]; cbn in E; [injection E as <-|injection E as _ E; destruct l; discriminate].
    intros Hi. cbn in Hi. repeat destruct Hi as [Hi|Hi]; try discriminate; assumption.
  - destruct m as [|y m].
    + cbn in E. destruct l as [|z l]; cbn in E; [injection E as <-|injection E as _ E; destruct l; discriminate].
      intros Hi. cbn in Hi. repeat destruct Hi as [Hi|Hi]; try discriminate; assumption.
    + cbn [file_parts] in E. rewrite E, last_last in H. assumption.
Qed.

Lemma module_file_inj root m1 m2 : valid_module m1 -> valid_module m2 -> plain m1 -> plain m2 ->
  module_file root m1 = module_file root m2 -> m1 = m2.
Proof.
  intros V1 V2 P1 P2 E. apply (module_file_plain root) in P1 as (l1 & x1 & F1 & E1), P2 as (l2 & x2 & F2 & E2).
  rewrite E1, E2 in E. apply app_inv_head in E. apply app_inj_tail in E as [-> E]. apply app_inv_tail in E as ->.
  rewrite <- F2 in F1. apply valid_module_spec in V1 as [_ V1], V2 as [_ V2].
  destruct m1, m2; cbn [file_parts] in F1; congruence.
Qed.

Lemma module_file_collides : exists root m1 m2, valid_module m1 /\ valid_module m2 /\ m1 <> m2 /\ module_file root m1 = module_file root m2.
Proof.
  exists [], [t_ "a"], [t_ "a.b"]. split; [right; exists [t_ "a"]; reflexivity|]. split; [right; exists [t_ "a.b"]; reflexivity|].
  split; [discriminate|reflexivity].
Qed.
