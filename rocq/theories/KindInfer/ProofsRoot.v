(** The groups of a module whose names have been resolved are in order. *)
From Verif.Base Require Import Base Vec VecFacts.
From Verif.Kind Require Import Model Spec.
From Verif.Topo Require Model Spec Properties.
From Verif.KindInfer Require Import Model Spec ProofsSort ProofsRun ProofsTop.
Import ListNotations.

(** * Groups of declarations, in terms of the module *)

Lemma perm_flat_app {A B} (f g : A -> list B) l : Permutation (flat_map (fun x => f x ++ g x) l) (flat_map f l ++ flat_map g l).
Proof.
  induction l as [|a l IH]; [reflexivity|]. cbn. etransitivity; [apply Permutation_app_head; exact IH|].
  rewrite !app_assoc. apply Permutation_app_tail. rewrite <- !app_assoc. apply Permutation_app_head.
  apply Permutation_app_comm.
Qed.

Lemma flat_map_flat {A B C} (f : B -> list C) (g : A -> list B) l : flat_map f (flat_map g l) = flat_map (fun x => flat_map f (g x)) l.
Proof. induction l as [|a l IH]; [reflexivity|]. cbn. now rewrite flat_map_app, IH. Qed.

Lemma flat_map_map {A B C} (f : B -> list C) (g : A -> B) l : flat_map f (map g l) = flat_map (fun x => f (g x)) l.
Proof. induction l as [|a l IH]; [reflexivity|]. cbn. now rewrite IH. Qed.

Lemma flat_map_one {A B} (f : A -> B) l : flat_map (fun x => [f x]) l = map f l.
Proof. induction l as [|a l IH]; [reflexivity|]. cbn. now rewrite IH. Qed.

Lemma flat_map_none {A B} (l : list A) : flat_map (fun _ => @nil B) l = [].
Proof. induction l; auto. Qed.

Lemma flat_map_eq {A B} (f g : A -> list B) l : (forall x, In x l -> f x = g x) -> flat_map f l = flat_map g l.
Proof. induction l as [|a l IH]; intros H; [reflexivity|]. cbn. rewrite (H a) by (now left). rewrite IH; [reflexivity|]. intros; apply H; now right. Qed.

Lemma flat_map_perm {A B} (f g : A -> list B) l : (forall x, In x l -> Permutation (f x) (g x)) -> Permutation (flat_map f l) (flat_map g l).
Proof.
  induction l as [|a l IH]; intros H; [reflexivity|]. cbn. apply Permutation_app; [apply H; now left|]. apply IH. intros; apply H; now right.
Qed.

Lemma item_ind' (P : item -> Prop) : (forall t, P (IType t)) -> (forall id ann body, Forall P body -> P (ILocalFun id ann body)) -> forall i, P i.
Proof.
  intros H1 H2. fix IH 1. intros [id ann body|t]; [|apply H1]. apply H2.
  induction body as [|i body IHb]; constructor; [apply IH|exact IHb].
Qed.

Lemma function_groups_generics id ann : flat_map generics (function_groups id ann) = fst (annotated id ann).
Proof. destruct ann; reflexivity. Qed.

Lemma function_groups_checks id ann : flat_map checks (function_groups id ann) = snd (annotated id ann).
Proof. destruct ann; [|reflexivity]. cbn. now rewrite app_nil_r. Qed.

Lemma item_groups_generics i : flat_map generics (item_groups i) = item_generics i.
Proof.
  induction i as [t|id ann body IH] using item_ind'; [reflexivity|].
  cbn [item_groups item_generics]. rewrite flat_map_app, function_groups_generics, flat_map_flat. f_equal.
  apply flat_map_eq. apply Forall_forall. exact IH.
Qed.

Lemma item_groups_checks i : flat_map checks (item_groups i) = item_checks i.
Proof.
  induction i as [t|id ann body IH] using item_ind'; [reflexivity|].
  cbn [item_groups item_checks]. rewrite flat_map_app, function_groups_checks, flat_map_flat. f_equal.
  apply flat_map_eq. apply Forall_forall. exact IH.
Qed.

Lemma items_generics is : flat_map generics (flat_map item_groups is) = flat_map item_generics is.
Proof. rewrite flat_map_flat. apply flat_map_eq. intros; apply item_groups_generics. Qed.

Lemma items_checks is : flat_map checks (flat_map item_groups is) = flat_map item_checks is.
Proof. rewrite flat_map_flat. apply flat_map_eq. intros; apply item_groups_checks. Qed.

Lemma class_groups_generics cs : Permutation (flat_map generics (class_groups cs))
  (flat_map (fun c => {| construct := cls_id c; generic_types := cls_params c; generic_constraints := 0; makes := SConstraint |}
       :: flat_map (fun m => fst (annotated (cm_id m) (Some (cm_ann m))) ++ flat_map item_generics (cm_default m)) (methods c)) cs).
Proof.
  unfold class_groups. cbn [flat_map generics]. rewrite flat_map_flat. symmetry.
  etransitivity; [|apply perm_flat_app]. apply flat_map_perm. intros c _. unfold class_generics. cbn [app].
  apply perm_skip. etransitivity; [apply perm_flat_app|]. cbn [annotated fst]. rewrite flat_map_one.
  apply Permutation_app; [reflexivity|]. rewrite flat_map_flat. erewrite flat_map_eq; [reflexivity|].
  intros m _. cbn. symmetry. apply items_generics.
Qed.

Lemma class_groups_checks cs : Permutation (flat_map checks (class_groups cs))
  (flat_map (fun c => map CClass (superclasses c)
       ++ flat_map (fun m => snd (annotated (cm_id m) (Some (cm_ann m))) ++ flat_map item_checks (cm_default m)) (methods c)) cs).
Proof.
  unfold class_groups. cbn [flat_map checks]. rewrite flat_map_flat. symmetry.
  etransitivity; [|apply perm_flat_app]. apply flat_map_perm. intros c _. unfold class_checks. rewrite <- app_assoc.
  apply Permutation_app_head. etransitivity; [apply perm_flat_app|].
  apply Permutation_app; [reflexivity|]. rewrite flat_map_flat. erewrite flat_map_eq; [reflexivity|].
  intros m _. cbn. symmetry. apply items_checks.
Qed.

Lemma instance_groups_generics i : Permutation (flat_map generics (instance_groups i))
  ({| construct := inst_id i; generic_types := inst_params i; generic_constraints := List.length (inst_s_params i); makes := SSatisfaction |}
       :: flat_map (fun '(id, ann, body) => item_generics (ILocalFun id ann body)) (inst_methods i)).
Proof.
  unfold instance_groups. cbn [flat_map generics app]. apply perm_skip. rewrite flat_map_flat. symmetry.
  etransitivity.
  { erewrite flat_map_eq with (g := fun x => fst (annotated (fst (fst x)) (snd (fst x))) ++ flat_map item_generics (snd x)); [apply perm_flat_app|].
    intros [[id ann] body] _. reflexivity. }
  apply Permutation_app.
  - rewrite <- flat_map_one, flat_map_flat. erewrite flat_map_eq; [reflexivity|]. intros [[id [s|]] body] _; reflexivity.
  - erewrite flat_map_eq; [reflexivity|]. intros m _. symmetry. apply items_generics.
Qed.

Lemma instance_groups_checks i : Permutation (flat_map checks (instance_groups i))
  (map CClass (inst_s_params i) ++ [CClass (target i)]
       ++ flat_map (fun '(id, ann, body) => item_checks (ILocalFun id ann body)) (inst_methods i)).
Proof.
  unfold instance_groups. cbn [flat_map checks]. rewrite <- !app_assoc. apply Permutation_app_head, Permutation_app_head.
  rewrite flat_map_flat. symmetry. etransitivity.
  { erewrite flat_map_eq with (g := fun x => snd (annotated (fst (fst x)) (snd (fst x))) ++ flat_map item_checks (snd x)); [apply perm_flat_app|].
    intros [[id ann] body] _. reflexivity. }
  apply Permutation_app.
  - erewrite flat_map_eq; [reflexivity|]. intros [[id [s|]] body] _; cbn; rewrite ?app_nil_r; reflexivity.
  - rewrite flat_map_flat. erewrite flat_map_eq; [reflexivity|]. intros m _. symmetry. apply items_checks.
Qed.

Definition groups_of (ds : list (list data_type)) (cs : list (list class_def)) (r : root) : list group :=
  map builtin_group (builtin_types r)
  ++ map data_group ds
  ++ flat_map builtin_value_groups (builtin_types r)
  ++ flat_map class_groups cs
  ++ flat_map (fun '(id, ann, body) => function_groups id ann ++ flat_map item_groups body) (functions r)
  ++ map (fun t => {| generics := []; checks := [CType t] |}) (c_functions r)
  ++ flat_map (fun '(id, s) => function_groups id (Some s)) (builtin_ops r)
  ++ flat_map (flat_map item_groups) (macros r)
  ++ flat_map instance_groups (instances r)
  ++ flat_map (flat_map item_groups) (init_expressions r).

Lemma perm_concat {A B} (f : A -> list B) ls l : Permutation (List.concat ls) l -> Permutation (flat_map (flat_map f) ls) (flat_map f l).
Proof.
  intros P. transitivity (flat_map f (List.concat ls)); [|now apply Permutation_flat_map].
  clear P. induction ls as [|a ls IH]; [reflexivity|]. cbn. rewrite flat_map_app. now apply Permutation_app_head.
Qed.

Lemma groups_of_generics ds cs r : Permutation (List.concat ds) (data_types r) -> Permutation (List.concat cs) (classes r) ->
  Permutation (flat_map generics (groups_of ds cs r)) (root_generics r).
Proof.
  intros Pd Pc. unfold groups_of, root_generics. rewrite !flat_map_app.
  apply Permutation_app. { rewrite flat_map_map. cbn. rewrite flat_map_one. reflexivity. }
  apply Permutation_app.
  { rewrite flat_map_map. cbn. rewrite <- flat_map_one. etransitivity; [|apply perm_concat; exact Pd].
    apply flat_map_perm. intros x _. rewrite flat_map_one. reflexivity. }
  match goal with |- Permutation (?a ++ ?b) ?c => assert (E : a = []) end.
  { rewrite flat_map_flat. unfold builtin_value_groups. etransitivity; [|exact (flat_map_none (builtin_types r))]. apply flat_map_eq. intros b _.
    rewrite flat_map_map. apply flat_map_none. }
  rewrite E. cbn [app]. clear E.
  apply Permutation_app.
  { rewrite flat_map_flat. etransitivity; [|apply perm_concat; exact Pc]. apply flat_map_perm. intros x _. apply class_groups_generics. }
  apply Permutation_app.
  { rewrite flat_map_flat. apply flat_map_perm. intros [[id ann] body] _. cbn [item_generics].
    rewrite flat_map_app, function_groups_generics, items_generics. reflexivity. }
  match goal with |- Permutation (?a ++ ?b) ?c => assert (E : a = []) end.
  { rewrite flat_map_map. apply flat_map_none. }
  rewrite E. cbn [app]. clear E.
  apply Permutation_app.
  { rewrite flat_map_flat. apply flat_map_perm. intros [id s] _. now rewrite function_groups_generics. }
  apply Permutation_app.
  { rewrite flat_map_flat. apply flat_map_perm. intros x _. now rewrite items_generics. }
  apply Permutation_app.
  { rewrite flat_map_flat. apply flat_map_perm. intros x _. apply instance_groups_generics. }
  rewrite flat_map_flat. apply flat_map_perm. intros x _. now rewrite items_generics.
Qed.

Lemma groups_of_checks ds cs r : Permutation (List.concat ds) (data_types r) -> Permutation (List.concat cs) (classes r) ->
  Permutation (flat_map checks (groups_of ds cs r)) (root_checks r).
Proof.
  intros Pd Pc. unfold groups_of, root_checks. rewrite !flat_map_app.
  match goal with |- Permutation (?a ++ ?b) ?c => assert (E : a = []) end.
  { rewrite flat_map_map. apply flat_map_none. }
  rewrite E. cbn [app]. clear E.
  apply Permutation_app.
  { rewrite flat_map_map. apply perm_concat with (f := fun d => map CType (dt_fields d)). exact Pd. }
  apply Permutation_app.
  { rewrite flat_map_flat. apply flat_map_perm. intros b _. unfold builtin_value_groups. rewrite flat_map_map. reflexivity. }
  apply Permutation_app.
  { rewrite flat_map_flat. etransitivity; [|apply perm_concat; exact Pc]. apply flat_map_perm. intros x _. apply class_groups_checks. }
  apply Permutation_app.
  { rewrite flat_map_flat. apply flat_map_perm. intros [[id ann] body] _. cbn [item_checks].
    rewrite flat_map_app, function_groups_checks, items_checks. reflexivity. }
  apply Permutation_app.
  { rewrite flat_map_map. cbn. rewrite flat_map_one. reflexivity. }
  apply Permutation_app.
  { rewrite flat_map_flat. apply flat_map_perm. intros [id s] _. now rewrite function_groups_checks. }
  apply Permutation_app.
  { rewrite flat_map_flat. apply flat_map_perm. intros x _. now rewrite items_checks. }
  apply Permutation_app.
  { rewrite flat_map_flat. apply flat_map_perm. intros x _. apply instance_groups_checks. }
  rewrite flat_map_flat. apply flat_map_perm. intros x _. now rewrite items_checks.
Qed.

Lemma all_declared gs : flat_map declared gs = flat_map (fun x => construct x :: map tp (generic_types x)) (flat_map generics gs).
Proof. rewrite flat_map_flat. reflexivity. Qed.

Lemma groups_of_declared ds cs r : Permutation (List.concat ds) (data_types r) -> Permutation (List.concat cs) (classes r) ->
  Permutation (flat_map declared (groups_of ds cs r)) (root_declared r).
Proof.
  intros Pd Pc. rewrite all_declared. unfold root_declared. apply Permutation_flat_map. now apply groups_of_generics.
Qed.

(** * Uses after declarations *)

Section Uses.
  Variable mods : modules.

  Definition avail (seen : list nat) (c : nat) : Prop := In c seen \/ is_local mods c = false.

  Fixpoint uses (seen : list nat) (gs : list group) : Prop :=
    match gs with
    | [] => True
    | g :: gs => (forall c, In c (mentions g) -> avail (declared g ++ seen) c) /\ uses (declared g ++ seen) gs
    end.

  Lemma avail_mono seen seen' c : incl seen seen' -> avail seen c -> avail seen' c.
  Proof. intros H [A|A]; [left; now apply H|now right]. Qed.

  Lemma uses_mono gs : forall seen seen', incl seen seen' -> uses seen gs -> uses seen' gs.
  Proof.
    induction gs as [|g gs IH]; intros seen seen' H; cbn; [auto|]. intros [A B].
    assert (H' : incl (declared g ++ seen) (declared g ++ seen')) by (apply incl_app; [apply incl_appl, incl_refl|now apply incl_appr]).
    split; [intros c Hc; exact (avail_mono _ _ c H' (A c Hc))|exact (IH _ _ H' B)].
  Qed.

  Lemma uses_app a : forall seen b, uses seen a -> uses (flat_map declared a ++ seen) b -> uses seen (a ++ b).
  Proof.
    induction a as [|g a IH]; intros seen b; cbn; [auto|]. intros [A B] C. split; [exact A|]. apply IH; [exact B|].
    eapply uses_mono; [|exact C]. intros x Hx. rewrite !in_app_iff in *. tauto.
  Qed.

  Lemma uses_flat {A} (f : A -> list group) l : forall seen, (forall X x Y, l = X ++ x :: Y -> uses (flat_map declared (flat_map f X) ++ seen) (f x)) ->
    uses seen (flat_map f l).
  Proof.
    induction l as [|x l IH]; intros seen H; cbn; [exact I|]. apply uses_app; [exact (H [] x l eq_refl)|].
    apply IH. intros X y Y ->. eapply uses_mono; [|exact (H (x :: X) y Y eq_refl)].
    cbn. rewrite flat_map_app. intros c Hc. rewrite !in_app_iff in *. tauto.
  Qed.

  Lemma uses_each {A} (f : A -> list group) l seen : (forall x, In x l -> uses seen (f x)) -> uses seen (flat_map f l).
  Proof.
    intros H. apply uses_flat. intros X x Y ->. eapply uses_mono; [|apply H; apply in_or_app; right; now left]. now apply incl_appr, incl_refl.
  Qed.

  Lemma uses_in_order gs : forall seen, NoDup (flat_map declared gs ++ seen) -> (forall c, In c (flat_map declared gs) -> is_local mods c = true) ->
    uses seen gs -> in_order mods seen gs.
  Proof.
    induction gs as [|g gs IH]; intros seen Hn Hl; cbn; [auto|]. intros [A B]. cbn in Hn. rewrite <- app_assoc in Hn.
    split; [|split].
    - intros c Hc. split; [apply Hl; cbn; apply in_or_app; now left|]. intros Hs.
      apply in_split in Hc. destruct Hc as (X & Y & E). rewrite E, <- app_assoc in Hn. cbn in Hn.
      apply NoDup_remove_2 in Hn. apply Hn. rewrite !in_app_iff. tauto.
    - intros c Hc. destruct (A c Hc) as [Hi|Hi]; [|tauto]. apply in_app_or in Hi. tauto.
    - apply IH; [|intros c Hc; apply Hl; cbn; apply in_or_app; now right|exact B].
      eapply Permutation_NoDup; [|exact Hn]. rewrite !app_assoc. apply Permutation_app_tail, Permutation_app_comm.
  Qed.

  Variable r : root.

  Lemma mentions_type t c : In c (type_mentions t) -> In c (type_cons t) \/ In c (type_gens t).
  Proof.
    revert t. fix IH 1. intros [d|d|f args]; cbn; [tauto|tauto|]. rewrite !in_app_iff.
    intros [H|H]; [destruct (IH f H); tauto|].
    assert (In c (flat_map type_cons args) \/ In c (flat_map type_gens args)); [|tauto].
    induction args as [|a args IHa]; cbn in *; [tauto|]. rewrite !in_app_iff in *. destruct H as [H|H]; [destruct (IH a H); tauto|tauto].
  Qed.

  Definition types_seen (seen : list nat) : Prop := forall c, known_type mods r c -> avail seen c.

  Lemma scoped_type_avail seen params t c : types_seen seen -> incl params seen -> scoped_type mods r params t ->
    In c (type_mentions t) -> avail seen c.
  Proof.
    intros Ht Hp [H1 H2] Hc. destruct (mentions_type t c Hc) as [H|H]; [exact (Ht c (H1 c H))|left; apply Hp, H2, H].
  Qed.

  Lemma scoped_constraint_avail seen (kc : nat -> Prop) params k c : types_seen seen -> (forall c, kc c -> avail seen c) -> incl params seen ->
    scoped_constraint mods r kc params k -> In c (check_mentions (CClass k)) -> avail seen c.
  Proof.
    intros Ht Hk Hp [H1 H2] [Hc|Hc]; [subst c; now apply Hk|].
    apply in_flat_map in Hc. destruct Hc as (t & Hin & Hc). rewrite Forall_forall in H2.
    exact (scoped_type_avail seen params t c Ht Hp (H2 t Hin) Hc).
  Qed.

  Lemma scoped_constraints_avail seen (kc : nat -> Prop) params ks c : types_seen seen -> (forall c, kc c -> avail seen c) -> incl params seen ->
    Forall (scoped_constraint mods r kc params) ks -> In c (flat_map check_mentions (map CClass ks)) -> avail seen c.
  Proof.
    intros Ht Hk Hp H Hc. rewrite flat_map_map in Hc. apply in_flat_map in Hc. destruct Hc as (k & Hin & Hc).
    rewrite Forall_forall in H. exact (scoped_constraint_avail seen kc params k c Ht Hk Hp (H k Hin) Hc).
  Qed.

  Lemma scoped_scheme_avail seen (kc : nat -> Prop) params s c : types_seen seen -> (forall c, kc c -> avail seen c) -> incl (inner params (Some s)) seen ->
    scoped_scheme mods r kc params s -> In c (flat_map check_mentions (scheme_checks s)) -> avail seen c.
  Proof.
    intros Ht Hk Hp [H1 H2] Hc. unfold scheme_checks in Hc. rewrite flat_map_app in Hc. apply in_app_or in Hc. destruct Hc as [Hc|Hc].
    - exact (scoped_constraints_avail seen kc _ _ c Ht Hk Hp H1 Hc).
    - cbn in Hc. rewrite app_nil_r in Hc. exact (scoped_type_avail seen _ _ c Ht Hp H2 Hc).
  Qed.

  Lemma types_seen_mono seen seen' : incl seen seen' -> types_seen seen -> types_seen seen'.
  Proof. intros H Ht c Hc. exact (avail_mono _ _ c H (Ht c Hc)). Qed.

  Lemma function_groups_uses seen (kc : nat -> Prop) params id ann : types_seen seen -> (forall c, kc c -> avail seen c) -> incl params seen ->
    match ann with Some s => scoped_scheme mods r kc params s | None => True end -> uses seen (function_groups id ann).
  Proof.
    intros Ht Hk Hp H. destruct ann as [s|]; [|exact I]. cbn. split; [|exact I]. intros c Hc.
    eapply (scoped_scheme_avail _ kc params s c); [| | |exact H|exact Hc].
    - eapply types_seen_mono; [|exact Ht]. intros x Hx. right. apply in_or_app. now right.
    - intros d Hd. eapply avail_mono; [|exact (Hk d Hd)]. intros x Hx. right. apply in_or_app. now right.
    - cbn. apply incl_app; intros x Hx; right; rewrite app_nil_r; apply in_or_app; [now left|right; now apply Hp].
  Qed.

  Lemma function_groups_inner params id ann seen : incl params seen -> incl (inner params ann) (flat_map declared (function_groups id ann) ++ seen).
  Proof.
    intros Hp. destruct ann as [s|]; cbn; [|exact Hp]. apply incl_app.
    - intros x Hx. right. rewrite !app_nil_r. apply in_or_app. now left.
    - intros x Hx. right. apply in_or_app. right. now apply Hp.
  Qed.

  Lemma fold_and {A} (P : A -> Prop) l : fold_right (fun x Q => P x /\ Q) True l <-> Forall P l.
  Proof.
    induction l as [|a l IH]; cbn; [split; auto|]. rewrite IH. split; [intros [H1 H2]; now constructor|].
    intros H. split; [exact (Forall_inv H)|exact (Forall_inv_tail H)].
  Qed.

  Lemma item_uses (kc : nat -> Prop) i : forall seen params, types_seen seen -> (forall c, kc c -> avail seen c) -> incl params seen ->
    scoped_item mods r kc params i -> uses seen (item_groups i).
  Proof.
    induction i as [t|id ann body IH] using item_ind'; intros seen params Ht Hk Hp H.
    - cbn in *. split; [|exact I]. intros c Hc. unfold mentions in Hc. cbn in Hc. rewrite app_nil_r in Hc.
      exact (scoped_type_avail seen params t c Ht Hp H Hc).
    - cbn [item_groups scoped_item] in *. destruct H as [H1 H2]. apply fold_and in H2. apply uses_app.
      + exact (function_groups_uses seen kc params id ann Ht Hk Hp H1).
      + apply uses_each. intros i Hi. rewrite Forall_forall in IH, H2.
        apply (IH i Hi _ (inner params ann)); [|intros c Hc| |exact (H2 i Hi)].
        * eapply types_seen_mono; [|exact Ht]. apply incl_appr, incl_refl.
        * eapply avail_mono; [|exact (Hk c Hc)]. apply incl_appr, incl_refl.
        * now apply function_groups_inner.
  Qed.
End Uses.
