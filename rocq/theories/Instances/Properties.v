(** C51: evidence for class constraints. *)
From Verif.Base Require Import Base Vec.
From Verif.Types Require Import Model Spec.
From Verif.Instances Require Import Model Spec ProofsMain ProofsHierarchy ProofsRefuted.

(** In every reachable context the declarations are imported into, recording what is assumed ends, binds
    no variable, and gives one entry for each constraint above those assumed, with the way to it. *)
Theorem premise_exact : forall env pool ts D, reachable env pool ts -> declared env pool ts D -> well_founded_classes D ->
  forall assumed, Forall (constraint_ok env pool ts D) assumed ->
  exists pool' pr, conv (fun n => install_all D n (pool, []) assumed) (pool', pr) /\
    (exists s, solution env pool' s) /\ (forall s, equations pool' s -> equations pool s) /\
    (forall v k lv, unresolved pool v k lv -> unresolved pool' v k lv) /\ premise_of pool' D assumed pr.
Proof. exact premise_exact_all. Qed.
Print Assumptions premise_exact.

(** The search for evidence always ends. What it finds is evidence for the constraint, whatever the
    variables left in the context come to stand for. *)
Theorem evidence_sound : forall env pool ts D, reachable env pool ts -> declared env pool ts D -> well_founded_classes D ->
  forall assumed, Forall (constraint_ok env pool ts D) assumed -> forall c, constraint_ok env pool ts D c -> forall checked,
  exists pool1 pr pool2 checked2 r,
    conv (fun n => install_all D n (pool, []) assumed) (pool1, pr) /\
    conv (fun n => build D env pr n (pool1, checked) c 0%N) (pool2, checked2, r) /\
    (exists s, solution env pool2 s) /\ (forall s, equations pool2 s -> equations pool s) /\
    forall e, r = Yes e -> forall s, solution env pool2 s -> proves env D s assumed e (c_class c) (map (interp s) (c_args c)).
Proof. exact evidence_sound_all. Qed.
Print Assumptions evidence_sound.

(** When no instance is found for a constraint on known types, it does not follow from what is assumed:
    there is no evidence to be found. *)
Theorem evidence_complete : forall env pool ts D, reachable env pool ts -> declared env pool ts D -> well_founded_classes D ->
  forall assumed, Forall (constraint_ok env pool ts D) assumed -> forall c, constraint_ok env pool ts D c ->
  forall checked pool1 pr pool2 checked2,
    others_apart env pool D -> parameters_used pool D -> Forall (known pool) assumed -> known pool c ->
    (forall cl i j, In cl checked -> In i (available D cl) -> In j (available D cl) -> i <> j -> apart env pool D i j) ->
    conv (fun n => install_all D n (pool, []) assumed) (pool1, pr) ->
    conv (fun n => build D env pr n (pool1, checked) c 0%N) (pool2, checked2, No NoMatchingInstances) ->
    forall s, solution env pool2 s -> ~ holds env D s assumed (c_class c) (map (interp s) (c_args c)).
Proof. exact evidence_complete_all. Qed.
Print Assumptions evidence_complete.

(** A constraint on known types that follows by evidence nested at most 21 deep is given evidence, if no
    two instances of a class overlap. *)
Theorem evidence_found : forall env pool ts D, reachable env pool ts -> declared env pool ts D -> well_founded_classes D ->
  forall assumed, Forall (constraint_ok env pool ts D) assumed -> forall c, constraint_ok env pool ts D c ->
  forall checked pool1 pr pool2 checked2 r,
    parameters_used pool D -> Forall (known pool) assumed -> known pool c -> (forall cl, NoDup (available D cl)) ->
    (forall cl i j, In i (available D cl) -> In j (available D cl) -> i <> j -> apart env pool D i j) ->
    conv (fun n => install_all D n (pool, []) assumed) (pool1, pr) ->
    conv (fun n => build D env pr n (pool1, checked) c 0%N) (pool2, checked2, r) ->
    forall s, solution env pool2 s -> holds_within env D s assumed 21 (c_class c) (map (interp s) (c_args c)) -> exists e, r = Yes e.
Proof. exact evidence_found_all. Qed.
Print Assumptions evidence_found.

(** An overlap is reported only when two instances of some class do give the same constraint. *)
Theorem overlap_reported : forall env pool ts D, reachable env pool ts -> declared env pool ts D -> well_founded_classes D ->
  forall assumed, Forall (constraint_ok env pool ts D) assumed -> forall c, constraint_ok env pool ts D c ->
  forall checked pool1 pr pool2 checked2, (forall cl, NoDup (available D cl)) ->
    conv (fun n => install_all D n (pool, []) assumed) (pool1, pr) ->
    conv (fun n => build D env pr n (pool1, checked) c 0%N) (pool2, checked2, No OverlappingInstances) ->
    exists cl i j, In i (available D cl) /\ In j (available D cl) /\ i <> j /\ ~ compared_before D i j /\ overlapping env pool D i j.
Proof. exact overlap_reported_all. Qed.
Print Assumptions overlap_reported.

(** The check of a class accepts its instances exactly when no two of them give the same constraint,
    leaving out those compared in another module. *)
Theorem overlap_check_exact : forall env pool ts D, reachable env pool ts -> declared env pool ts D ->
  forall checked cl, NoDup (available D cl) -> ~ In cl checked ->
  exists pool' r, conv (fun n => ensure_overlap_checked D env n (pool, checked) cl) (pool', cl :: checked, r) /\
    (exists s, solution env pool' s) /\ (forall s, equations pool' s -> equations pool s) /\
    match r with
    | Ok => forall i j, In i (available D cl) -> In j (available D cl) -> i <> j -> compared_before D i j \/ apart env pool D i j
    | Err _ => exists i j, In i (available D cl) /\ In j (available D cl) /\ i <> j /\ ~ compared_before D i j /\ overlapping env pool D i j
    end.
Proof. exact overlap_exact_all. Qed.
Print Assumptions overlap_check_exact.

(** What an instance keeps for the superclasses of its class is evidence for them, from what the
    instance itself asks for. *)
Theorem instance_superclasses_sound : forall env pool ts D i checked, reachable env pool ts -> declared env pool ts D -> well_founded_classes D ->
  exists pool' checked' r, conv (fun n => instance_satisfaction D env n (pool, checked) i) (pool', checked', r) /\
    (exists s, solution env pool' s) /\ (forall s, equations pool' s -> equations pool s) /\
    forall es, r = Yes es -> forall s, solution env pool' s ->
      Forall2 (fun e c => proves env D s (i_s_params (instances D i)) e (c_class c)
                 (map (fun t => instance_of (k_params (classes D (c_class (i_target (instances D i)))))
                                            (map (interp s) (c_args (i_target (instances D i)))) (interp s t)) (c_args c)))
              es (k_supers (classes D (c_class (i_target (instances D i))))).
Proof. exact instance_superclasses_all. Qed.
Print Assumptions instance_superclasses_sound.

(** The check of a module's classes accepts them exactly when no two of them are above each other, and
    otherwise names classes that are. *)
Theorem class_hierarchy_exact : forall cs, NoDup (map fst cs) -> exists r, verify_classes_hierarchy cs = Ret r /\
  match r with
  | Ok => forall x y, ancestor cs x y -> ancestor cs y x -> x = y
  | Err g => (exists x y, In x g /\ In y g /\ x <> y) /\ (forall x y, In x g -> In y g -> x <> y -> ancestor cs x y)
  end.
Proof. exact hierarchy_exact. Qed.
Print Assumptions class_hierarchy_exact.

(** Classes accepted that are not directly above themselves, put on well-founded ones of other modules,
    are well-founded. *)
Theorem class_hierarchy_well_founded : forall D cs, NoDup (map fst cs) ->
  (forall x ss, In (x, ss) cs -> ss = map c_class (k_supers (classes D x))) ->
  verify_classes_hierarchy cs = Ret Ok -> (forall x, ~ superclass cs x x) ->
  (exists rank : N -> nat, forall cl c, ~ In cl (map fst cs) -> In c (k_supers (classes D cl)) ->
     ~ In (c_class c) (map fst cs) /\ (rank (c_class c) < rank cl)%nat) ->
  well_founded_classes D.
Proof. exact well_founded_all. Qed.
Print Assumptions class_hierarchy_well_founded.

(** A class that is its own superclass is accepted, and recording a constraint on it never ends. *)
Theorem class_hierarchy_refuted : exists env pool ts D cs c, reachable env pool ts /\ declared env pool ts D /\ constraint_ok env pool ts D c /\
  NoDup (map fst cs) /\ (forall cl, In (cl, map c_class (k_supers (classes D cl))) cs \/ k_supers (classes D cl) = []) /\
  verify_classes_hierarchy cs = Ret Ok /\ forall n, install_all D n (pool, []) [c] = OutOfFuel.
Proof. exact hierarchy_self. Qed.
Print Assumptions class_hierarchy_refuted.

(** A search that fails can leave variables of the program equal that could have been different. *)
Theorem failed_search_binds_refuted : exists env pool ts D c pool' checked u w, reachable env pool ts /\ declared env pool ts D /\ well_founded_classes D /\
  constraint_ok env pool ts D c /\ In u ts /\ In w ts /\
  conv (fun n => build D env [] n (pool, []) c 0%N) (pool', checked, No NoMatchingInstances) /\
  (exists s, solution env pool s /\ interp s u <> interp s w) /\
  (forall s, equations pool' s -> interp s u = interp s w).
Proof. exact failed_search_binds. Qed.
Print Assumptions failed_search_binds_refuted.
