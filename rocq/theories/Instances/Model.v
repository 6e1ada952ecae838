(** Model of the search for class instances: llrl0/src/module/sema/type_inference.rs:131-261, 493-534
    and llrl0/src/module/sema/type_inference/unification.rs. *)
From Verif.Base Require Import Base Vec.
From Verif.Types Require Import Model.
From Verif.Topo Require Model.

(** type_inference/unification.rs:41-47 [ConstraintId], [Constraint]; 189-192 [ConstraintRep], which
    has one case. Node ids are numbers. *)
Record constr := { c_id : N; c_class : N; c_args : list ty }.

(** type_inference/unification.rs:404-408 [ClassCon]. *)
Record class_con := { k_params : list gen; k_supers : list constr }.

(** type_inference/unification.rs:443-448 [InstanceCon]. *)
Record inst_con := { i_params : list gen; i_s_params : list constr; i_target : constr }.

(** What the search asks of the program: type_inference/type_env.rs [class_con], [instance_con],
    module/meaning.rs:110-139 [AvailableInstances::get] (a [HashSet], in some order),
    [NodeId::module] of an instance and [self.mid].
    Simplification: [type_of] (type_inference.rs:1144-1156 and 1171-1183) imports a declaration into
    the context when it is first used and keeps it; here all of them have been imported before. *)
Record decls := {
  classes : N -> class_con;
  instances : N -> inst_con;
  available : N -> list N;
  module_of : N -> N;
  here : N
}.

(** unification.rs:152-154 [Level::bottom]. *)
Definition bottom : level := 4294967295%N.

(** type_inference.rs:20 [SATISFACTION_RECURSION_LIMIT]. *)
Definition recursion_limit : N := 20%N.

(** type_inference/unification.rs:28-36, the [HashMap] made in [apply_types]: of a parameter given
    twice the last one counts. *)
Fixpoint lookup (params : list gen) (tys : list ty) (g : gen) : option ty :=
  match params, tys with
  | p :: params, t :: tys =>
    match lookup params tys g with
    | Some u => Some u
    | None => if (p =? g)%N then Some t else None
    end
  | _, _ => None
  end.
Definition map_is_empty (params : list gen) (tys : list ty) : bool :=
  match params, tys with _ :: _, _ :: _ => false | _, _ => true end.

Definition subst_constr (fuel : nat) (m : gen -> option ty) (pool : context) (c : constr)
    : outcome (constr * context) :=
  let* r := map_ctx (fun pool t => subst fuel pool m t) pool (c_args c) in
  let '(args, pool) := r in
  Ret ({| c_id := c_id c; c_class := c_class c; c_args := args |}, pool).

(** type_inference/unification.rs:410-428 [ClassCon]'s [types_mut] and [subst_types], called by
    [apply_types] (28-36). *)
Definition apply_class (fuel : nat) (pool : context) (con : class_con) (tys : list ty)
    : outcome (class_con * context) :=
  if map_is_empty (k_params con) tys then Ret (con, pool)
  else
    let* r := map_ctx (subst_constr fuel (lookup (k_params con) tys)) pool (k_supers con) in
    let '(supers, pool) := r in
    Ret ({| k_params := k_params con; k_supers := supers |}, pool).

(** type_inference/unification.rs:450-470 [InstanceCon]'s [types_mut] and [subst_types]: the target
    comes first. *)
Definition apply_instance (fuel : nat) (pool : context) (con : inst_con) (tys : list ty)
    : outcome (inst_con * context) :=
  if map_is_empty (i_params con) tys then Ret (con, pool)
  else
    let m := lookup (i_params con) tys in
    let* r := subst_constr fuel m pool (i_target con) in
    let '(target, pool) := r in
    let* r := map_ctx (subst_constr fuel m) pool (i_s_params con) in
    let '(s_params, pool) := r in
    Ret ({| i_params := i_params con; i_s_params := s_params; i_target := target |}, pool).

(** type_inference/unification.rs:14-26 [instantiate_types]. *)
Definition instantiate_instance (env : kind_env) (fuel : nat) (pool : context) (con : inst_con) (lv : level)
    : outcome (inst_con * list ty * context) :=
  let* r := map_ctx (fun pool g => instantiate_gen env fuel pool g lv) pool (i_params con) in
  let '(tys, pool) := r in
  let* r := apply_instance fuel pool con tys in
  let '(con, pool) := r in
  Ret (con, tys, pool).

(** type_inference/unification.rs:96-110 [unify_types]; 112-125 [match_types_to_right]. *)
Definition unify_types (env : kind_env) (fuel : nat) (pool : context) (a b : constr) : outcome (context * result error) :=
  for_each (fun pool ab => unify env fuel pool (fst ab) (snd ab)) pool (combine (c_args a) (c_args b)).
Definition match_types_to_right (env : kind_env) (fuel : nat) (pool : context) (a b : constr) : outcome (context * result error) :=
  for_each (fun pool ab => match_to_right env fuel pool (fst ab) (snd ab)) pool (combine (c_args a) (c_args b)).

(** type_inference/unification.rs:641-646 [PremiseClassConstraint]; 581-584 [Premise]. The [HashMap]
    of vectors is the list of all entries with their class, in the order they were added. *)
Record entry := { e_class : N; e_id : N; e_path : list N; e_args : list ty }.
Definition premise := list entry.

(** type_inference.rs:142-163 [install_premise_constraint]; [id] is the constraint the premise was
    given as, [path] the superclasses followed from it. *)
Fixpoint install (D : decls) (fuel : nat) (st : context * premise) (id : N) (path : list N) (cl : N) (args : list ty)
    : outcome (context * premise) :=
  match fuel with
  | O => OutOfFuel
  | S fuel =>
    let '(pool, pr) := st in
    let* r := apply_class fuel pool (classes D cl) args in
    let '(con, pool) := r in
    let* r :=
      (fix go (st : context * premise) (supers : list constr) : outcome (context * premise) :=
         match supers with
         | [] => Ret st
         | c :: supers =>
           let* st := install D fuel st id (path ++ [c_id c]) (c_class c) (c_args c) in
           go st supers
         end) (pool, pr) (k_supers con) in
    let '(pool, pr) := r in
    Ret (pool, pr ++ [{| e_class := cl; e_id := id; e_path := path; e_args := args |}])
  end.

(** type_inference.rs:131-140 [install_premise_constraints]. *)
Fixpoint install_all (D : decls) (fuel : nat) (st : context * premise) (cs : list constr) : outcome (context * premise) :=
  match cs with
  | [] => Ret st
  | c :: cs =>
    let* st := install D fuel st (c_id c) [] (c_class c) (c_args c) in
    install_all D fuel st cs
  end.

(** type_inference/unification.rs:292-297 [Satisfaction]; [Var] is made elsewhere. *)
Inductive sat :=
| ByPremise (id : N) (path : list N)
| ByInstance (inst : N) (ty_args : list ty) (s_args : list sat).

(** The errors of module/error.rs the search ends with. What they report (type_inference.rs:1310-1383)
    is left out: making it exports types, which changes no meaning (theorem [type_export_exact]). *)
Inductive failure := RecursionLimitExceeded | NoMatchingInstances | OverlappingInstances.
Inductive answer (A : Type) := Yes (x : A) | No (e : failure).
Arguments Yes {A} x. Arguments No {A} e.

(** type_inference/unification.rs:657-666 [has_equivalent_class_args]; type_inference.rs:177-181. *)
Fixpoint find_premise (fuel : nat) (pool : context) (pr : premise) (cl : N) (args : list ty)
    : outcome (option entry * context) :=
  match pr with
  | [] => Ret (None, pool)
  | e :: pr =>
    if (e_class e =? cl)%N then
      let* r := all_ctx (fun pool ab => equal fuel pool (fst ab) (snd ab)) pool (combine (e_args e) args) in
      let '(b, pool) := r in
      if b then Ret (Some e, pool) else find_premise fuel pool pr cl args
    else find_premise fuel pool pr cl args
  end.

(** type_inference.rs:227-231, every pair in the order of the set. *)
Fixpoint pairs (l : list N) : list (N * N) :=
  match l with
  | [] => []
  | a :: l => map (pair a) l ++ pairs l
  end.

(** type_inference.rs:232-257, the body of the loop. *)
Definition overlap_one (D : decls) (env : kind_env) (fuel : nat) (pool : context) (ab : N * N)
    : outcome (context * result unit) :=
  let '(a, b) := ab in
  if (module_of D a =? module_of D b)%N && negb (module_of D a =? here D)%N then Ret (pool, Ok)
  else
    let bare i := {| i_params := i_params (instances D i); i_s_params := []; i_target := i_target (instances D i) |} in
    let* r := instantiate_instance env fuel pool (bare a) top in
    let '(ia, _, pool) := r in
    let* r := instantiate_instance env fuel pool (bare b) top in
    let '(ib, _, pool) := r in
    let* r := unify_types env fuel pool (i_target ia) (i_target ib) in
    match r with
    | (pool, Ok) => Ret (pool, Err tt)
    | (pool, Err _) => Ret (pool, Ok)
    end.

(** type_inference.rs:220-261 [ensure_overlap_checked]; [checked] is
    [overlap_checked_available_instances]. *)
Definition ensure_overlap_checked (D : decls) (env : kind_env) (fuel : nat) (st : context * list N) (cl : N)
    : outcome (context * list N * result unit) :=
  let '(pool, checked) := st in
  if existsb (N.eqb cl) checked then Ret (pool, checked, Ok)
  else
    let* r := for_each (overlap_one D env fuel) pool (pairs (available D cl)) in
    let '(pool, r) := r in
    Ret (pool, cl :: checked, r).

(** type_inference.rs:197-201, [collect] into a [Result]: stops at the first error. *)
Fixpoint all_satisfied (f : context * list N -> constr -> outcome (context * list N * answer sat))
    (st : context * list N) (cs : list constr) : outcome (context * list N * answer (list sat)) :=
  match cs with
  | [] => Ret (st, Yes [])
  | c :: cs =>
    let* r := f st c in
    match r with
    | (st, No e) => Ret (st, No e)
    | (st, Yes x) =>
      let* r := all_satisfied f st cs in
      match r with
      | (st, No e) => Ret (st, No e)
      | (st, Yes xs) => Ret (st, Yes (x :: xs))
      end
    end
  end.

(** type_inference.rs:186-212, the loop over the instances. *)
Fixpoint try_instances (D : decls) (env : kind_env) (f : context * list N -> constr -> outcome (context * list N * answer sat))
    (fuel : nat) (st : context * list N) (c : constr) (insts : list N) : outcome (context * list N * answer sat) :=
  match insts with
  | [] => Ret (st, No NoMatchingInstances)
  | i :: insts =>
    let '(pool, checked) := st in
    let* r := instantiate_instance env fuel pool (instances D i) bottom in
    let '(inst, ty_args, pool) := r in
    let* r := match_types_to_right env fuel pool (i_target inst) c in
    match r with
    | (pool, Ok) =>
      let* r := all_satisfied f (pool, checked) (i_s_params inst) in
      match r with
      | (st, Yes s_args) => Ret (st, Yes (ByInstance i ty_args s_args))
      | (st, No e) => Ret (st, No e)
      end
    | (pool, Err _) => try_instances D env f fuel (pool, checked) c insts
    end
  end.

(** type_inference.rs:165-218 [build_satisfaction]. *)
Fixpoint build (D : decls) (env : kind_env) (pr : premise) (fuel : nat) (st : context * list N) (c : constr) (count : N)
    : outcome (context * list N * answer sat) :=
  match fuel with
  | O => OutOfFuel
  | S fuel =>
    if (recursion_limit <? count)%N then Ret (st, No RecursionLimitExceeded)
    else
      let '(pool, checked) := st in
      let* r := find_premise fuel pool pr (c_class c) (c_args c) in
      match r with
      | (Some e, pool) => Ret (pool, checked, Yes (ByPremise (e_id e) (e_path e)))
      | (None, pool) =>
        let* r := ensure_overlap_checked D env fuel (pool, checked) (c_class c) in
        match r with
        | (st, Err _) => Ret (st, No OverlappingInstances)
        | (st, Ok) =>
          try_instances D env (fun st c => build D env pr fuel st c (count + 1)%N) fuel st c (available D (c_class c))
        end
      end
  end.

(** type_inference.rs:505-534 [infer_instance_satisfaction]: what an instance has to show for the
    superclasses of its class. *)
Definition instance_satisfaction (D : decls) (env : kind_env) (fuel : nat) (st : context * list N) (i : N)
    : outcome (context * list N * answer (list sat)) :=
  let '(pool, checked) := st in
  let inst := instances D i in
  let* r := install_all D fuel (pool, []) (i_s_params inst) in
  let '(pool, pr) := r in
  let* r := apply_class fuel pool (classes D (c_class (i_target inst))) (c_args (i_target inst)) in
  let '(con, pool) := r in
  all_satisfied (fun st c => build D env pr fuel st c 0%N) (pool, checked) (k_supers con).

(** type_inference.rs:493-503 [verify_classes_hierarchy] on the classes of the module: each with the
    classes of its superclass constraints. *)
Definition verify_classes_hierarchy (cs : list (N * list N)) : outcome (result (list N)) :=
  let* groups := Topo.Model.run N.eqb (fun v : N * list N => snd v) (map (fun c => (fst c, c)) cs) in
  match find (fun g => (2 <=? List.length g)%nat) groups with
  | Some g => Ret (Err (map fst g))
  | None => Ret Ok
  end.
