(** Kind inference: llrl0/src/module/sema/kind_inference.rs, over the unification of kinds of
    [Verif.Kind]. Constructs (ast.rs [Construct]: classes, type constructors, functions, methods,
    instances and type parameters, each with the module it belongs to) are numbers here. The place
    an error is reported on ([e.on(construct)]) is left out. *)
From Verif.Base Require Import Base Vec.
From Verif.Kind Require Import Model.
From Verif.Topo Require Model.

(** What the rest of the program contributes: which constructs belong to the module at hand
    (kind_inference.rs:62, [construct.module() == current_mid]) and the kinds recorded for the
    constructs of other modules (:67-71). *)
Record modules := { is_local : nat -> bool; recorded : nat -> option ast_kind }.

(** kind_inference.rs:19-26 [Context]: the pool, [u_kinds] and [inferred_kinds]. The maps are lists,
    the latest entry first. *)
Record state := { pool : context; u_kinds : list (nat * kind); inferred : list (nat * ast_kind) }.

(** kind_inference.rs:9-14: the state in which inference starts. *)
Definition start : state := {| pool := new_context; u_kinds := []; inferred := [] |}.

Fixpoint assoc {A} (c : nat) (l : list (nat * A)) : option A :=
  match l with
  | [] => None
  | (d, a) :: l => if Nat.eqb c d then Some a else assoc c l
  end.

(** sema.rs [Error::CannotUnifyKind] and [Error::UnsupportedKind]. *)
Inductive kerror :=
| CannotUnifyKind (a b : ast_kind) (e : error)
| UnsupportedKind (k : ast_kind).

(** The [?] operator. *)
Definition try_ {A B} (m : outcome (kerror + A)) (f : A -> outcome (kerror + B)) : outcome (kerror + B) :=
  let* r := m in match r with inl e => Ret (inl e) | inr a => f a end.

Notation "'let?' x ':=' m 'in' k" := (try_ m (fun x => k))
  (at level 200, x pattern, m at level 100, k at level 200, right associativity).

(** ast/types.rs [Type]. [Use] has no values once resolved; [Con] and [Gen] name constructs; [Error]
    makes inference panic and is left out. *)
Inductive ty :=
| TCon (c : nat)
| TGen (c : nat)
| TApp (callee : ty) (args : list ty).

(** ast/types.rs [Constraint]: a class applied to types. *)
Record constraint := { class : nat; class_args : list ty }.

(** ast/types.rs [TypeParameter]: its construct and the kind written on it. *)
Record tparam := { tp : nat; ann : option ast_kind }.

(** ast/types.rs [Scheme]. *)
Record scheme := { ty_params : list tparam; s_params : list constraint; body : ty }.

Definition with_pool (st : state) (p : context) : state :=
  {| pool := p; u_kinds := u_kinds st; inferred := inferred st |}.

(** kind_inference.rs:29-42 [unify]. *)
Definition unify_kinds (fuel : nat) (st : state) (a b : kind) : outcome (kerror + state) :=
  let* (p, r) := unify fuel (pool st) a b in
  match r with
  | Ok => Ret (inr (with_pool st p))
  | Err e =>
    let* (a, p) := export fuel p a in
    let* (b, p) := export fuel p b in
    Ret (inl (CannotUnifyKind a b e))
  end.

(** kind_inference.rs:56-76 [kind_of]. *)
Definition kind_of (mods : modules) (st : state) (c : nat) : outcome (kind * state) :=
  match assoc c (u_kinds st) with
  | Some k => Ret (k, st)
  | None =>
    let* (k, p) :=
      if is_local mods c then Ret (new_var (pool st))
      else match recorded mods c with
           | Some k => import (pool st) k
           | None => Panic
           end in
    Ret (k, {| pool := p; u_kinds := (c, k) :: u_kinds st; inferred := inferred st |})
  end.

(** ast/kind.rs:26-32 [contains_error]. *)
Fixpoint contains_error (k : ast_kind) : bool :=
  match k with
  | AError _ => true
  | AFun args ret => existsb contains_error args || contains_error ret
  | _ => false
  end.

(** ast/kind.rs:34-42 [is_first_class]. *)
Fixpoint is_first_class (k : ast_kind) : bool :=
  match k with
  | AType => true
  | AFun args ret => forallb is_first_class args && is_first_class ret
  | _ => false
  end.

(** kind_inference.rs:78-92 [fix_kind_of]. *)
Definition fix_kind_of (mods : modules) (fuel : nat) (st : state) (c : nat) (ensure_first_class : bool)
    : outcome (kerror + state) :=
  let* (k, st) := kind_of mods st c in
  let* (k, p) := export fuel (pool st) k in
  if contains_error k then Panic
  else if ensure_first_class && negb (is_first_class k) then Ret (inl (UnsupportedKind k))
  else Ret (inr {| pool := p; u_kinds := u_kinds st; inferred := (c, k) :: inferred st |}).

(** A construct with type parameters and constraints (ast.rs:91-101 [Generic]) and the kind of what
    it makes: the arguments of [setup_generic]. *)
Inductive sort := SType | SConstraint | SSatisfaction | SValue.

Definition sort_kind (s : sort) : kind :=
  match s with SType => KType | SConstraint => KConstraint | SSatisfaction => KSatisfaction | SValue => KValue end.

Record generic := { construct : nat; generic_types : list tparam; generic_constraints : nat; makes : sort }.

(** ast.rs:97-99 [is_monomorphic]. *)
Definition is_monomorphic (g : generic) : bool :=
  match generic_types g with [] => Nat.eqb (generic_constraints g) 0 | _ => false end.

(** kind_inference.rs:107-117: the kinds of the type parameters, unified with their annotations. *)
Fixpoint setup_params (mods : modules) (fuel : nat) (st : state) (tps : list tparam)
    : outcome (kerror + list kind * state) :=
  match tps with
  | [] => Ret (inr ([], st))
  | t :: tps =>
    let* (k, st) := kind_of mods st (tp t) in
    let? st :=
      match ann t with
      | Some a =>
        let* (ka, p) := import (pool st) a in
        unify_kinds fuel (with_pool st p) k ka
      | None => Ret (inr st)
      end in
    let? (ks, st) := setup_params mods fuel st tps in
    Ret (inr (k :: ks, st))
  end.

(** kind_inference.rs:94-127 [setup_generic]. The result is not used by any caller. *)
Definition setup_generic (mods : modules) (fuel : nat) (st : state) (g : generic) : outcome (kerror + state) :=
  let* (a, st) := kind_of mods st (construct g) in
  let? (b, st) :=
    if is_monomorphic g then Ret (inr (sort_kind (makes g), st))
    else
      let? (params, st) := setup_params mods fuel st (generic_types g) in
      let '(k, p) := new_fun (pool st) (params ++ repeat KSatisfaction (generic_constraints g)) (sort_kind (makes g)) in
      Ret (inr (k, with_pool st p)) in
  unify_kinds fuel st a b.

(** kind_inference.rs:134-138: the type parameters are fixed one by one; [default_vars] is unwrapped. *)
Fixpoint fix_params (mods : modules) (fuel : nat) (st : state) (tps : list tparam) : outcome (kerror + state) :=
  match tps with
  | [] => Ret (inr st)
  | t :: tps =>
    let* (k, st) := kind_of mods st (tp t) in
    let* (p, r) := default_vars fuel (pool st) k KType in
    match r with
    | Err _ => Panic
    | Ok =>
      let? st := fix_kind_of mods fuel (with_pool st p) (tp t) true in
      fix_params mods fuel st tps
    end
  end.

(** kind_inference.rs:129-140 [fix_generic]. *)
Definition fix_generic (mods : modules) (fuel : nat) (st : state) (g : generic) : outcome (kerror + state) :=
  let? st := fix_params mods fuel st (generic_types g) in
  fix_kind_of mods fuel st (construct g) false.

(** kind_inference.rs:440-464 [Infer<ast::Type>], and :218-231 [Infer<Vec<T>>] for the arguments. *)
Fixpoint infer_type (mods : modules) (fuel : nat) (st : state) (t : ty) : outcome (kerror + kind * state) :=
  match t with
  | TCon c | TGen c => let* (k, st) := kind_of mods st c in Ret (inr (k, st))
  | TApp callee args =>
    let? (callee, st) := infer_type mods fuel st callee in
    let? (args, st) :=
      (fix infer_types (st : state) (ts : list ty) : outcome (kerror + list kind * state) :=
         match ts with
         | [] => Ret (inr ([], st))
         | t :: ts =>
           let? (k, st) := infer_type mods fuel st t in
           let? (ks, st) := infer_types st ts in
           Ret (inr (k :: ks, st))
         end) st args in
    let '(ret, p) := new_var (pool st) in
    let '(fun_, p) := new_fun p args ret in
    let? st := unify_kinds fuel (with_pool st p) callee fun_ in
    Ret (inr (ret, st))
  end.

(** The same recursion as a function of its own. *)
Fixpoint infer_types (mods : modules) (fuel : nat) (st : state) (ts : list ty) : outcome (kerror + list kind * state) :=
  match ts with
  | [] => Ret (inr ([], st))
  | t :: ts =>
    let? (k, st) := infer_type mods fuel st t in
    let? (ks, st) := infer_types mods fuel st ts in
    Ret (inr (k :: ks, st))
  end.

(** kind_inference.rs:429-438 [Infer<ast::Annotation<ast::Type>>], and the loops over fields
    (:242-245, :271-274): a type that has to have kind [Type]. *)
Definition infer_annotation (mods : modules) (fuel : nat) (st : state) (t : ty) : outcome (kerror + state) :=
  let? (k, st) := infer_type mods fuel st t in
  unify_kinds fuel st k KType.

(** kind_inference.rs:466-481 [Infer<ast::Constraint>]. *)
Definition infer_constraint (mods : modules) (fuel : nat) (st : state) (c : constraint) : outcome (kerror + state) :=
  let* (con_kind, st) := kind_of mods st (class c) in
  let? (args, st) := infer_types mods fuel st (class_args c) in
  let '(k, p) := new_fun (pool st) args KConstraint in
  unify_kinds fuel (with_pool st p) k con_kind.

(** A constraint or a type of kind [Type] to look at. *)
Inductive check := CType (t : ty) | CClass (c : constraint).

Definition infer_check (mods : modules) (fuel : nat) (st : state) (c : check) : outcome (kerror + state) :=
  match c with CType t => infer_annotation mods fuel st t | CClass c => infer_constraint mods fuel st c end.

(** [for x in xs { f(x)?; }]. *)
Fixpoint each {A} (f : state -> A -> outcome (kerror + state)) (st : state) (l : list A) : outcome (kerror + state) :=
  match l with
  | [] => Ret (inr st)
  | x :: l => let? st := f st x in each f st l
  end.

(** What every implementation of [Infer] does in turn: [setup_generic] for some constructs, a walk
    over constraints and types, then [fix_generic] for the same constructs. *)
Record group := { generics : list generic; checks : list check }.

Definition infer_group (mods : modules) (fuel : nat) (st : state) (g : group) : outcome (kerror + state) :=
  let? st := each (setup_generic mods fuel) st (generics g) in
  let? st := each (infer_check mods fuel) st (checks g) in
  each (fix_generic mods fuel) st (generics g).

Definition infer_groups (mods : modules) (fuel : nat) (gs : list group) : outcome (kerror + list (nat * ast_kind)) :=
  let? st := each (infer_group mods fuel) start gs in
  Ret (inr (inferred st)).

(** * Modules *)

(** What an expression contributes ([Infer<ast::Expr>], kind_inference.rs:392-414): the local functions
    and the annotated types met on the way through it, in the order in which they are met. *)
Inductive item :=
| ILocalFun (id : nat) (ann : option scheme) (body : list item)
| IType (t : ty).

(** kind_inference.rs:483-496, the walk over a scheme. *)
Definition scheme_checks (s : scheme) : list check := map CClass (s_params s) ++ [CType (body s)].

(** ast/types.rs:427-435, a scheme as a [Generic]; what it makes is a value (:287, :312, :355, :371, :383). *)
Definition scheme_generic (id : nat) (s : scheme) : generic :=
  {| construct := id; generic_types := ty_params s; generic_constraints := List.length (s_params s); makes := SValue |}.

(** kind_inference.rs:350-360 and :378-390, the part of [Infer<ast::Function>] and
    [Infer<ast::LocalFun>] before the body; also :367-375 [Infer<ast::BuiltinOp>]. *)
Definition function_groups (id : nat) (ann : option scheme) : list group :=
  match ann with
  | Some s => [{| generics := [scheme_generic id s]; checks := scheme_checks s |}]
  | None => []
  end.

Fixpoint item_groups (i : item) : list group :=
  match i with
  | ILocalFun id ann body => function_groups id ann ++ flat_map item_groups body
  | IType t => [{| generics := []; checks := [CType t] |}]
  end.

(** ast/decl.rs:146-151 and :163-210: a builtin type, with the fields of each of its value constructors. *)
Record builtin_type := { bt_id : nat; bt_params : list tparam; bt_values : list (list ty) }.

(** kind_inference.rs:255-265 [Infer<ast::BuiltinTypeCon>]. *)
Definition builtin_group (b : builtin_type) : group :=
  {| generics := [{| construct := bt_id b; generic_types := bt_params b; generic_constraints := 0; makes := SType |}];
     checks := [] |}.

(** kind_inference.rs:267-278 [Infer<ast::BuiltinValueCon>], for the value constructors of a type. *)
Definition builtin_value_groups (b : builtin_type) : list group :=
  map (fun fields => {| generics := []; checks := map CType fields |}) (bt_values b).

(** ast/decl.rs:62-135: a data type with the fields of all its value constructors. *)
Record data_type := { dt_id : nat; dt_params : list tparam; dt_fields : list ty }.

(** ast/types.rs:96-104 and ast/decl.rs:137-143: the type constructors among the fields. Builtin types
    are not told from data types here: the sort ignores what is not one of its keys. *)
Fixpoint type_cons (t : ty) : list nat :=
  match t with
  | TCon c => [c]
  | TGen _ => []
  | TApp f args => type_cons f ++ flat_map type_cons args
  end.

Definition data_deps (d : data_type) : list nat := flat_map type_cons (dt_fields d).

(** kind_inference.rs:233-253 [Infer<[ast::DataType]>]. *)
Definition data_generic (d : data_type) : generic :=
  {| construct := dt_id d; generic_types := dt_params d; generic_constraints := 0; makes := SType |}.

Definition data_group (ds : list data_type) : group :=
  {| generics := map data_generic ds; checks := flat_map (fun d => map CType (dt_fields d)) ds |}.

(** ast/decl.rs:218-344: a class with its methods; a method without a default body has no items. *)
Record class_method := { cm_id : nat; cm_ann : scheme; cm_default : list item }.

Record class_def := { cls_id : nat; cls_params : list tparam; superclasses : list constraint; methods : list class_method }.

(** ast/decl.rs:330-344 and ast/types.rs:396-401: the classes of the constraints on the interface. *)
Definition class_deps (c : class_def) : list nat :=
  map class (superclasses c ++ flat_map (fun m => s_params (cm_ann m)) (methods c)).

Definition class_generics (c : class_def) : list generic :=
  {| construct := cls_id c; generic_types := cls_params c; generic_constraints := 0; makes := SConstraint |}
  :: map (fun m => scheme_generic (cm_id m) (cm_ann m)) (methods c).

Definition class_checks (c : class_def) : list check :=
  map CClass (superclasses c) ++ flat_map (fun m => scheme_checks (cm_ann m)) (methods c).

(** kind_inference.rs:280-302 [Infer<[ast::Class]>]. *)
Definition class_groups (cs : list class_def) : list group :=
  {| generics := flat_map class_generics cs; checks := flat_map class_checks cs |}
  :: flat_map (fun c => flat_map (fun m => flat_map item_groups (cm_default m)) (methods c)) cs.

(** ast/decl.rs:346-390: an instance with its methods. *)
Record instance_def := { inst_id : nat; inst_params : list tparam; inst_s_params : list constraint;
                         target : constraint; inst_methods : list (nat * option scheme * list item) }.

(** kind_inference.rs:304-342 [Infer<ast::Instance>]. *)
Definition instance_groups (i : instance_def) : list group :=
  let anns := flat_map (fun m => match m with (id, Some s, _) => [(id, s)] | _ => [] end) (inst_methods i) in
  {| generics :=
       {| construct := inst_id i; generic_types := inst_params i;
          generic_constraints := List.length (inst_s_params i); makes := SSatisfaction |}
       :: map (fun m => scheme_generic (fst m) (snd m)) anns;
     checks := map CClass (inst_s_params i) ++ [CClass (target i)] ++ flat_map (fun m => scheme_checks (snd m)) anns |}
  :: flat_map (fun m => flat_map item_groups (snd m)) (inst_methods i).

(** ast/root.rs:4-19 [Root]. Its tables are hash maps: a root is given together with the order in
    which each of them is gone through. Methods and value constructors are kept with what they
    belong to. *)
Record root := {
  builtin_types : list builtin_type; data_types : list data_type; classes : list class_def;
  functions : list (nat * option scheme * list item); c_functions : list ty;
  builtin_ops : list (nat * scheme); macros : list (list item);
  instances : list instance_def; init_expressions : list (list item) }.

(** kind_inference.rs:159-207 [Infer<ast::Root>]: the steps in turn. *)
Definition root_groups (r : root) : outcome (list group) :=
  let* ds := Topo.Model.run Nat.eqb data_deps (map (fun d => (dt_id d, d)) (data_types r)) in
  let* cs := Topo.Model.run Nat.eqb class_deps (map (fun c => (cls_id c, c)) (classes r)) in
  Ret (map builtin_group (builtin_types r)
       ++ map data_group ds
       ++ flat_map builtin_value_groups (builtin_types r)
       ++ flat_map class_groups cs
       ++ flat_map (fun '(id, ann, body) => function_groups id ann ++ flat_map item_groups body) (functions r)
       ++ map (fun t => {| generics := []; checks := [CType t] |}) (c_functions r)
       ++ flat_map (fun '(id, s) => function_groups id (Some s)) (builtin_ops r)
       ++ flat_map (flat_map item_groups) (macros r)
       ++ flat_map instance_groups (instances r)
       ++ flat_map (flat_map item_groups) (init_expressions r)).

(** kind_inference.rs:7-17 [run]. *)
Definition infer_root (mods : modules) (fuel : nat) (r : root) : outcome (kerror + list (nat * ast_kind)) :=
  let* gs := root_groups r in infer_groups mods fuel gs.
