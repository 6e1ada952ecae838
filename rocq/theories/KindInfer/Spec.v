(** What it means for kinds to fit a program, independently of how they are found. *)
From Verif.Base Require Import Base.
From Verif.Kind Require Import Model Spec.
From Verif.KindInfer Require Import Model.
From Coq Require Export Permutation Relations.

Section Fit.
  (** A kind for every construct. *)
  Variable K : nat -> ast_kind.

  (** The kind of a type: the kinds of its arguments are those its callee takes. *)
  Inductive has_kind : ty -> ast_kind -> Prop :=
  | hk_con c : has_kind (TCon c) (K c)
  | hk_gen c : has_kind (TGen c) (K c)
  | hk_app callee args ks r : has_kind callee (ast_fun ks r) -> Forall2 has_kind args ks ->
      has_kind (TApp callee args) r.

  (** Types of values have kind [Type]; a class is applied to arguments of the kinds it takes. *)
  Definition check_fits (c : check) : Prop :=
    match c with
    | CType t => has_kind t AType
    | CClass c => exists ks, Forall2 has_kind (class_args c) ks /\ K (class c) = ast_fun ks AConstraint
    end.

  Definition sort_ast (s : sort) : ast_kind :=
    match s with SType => AType | SConstraint => AConstraint | SSatisfaction => ASatisfaction | SValue => AValue end.

  (** A kind written on a type parameter is its kind. *)
  Definition param_fits (t : tparam) : Prop := forall a, ann t = Some a -> K (tp t) = collapse a.

  (** A construct takes its type parameters and an evidence for each of its constraints. *)
  Definition generic_fits (g : generic) : Prop :=
    Forall param_fits (generic_types g) /\
    K (construct g) = ast_fun (map (fun t => K (tp t)) (generic_types g) ++ repeat ASatisfaction (generic_constraints g))
                              (sort_ast (makes g)).

  Definition group_fits (g : group) : Prop := Forall generic_fits (generics g) /\ Forall check_fits (checks g).

  (** Kinds a type parameter may have: built from [Type] alone. *)
  Inductive first_class : ast_kind -> Prop :=
  | fc_type : first_class AType
  | fc_fun args ret : Forall first_class args -> first_class ret -> first_class (AFun args ret).

  Definition params_first_class (g : group) : Prop :=
    Forall (fun x => Forall (fun t => first_class (K (tp t))) (generic_types x)) (generics g).
End Fit.

(** The constructs a group introduces. *)
Definition declared (g : group) : list nat :=
  flat_map (fun x => construct x :: map tp (generic_types x)) (generics g).

(** The constructs its types and constraints mention. *)
Fixpoint type_mentions (t : ty) : list nat :=
  match t with
  | TCon c | TGen c => [c]
  | TApp f args => type_mentions f ++ flat_map type_mentions args
  end.

Definition check_mentions (c : check) : list nat :=
  match c with CType t => type_mentions t | CClass c => class c :: flat_map type_mentions (class_args c) end.

Definition mentions (g : group) : list nat := flat_map check_mentions (checks g).

(** Every construct is introduced once, and mentioned only by the group introducing it and later
    ones, unless it belongs to another module. *)
Fixpoint in_order (mods : modules) (seen : list nat) (gs : list group) : Prop :=
  match gs with
  | [] => True
  | g :: gs =>
    (forall c, In c (declared g) -> is_local mods c = true /\ ~ In c seen) /\
    (forall c, In c (mentions g) -> In c (declared g) \/ In c seen \/ is_local mods c = false) /\
    in_order mods (declared g ++ seen) gs
  end.

(** Kinds without errors, and without functions of no arguments: those which inference records. *)
Definition complete (k : ast_kind) : Prop := proper k /\ collapse k = k.

(** The kinds of other modules are known. *)
Definition known (mods : modules) : Prop :=
  forall c, is_local mods c = false -> exists k, recorded mods c = Some k /\ complete k.

(** Kinds written in the program contain no errors. *)
Definition annotations_proper (g : group) : Prop :=
  Forall (fun x => Forall (fun t => forall a, ann t = Some a -> proper a) (generic_types x)) (generics g).

(** [K] gives the constructs of other modules the kinds recorded for them. *)
Definition respects (mods : modules) (K : nat -> ast_kind) : Prop :=
  forall c k, is_local mods c = false -> recorded mods c = Some k -> K c = k.

(** [K] gives constructs the kinds in the list. *)
Definition extends_kinds (kinds : list (nat * ast_kind)) (K : nat -> ast_kind) : Prop :=
  forall c k, assoc c kinds = Some k -> K c = k.

(** Every name replaced by a kind. *)
Fixpoint instantiate (s : nat -> gkind) (t : gkind) : gkind :=
  match t with
  | GName v => s v
  | GFun args ret => GFun (map (instantiate s) args) (instantiate s ret)
  | t => t
  end.

(** The same groups in another order, and each with its parts in another order. *)
Definition same_group (g g' : group) : Prop :=
  Permutation (generics g) (generics g') /\ Permutation (checks g) (checks g').

Definition reordered (gs gs' : list group) : Prop :=
  exists l, Permutation gs l /\ Forall2 same_group l gs'.

(** The same module with its tables gone through in another order. *)
Definition same_tables (r r' : root) : Prop :=
  Permutation (builtin_types r) (builtin_types r') /\ Permutation (data_types r) (data_types r') /\
  Permutation (classes r) (classes r') /\ Permutation (functions r) (functions r') /\
  Permutation (c_functions r) (c_functions r') /\ Permutation (builtin_ops r) (builtin_ops r') /\
  Permutation (macros r) (macros r') /\ Permutation (instances r) (instances r') /\
  Permutation (init_expressions r) (init_expressions r').

(** * Modules *)

(** The constructs of a module, and its types and constraints, in the order of its text. *)
Definition annotated (id : nat) (ann : option scheme) : list generic * list check :=
  match ann with
  | Some s => ([{| construct := id; generic_types := ty_params s;
                   generic_constraints := List.length (s_params s); makes := SValue |}],
               map CClass (s_params s) ++ [CType (body s)])
  | None => ([], [])
  end.

Fixpoint item_generics (i : item) : list generic :=
  match i with
  | ILocalFun id ann body => fst (annotated id ann) ++ flat_map item_generics body
  | IType _ => []
  end.

Fixpoint item_checks (i : item) : list check :=
  match i with
  | ILocalFun id ann body => snd (annotated id ann) ++ flat_map item_checks body
  | IType t => [CType t]
  end.

Definition root_generics (r : root) : list generic :=
  map (fun b => {| construct := bt_id b; generic_types := bt_params b; generic_constraints := 0; makes := SType |}) (builtin_types r)
  ++ map (fun d => {| construct := dt_id d; generic_types := dt_params d; generic_constraints := 0; makes := SType |}) (data_types r)
  ++ flat_map (fun c => {| construct := cls_id c; generic_types := cls_params c; generic_constraints := 0; makes := SConstraint |}
       :: flat_map (fun m => fst (annotated (cm_id m) (Some (cm_ann m))) ++ flat_map item_generics (cm_default m)) (methods c)) (classes r)
  ++ flat_map (fun '(id, ann, body) => item_generics (ILocalFun id ann body)) (functions r)
  ++ flat_map (fun '(id, s) => fst (annotated id (Some s))) (builtin_ops r)
  ++ flat_map (flat_map item_generics) (macros r)
  ++ flat_map (fun i => {| construct := inst_id i; generic_types := inst_params i;
                           generic_constraints := List.length (inst_s_params i); makes := SSatisfaction |}
       :: flat_map (fun '(id, ann, body) => item_generics (ILocalFun id ann body)) (inst_methods i)) (instances r)
  ++ flat_map (flat_map item_generics) (init_expressions r).

Definition root_checks (r : root) : list check :=
  flat_map (fun d => map CType (dt_fields d)) (data_types r)
  ++ flat_map (fun b => flat_map (map CType) (bt_values b)) (builtin_types r)
  ++ flat_map (fun c => map CClass (superclasses c)
       ++ flat_map (fun m => snd (annotated (cm_id m) (Some (cm_ann m))) ++ flat_map item_checks (cm_default m)) (methods c)) (classes r)
  ++ flat_map (fun '(id, ann, body) => item_checks (ILocalFun id ann body)) (functions r)
  ++ map CType (c_functions r)
  ++ flat_map (fun '(id, s) => snd (annotated id (Some s))) (builtin_ops r)
  ++ flat_map (flat_map item_checks) (macros r)
  ++ flat_map (fun i => map CClass (inst_s_params i) ++ [CClass (target i)]
       ++ flat_map (fun '(id, ann, body) => item_checks (ILocalFun id ann body)) (inst_methods i)) (instances r)
  ++ flat_map (flat_map item_checks) (init_expressions r).

Definition root_declared (r : root) : list nat := flat_map (fun x => construct x :: map tp (generic_types x)) (root_generics r).

(** The kinds fit the whole module. *)
Definition root_fits (K : nat -> ast_kind) (r : root) : Prop :=
  Forall (generic_fits K) (root_generics r) /\ Forall (check_fits K) (root_checks r) /\
  Forall (fun x => Forall (fun t => first_class (K (tp t))) (generic_types x)) (root_generics r).

Definition root_annotations_proper (r : root) : Prop :=
  Forall (fun x => Forall (fun t => forall a, ann t = Some a -> proper a) (generic_types x)) (root_generics r).

(** The type parameters in a type. *)
Fixpoint type_gens (t : ty) : list nat :=
  match t with
  | TCon _ => []
  | TGen c => [c]
  | TApp f args => type_gens f ++ flat_map type_gens args
  end.

Section Scoped.
  Variables (mods : modules) (r : root).

  (** Type constructors and classes are those of the module or of other modules. *)
  Definition known_type (c : nat) : Prop :=
    In c (map bt_id (builtin_types r) ++ map dt_id (data_types r)) \/ is_local mods c = false.

  Definition known_class (c : nat) : Prop := In c (map cls_id (classes r)) \/ is_local mods c = false.

  Definition scoped_type (params : list nat) (t : ty) : Prop :=
    (forall c, In c (type_cons t) -> known_type c) /\ incl (type_gens t) params.

  Definition scoped_constraint (kc : nat -> Prop) (params : list nat) (c : constraint) : Prop :=
    kc (class c) /\ Forall (scoped_type params) (class_args c).

  Definition inner (params : list nat) (ann : option scheme) : list nat :=
    match ann with Some s => map tp (ty_params s) ++ params | None => params end.

  Definition scoped_scheme (kc : nat -> Prop) (params : list nat) (s : scheme) : Prop :=
    Forall (scoped_constraint kc (inner params (Some s))) (s_params s) /\ scoped_type (inner params (Some s)) (body s).

  Fixpoint scoped_item (kc : nat -> Prop) (params : list nat) (i : item) : Prop :=
    match i with
    | IType t => scoped_type params t
    | ILocalFun _ ann body =>
      match ann with Some s => scoped_scheme kc params s | None => True end /\
      fold_right (fun i P => scoped_item kc (inner params ann) i /\ P) True body
    end.

  (** The class [a] has the class [b] in a constraint of its interface. *)
  Definition class_needs (a b : nat) : Prop :=
    exists c d, In c (classes r) /\ In d (classes r) /\ cls_id c = a /\ cls_id d = b /\ In b (class_deps c).

  (** The classes that the default bodies of a class may have in constraints. *)
  Definition default_class (c : class_def) (b : nat) : Prop :=
    clos_refl_trans nat class_needs (cls_id c) b \/ is_local mods b = false.

  (** Names have been resolved, and default bodies keep to the classes their interface needs. *)
  Record scoped : Prop := {
    sc_ids : NoDup (root_declared r);
    sc_local : forall c, In c (root_declared r) -> is_local mods c = true;
    sc_builtin : forall b fields t, In b (builtin_types r) -> In fields (bt_values b) -> In t fields -> scoped_type (map tp (bt_params b)) t;
    sc_data : forall d t, In d (data_types r) -> In t (dt_fields d) -> scoped_type (map tp (dt_params d)) t;
    sc_super : forall c, In c (classes r) -> Forall (scoped_constraint known_class (map tp (cls_params c))) (superclasses c);
    sc_method : forall c m, In c (classes r) -> In m (methods c) ->
      scoped_scheme known_class (map tp (cls_params c)) (cm_ann m) /\
      Forall (scoped_item (default_class c) (inner (map tp (cls_params c)) (Some (cm_ann m)))) (cm_default m);
    sc_function : forall id ann body, In (id, ann, body) (functions r) -> scoped_item known_class [] (ILocalFun id ann body);
    sc_c_function : forall t, In t (c_functions r) -> scoped_type [] t;
    sc_op : forall id s, In (id, s) (builtin_ops r) -> scoped_scheme known_class [] s;
    sc_macro : forall is i, In is (macros r) -> In i is -> scoped_item known_class [] i;
    sc_instance : forall i, In i (instances r) ->
      Forall (scoped_constraint known_class (map tp (inst_params i))) (target i :: inst_s_params i) /\
      forall id ann body, In (id, ann, body) (inst_methods i) -> scoped_item known_class (map tp (inst_params i)) (ILocalFun id ann body);
    sc_init : forall is i, In is (init_expressions r) -> In i is -> scoped_item known_class [] i }.
End Scoped.
