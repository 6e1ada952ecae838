(** What it means that a class constraint holds, and what evidence for it is. *)
From Verif.Base Require Import Base Vec.
From Verif.Types Require Import Model Spec.
From Verif.Instances Require Import Model.
From Coq Require Export Relations.

(** The kind a type has in the context. *)
Definition has_kind (env : kind_env) (pool : context) (t : ty) (k : ast_kind) : Prop :=
  exists p, conv (fun n => get_kind env n pool t) (k, p).

(** The term given for each parameter. *)
Definition given (params : list gen) (args : list gty) (g : gen) : option gty :=
  option_map snd (find (fun x => (fst x =? g)%N) (combine params args)).

(** A declaration's term with its parameters replaced. *)
Definition instance_of (params : list gen) (args : list gty) (t : gty) : gty := replace_gens (given params args) t.

(** A closed term over the given parameters: no names, no other parameters. *)
Definition closed_over (params : list gen) (t : gty) : Prop :=
  forall x, In x (leaves t) -> match x with TCon _ => True | TGen g lv => In g params /\ lv = top | _ => False end.

(** A constraint on types of the context, as many as the class has parameters and of their kinds. *)
Definition constraint_ok (env : kind_env) (pool : context) (ts : list ty) (D : decls) (c : constr) : Prop :=
  incl (c_args c) ts /\
  Forall2 (fun t g => has_kind env pool t (gen_kind env g)) (c_args c) (k_params (classes D (c_class c))).

(** A constraint of a declaration: its types stand for closed terms over the parameters. *)
Definition declared_constraint (env : kind_env) (pool : context) (ts : list ty) (D : decls) (params : list gen) (c : constr) : Prop :=
  constraint_ok env pool ts D c /\
  Forall (fun t => exists g, closed_over params g /\ forall s, equations pool s -> interp s t = g) (c_args c).

(** The declarations are imported into the context. *)
Definition declared (env : kind_env) (pool : context) (ts : list ty) (D : decls) : Prop :=
  (forall cl, NoDup (k_params (classes D cl)) /\
     Forall (declared_constraint env pool ts D (k_params (classes D cl))) (k_supers (classes D cl))) /\
  (forall i, NoDup (i_params (instances D i)) /\
     declared_constraint env pool ts D (i_params (instances D i)) (i_target (instances D i)) /\
     Forall (declared_constraint env pool ts D (i_params (instances D i))) (i_s_params (instances D i))) /\
  (forall cl i, In i (available D cl) -> c_class (i_target (instances D i)) = cl).

(** No class is above itself. *)
Definition well_founded_classes (D : decls) : Prop :=
  exists rank : N -> nat, forall cl c, In c (k_supers (classes D cl)) -> (rank (c_class c) < rank cl)%nat.

Section Meaning.
  Variable env : kind_env.
  Variable D : decls.
  (** What the variables of the context stand for. *)
  Variable s : var -> gty.

  (** The path of superclass constraints leads from one constraint to another. *)
  Inductive leads : N -> list gty -> list N -> N -> list gty -> Prop :=
  | leads_here cl args : leads cl args [] cl args
  | leads_up cl args c path cl' args' : In c (k_supers (classes D cl)) ->
      leads (c_class c) (map (fun t => instance_of (k_params (classes D cl)) args (interp s t)) (c_args c)) path cl' args' ->
      leads cl args (c_id c :: path) cl' args'.

  (** The satisfaction is evidence for the constraint, from the constraints assumed: it names one of
      them and the superclasses to go through, or an available instance with its type arguments and
      evidence for what the instance asks for. Levels of type parameters do not count. *)
  Inductive proves (assumed : list constr) : sat -> N -> list gty -> Prop :=
  | proves_premise p path cl args args' : In p assumed ->
      leads (c_class p) (map (interp s) (c_args p)) path cl args' -> map erase args' = map erase args ->
      proves assumed (ByPremise (c_id p) path) cl args
  | proves_instance i ty_args s_args cl args : In i (available D cl) ->
      Forall2 (fun t g => kind_of env (interp s t) = Some (gen_kind env g)) ty_args (i_params (instances D i)) ->
      map (fun t => instance_of (i_params (instances D i)) (map (interp s) ty_args) (interp s t)) (c_args (i_target (instances D i))) = args ->
      Forall2 (fun e c => proves assumed e (c_class c)
                 (map (fun t => instance_of (i_params (instances D i)) (map (interp s) ty_args) (interp s t)) (c_args c)))
              s_args (i_s_params (instances D i)) ->
      proves assumed (ByInstance i ty_args s_args) cl args.

  (** The constraint follows from those assumed, whatever the evidence. *)
  Inductive holds (assumed : list constr) : N -> list gty -> Prop :=
  | holds_premise p path cl args args' : In p assumed ->
      leads (c_class p) (map (interp s) (c_args p)) path cl args' -> map erase args' = map erase args ->
      holds assumed cl args
  | holds_instance i tys cl args : In i (available D cl) ->
      Forall2 (fun t g => kind_of env t = Some (gen_kind env g)) tys (i_params (instances D i)) ->
      map (fun t => instance_of (i_params (instances D i)) tys (interp s t)) (c_args (i_target (instances D i))) = args ->
      Forall (fun c => holds assumed (c_class c) (map (fun t => instance_of (i_params (instances D i)) tys (interp s t)) (c_args c)))
             (i_s_params (instances D i)) ->
      holds assumed cl args.

  (** The same, by evidence nested at most so deep. *)
  Inductive holds_within (assumed : list constr) : nat -> N -> list gty -> Prop :=
  | within_premise d p path cl args args' : In p assumed ->
      leads (c_class p) (map (interp s) (c_args p)) path cl args' -> map erase args' = map erase args ->
      holds_within assumed (S d) cl args
  | within_instance d i tys cl args : In i (available D cl) ->
      Forall2 (fun t g => kind_of env t = Some (gen_kind env g)) tys (i_params (instances D i)) ->
      map (fun t => instance_of (i_params (instances D i)) tys (interp s t)) (c_args (i_target (instances D i))) = args ->
      Forall (fun c => holds_within assumed d (c_class c) (map (fun t => instance_of (i_params (instances D i)) tys (interp s t)) (c_args c)))
             (i_s_params (instances D i)) ->
      holds_within assumed (S d) cl args.
End Meaning.

(** The premise records exactly the constraints above those assumed. *)
Definition premise_of (pool : context) (D : decls) (assumed : list constr) (pr : premise) : Prop :=
  forall s, equations pool s ->
  (forall e, In e pr -> exists a, In a assumed /\ c_id a = e_id e /\
     leads D s (c_class a) (map (interp s) (c_args a)) (e_path e) (e_class e) (map (interp s) (e_args e))) /\
  (forall a path cl args, In a assumed -> leads D s (c_class a) (map (interp s) (c_args a)) path cl args ->
     exists e, In e pr /\ e_id e = c_id a /\ e_path e = path /\ e_class e = cl /\ map (interp s) (e_args e) = args).

(** The types of the constraint are known: they stand for the same terms in every solution, without
    names, and so without variables. ([bottom] is the largest level there is.) *)
Definition known (pool : context) (c : constr) : Prop :=
  Forall (fun t => exists g, (forall s, equations pool s -> interp s t = g) /\ (forall n k lv, ~ In (TName n k lv) (leaves g)) /\ within bottom g) (c_args c).

(** What an instance is for, with its parameters replaced. *)
Definition gives (D : decls) (s : var -> gty) (i : N) (tys : list gty) : list gty :=
  map (fun t => instance_of (i_params (instances D i)) tys (interp s t)) (c_args (i_target (instances D i))).

Definition fitting (env : kind_env) (D : decls) (i : N) (tys : list gty) : Prop :=
  Forall2 (fun t g => kind_of env t = Some (gen_kind env g)) tys (i_params (instances D i)).

(** No constraint is given by both instances, or one is. *)
Definition apart (env : kind_env) (pool : context) (D : decls) (i j : N) : Prop :=
  forall s, equations pool s -> forall tys tys', fitting env D i tys -> fitting env D j tys' -> gives D s i tys <> gives D s j tys'.
Definition overlapping (env : kind_env) (pool : context) (D : decls) (i j : N) : Prop :=
  exists s tys tys', equations pool s /\ fitting env D i tys /\ fitting env D j tys' /\ gives D s i tys = gives D s j tys'.

(** Two instances of one other module were compared when that module was checked. *)
Definition compared_before (D : decls) (i j : N) : Prop := module_of D i = module_of D j /\ module_of D i <> here D.

(** What was compared before is apart. *)
Definition others_apart (env : kind_env) (pool : context) (D : decls) : Prop :=
  forall cl i j, In i (available D cl) -> In j (available D cl) -> i <> j -> compared_before D i j -> apart env pool D i j.

(** Every parameter of an instance is in what it is for. *)
Definition parameters_used (pool : context) (D : decls) : Prop :=
  forall i g, In g (i_params (instances D i)) -> exists t, In t (c_args (i_target (instances D i))) /\
    forall s, equations pool s -> exists lv, In (TGen g lv) (leaves (interp s t)).

(** The class [y] is a superclass of [x], the classes being given with their superclasses. *)
Definition superclass (cs : list (N * list N)) (x y : N) : Prop := exists ss, In (x, ss) cs /\ In y ss.
Definition ancestor (cs : list (N * list N)) : N -> N -> Prop := clos_trans N (superclass cs).
