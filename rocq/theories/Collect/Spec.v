(** What a module depends on, and which modules a program consists of. *)
From Verif.Base Require Import Base.
From Verif.Sexp Require Import Model.
From Verif.Path Require Import Model.
From Verif.Scope Require Spec.
From Verif.Collect Require Import Model.

Inductive no_std_form : sexp -> Prop :=
| nsf l l0 : no_std_form (Sexp l (RList [Sexp l0 (RSymbol (t_ "no-implicit-std"))])).
Notation import_form := Scope.Spec.import_form.

(** [~] in a package other than the current one means that package. *)
Definition relative (self q : path) : path :=
  match package q, package self with
  | None, Some n => {| package := Some n; module := module q |}
  | _, _ => q
  end.

(** The module [self] with this code depends on [d], under the name [key]. *)
Definition dependency (self : path) (ss : list sexp) (key : text) (d : path) : Prop :=
  (exists s ts q, In s ss /\ import_form s key ts /\ parse_path key = Ok q /\ d = relative self q /\ d <> self) \/
  (self <> builtin_path /\ key = show_path builtin_path /\ d = builtin_path) \/
  ((forall s, In s ss -> ~ no_std_form s) /\ self <> std_path /\ key = show_path std_path /\ d = std_path).

(** Its imports can all be resolved. *)
Definition resolvable (self : path) (ss : list sexp) : Prop :=
  (forall s key ts, In s ss -> import_form s key ts -> exists q, parse_path key = Ok q /\ relative self q <> self) /\
  (self = std_path -> exists s, In s ss /\ no_std_form s).

Definition depends_on (load : path -> loaded) (p d : path) : Prop :=
  exists ss key, code (load p) = Some ss /\ dependency p ss key d.

(** The modules of a program with the given entry points. *)
Inductive program (load : path -> loaded) (inputs : list path) : path -> Prop :=
| pr_input p : In p inputs -> program load inputs p
| pr_dep p d : program load inputs p -> depends_on load p d -> program load inputs d.

(** Threads with something to do, and schedules that only name such threads. *)
Definition busy (t : thread) (s : state) : Prop :=
  match t with
  | Main => main s <> []
  | Task k => exists x, nth_error (tasks s) k = Some x /\ x <> Ended
  end.
Fixpoint all_busy (next : thread -> state -> outcome state) (schedule : list thread) (s : state) : Prop :=
  match schedule with
  | [] => True
  | t :: schedule => busy t s /\ forall s', next t s = Ret s' -> all_busy next schedule s'
  end.

(** One of the sources depends on another, directly or not. *)
Inductive leads (sources : list source) : source -> source -> Prop :=
| ld_dep a b key : In a sources -> In b sources -> In (key, s_path (base b)) (s_deps (base a)) -> leads sources a b
| ld_trans a b c : leads sources a b -> leads sources b c -> leads sources a c.
