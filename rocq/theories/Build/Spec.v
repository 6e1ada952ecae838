(** What a build of modules has to do, without regard to threads. *)
From Verif.Base Require Import Base.
From Verif.Path Require Import Model.
From Verif.Build Require Import Model.

(** Module [i] imports module [j]. *)
Definition imports (sources : list source) (i j : nat) : Prop :=
  exists si sj key, nth_error sources i = Some si /\ nth_error sources j = Some sj /\ In (key, s_path sj) (s_deps si).
Inductive depends (sources : list source) : nat -> nat -> Prop :=
| dep_direct i j : imports sources i j -> depends sources i j
| dep_trans i j k : imports sources i j -> depends sources j k -> depends sources i k.

(** The sources have distinct paths, and every import leads to an earlier source. *)
Definition ordered (sources : list source) : Prop :=
  NoDup (map s_path sources) /\
  forall i si key p, nth_error sources i = Some si -> In (key, p) (s_deps si) ->
    exists j sj, j < i /\ nth_error sources j = Some sj /\ s_path sj = p.

Section Spec.
Context {M E : Type}.

(** The builder of a module consults only modules it depends on, whatever they contain. A path is
    consulted only if it belongs to such a module or to none. *)
Fixpoint consults (sources : list source) (i : nat) (p : prog M E) : Prop :=
  match p with
  | Finish _ => True
  | AskModule mid k => depends sources i mid /\ forall m, consults sources i (k m)
  | FindModule p k =>
    (forall j sj, nth_error sources j = Some sj -> s_path sj = p -> depends sources i j) /\ forall o, consults sources i (k o)
  end.

(** [runs sources r p x]: the builder [p], consulting the modules of [r], ends with [x]. *)
Inductive runs (sources : list source) (r : nat -> built M E) : prog M E -> M + E -> Prop :=
| runs_finish x : runs sources r (Finish x) x
| runs_ask mid k m x : r mid = Module m -> runs sources r (k m) x -> runs sources r (AskModule mid k) x
| runs_found p j sj k m x : nth_error sources j = Some sj -> s_path sj = p -> r j = Module m ->
    runs sources r (k (Some m)) x -> runs sources r (FindModule p k) x
| runs_none p k x : (forall j sj, nth_error sources j = Some sj -> s_path sj <> p) ->
    runs sources r (k None) x -> runs sources r (FindModule p k) x.

Definition as_built (x : M + E) : built M E := match x with inl m => Module m | inr e => BuildError e end.
Definition succeeded (r : nat -> built M E) (j : nat) : Prop := exists m, r j = Module m.

(** The results of a build: a module all of whose imports succeeded has the result of its builder, any
    other is not built. *)
Definition results (builder : nat -> source -> prog M E) (sources : list source) (r : nat -> built M E) : Prop :=
  forall i si, nth_error sources i = Some si ->
    ((forall j, imports sources i j -> succeeded r j) -> exists x, runs sources r (builder i si) x /\ r i = as_built x) /\
    ((exists j, imports sources i j /\ ~ succeeded r j) -> r i = DependentModuleBuildFailed).

(** What a build returns: its modules and its failures, each in source order, from module [i] on. *)
Inductive reported (r : nat -> built M E) : nat -> list source -> list M -> list (source * built M E) -> Prop :=
| rep_nil i : reported r i [] [] []
| rep_module i src sources m ms es : r i = Module m -> reported r (S i) sources ms es -> reported r i (src :: sources) (m :: ms) es
| rep_error i src sources e ms es : r i = e -> (forall m, e <> Module m) -> reported r (S i) sources ms es -> reported r i (src :: sources) ms ((src, e) :: es).

(** Each module is built at most once, after its imports were added, and added at most once, after
    being built. *)
Definition well_ordered (sources : list source) (log : list event) : Prop :=
  NoDup log /\
  (forall l1 i l2, log = l1 ++ Start i :: l2 -> forall j, imports sources i j -> In (Add j) l1) /\
  (forall l1 i l2, log = l1 ++ Add i :: l2 -> In (Start i) l1).

(** A thread with something to do, and schedules that only name such threads. *)
Definition busy (t : thread) (s : state M E) : Prop :=
  match t with
  | Main => main s <> []
  | Task i => ~ idle (task s i)
  end.
Fixpoint all_busy (next : thread -> state M E -> outcome (state M E)) (schedule : list thread) (s : state M E) : Prop :=
  match schedule with
  | [] => True
  | t :: schedule => busy t s /\ forall s', next t s = Ret s' -> all_busy next schedule s'
  end.
End Spec.
