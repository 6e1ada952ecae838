(** Model of the parallel build of modules, llrl0/src/module/parallel.rs. *)
From Verif.Base Require Import Base.
From Verif.Path Require Import Model.

(** source.rs:28-34 [Source], the parts used here; [s_deps] maps import strings to paths. The order of
    the list is the iteration order of the hash map. *)
Record source := { s_path : path; s_implicit_std : bool; s_deps : list (text * path) }.

Section Build.
(** Built modules and errors of [Module::build]. *)
Context {M E : Type}.

(** What [Module::build] does, as seen from this file: it consults other modules through [External]
    (parallel.rs:204-226) and ends with a module or an error. Simplification: the per-task cache of
    consulted modules (208) and macro execution are left out. *)
Inductive prog :=
| Finish (r : M + E)
| AskModule (mid : nat) (k : M -> prog)
| FindModule (p : path) (k : option M -> prog).

(** [Result<Arc<Module>, Error>]. *)
Inductive built := Module (m : M) | BuildError (e : E) | DependentModuleBuildFailed.

(** parallel.rs:103-110 [BuildingModule]: the fields set up before the build. *)
Record building := { b_source : source; b_leader_count : nat; b_followers : list nat }.

Definition push_follower (mid : nat) (b : building) : building :=
  {| b_source := b_source b; b_leader_count := b_leader_count b; b_followers := b_followers b ++ [mid] |}.
Fixpoint update {A} (i : nat) (f : A -> A) (l : list A) : list A :=
  match l, i with
  | [], _ => []
  | x :: l, O => f x :: l
  | x :: l, S i => x :: update i f l
  end.
(** [HashMap<Path, ModuleId>], latest insertion first. *)
Fixpoint path_get (p : path) (l : list (path * nat)) : option nat :=
  match l with
  | [] => None
  | (q, i) :: l => if path_eqb p q then Some i else path_get p l
  end.

(** parallel.rs:76-81. *)
Fixpoint link (mid : nat) (deps : list (text * path)) (paths : list (path * nat)) (module : building) (modules : list building)
  : building * list building :=
  match deps with
  | [] => (module, modules)
  | (_, dep) :: deps =>
    match path_get dep paths with
    | Some dep_id =>
      link mid deps paths {| b_source := b_source module; b_leader_count := S (b_leader_count module); b_followers := b_followers module |}
        (update dep_id (push_follower mid) modules)
    | None => link mid deps paths module modules
    end
  end.

(** parallel.rs:69-85. *)
Fixpoint setup (sources : list source) (paths : list (path * nat)) (modules : list building) : list (path * nat) * list building :=
  match sources with
  | [] => (paths, modules)
  | source :: sources =>
    let mid := List.length modules in
    let (module, modules) := link mid (s_deps source) paths {| b_source := source; b_leader_count := 1; b_followers := [] |} modules in
    setup sources ((s_path source, mid) :: paths) (modules ++ [module])
  end.

(** parallel.rs:52-67 the assertion. *)
Definition has_key (k : text) (deps : list (text * path)) : bool := existsb (fun d => text_eqb k (fst d)) deps.
Definition asserts (sources : list source) : bool :=
  match sources with
  | [] => true
  | first :: rest =>
    path_eqb (s_path first) builtin_path && forallb (fun s => has_key (show_path builtin_path) (s_deps s)) rest &&
    forallb (fun s => negb (s_implicit_std s) || has_key (show_path std_path) (s_deps s)) sources
  end.

(** The tasks. A module without a task is [Waiting]; then it is built, added to the backend, stored and
    its followers are released one by one. *)
Inductive status :=
| Waiting
| Running (p : prog)
| Added (m : M)
| Releasing (followers : list nat)
| Failed.

(** What the outside sees: the start of [Module::build] and [Backend::add_module]. *)
Inductive event := Start (mid : nat) | Add (mid : nat).

(** Vectors indexed by module id are functions. [main] holds the modules the main thread has still to
    visit (parallel.rs:155-159). *)
Record state := { main : list nat; count : nat -> nat; result : nat -> built; task : nat -> status; log : list event }.
Definition upd {A} (f : nat -> A) (i : nat) (x : A) (j : nat) : A := if Nat.eqb j i then x else f j.
Definition set_main l s := {| main := l; count := count s; result := result s; task := task s; log := log s |}.
Definition set_count i c s := {| main := main s; count := upd (count s) i c; result := result s; task := task s; log := log s |}.
Definition set_result i r s := {| main := main s; count := count s; result := upd (result s) i r; task := task s; log := log s |}.
Definition set_task i t s := {| main := main s; count := count s; result := result s; task := upd (task s) i t; log := log s |}.
Definition emit e s := {| main := main s; count := count s; result := result s; task := task s; log := log s ++ [e] |}.

Variable builder : nat -> source -> prog.
Section Context.
Variable modules : list building.
Variable paths : list (path * nat).

Definition followers (i : nat) : list nat := match nth_error modules i with Some b => b_followers b | None => [] end.

(** parallel.rs:161-169 [release_dependency_one]. A count below zero, a module id out of range and a
    second task for one module count as panics. *)
Definition release (i : nat) (s : state) : outcome state :=
  match count s i with
  | O => Panic
  | S c =>
    let s := set_count i c s in
    match c with
    | S _ => Ret s
    | O =>
      match task s i, nth_error modules i with
      | Waiting, Some b => Ret (emit (Start i) (set_task i (Running (builder i (b_source b))) s))
      | _, _ => Panic
      end
    end
  end.

(** parallel.rs:205-212 [module]. *)
Definition read_module (mid : nat) (s : state) : outcome M :=
  if Nat.ltb mid (List.length modules) then match result s mid with Module m => Ret m | _ => Panic end else Panic.

(** One atomic step of the task of a module, parallel.rs:167-184. *)
Definition step_task (i : nat) (s : state) : outcome state :=
  match task s i with
  | Waiting | Failed | Releasing [] => Ret s
  | Running (AskModule mid k) => let* m := read_module mid s in Ret (set_task i (Running (k m)) s)
  | Running (FindModule p k) =>
    match path_get p paths with
    | Some id => let* m := read_module id s in Ret (set_task i (Running (k (Some m))) s)
    | None => Ret (set_task i (Running (k None)) s)
    end
  | Running (Finish (inl m)) => Ret (emit (Add i) (set_task i (Added m) s))
  | Running (Finish (inr e)) => Ret (set_task i Failed (set_result i (BuildError e) s))
  | Added m => Ret (set_task i (Releasing (followers i)) (set_result i (Module m) s))
  | Releasing (f :: fs) => release f (set_task i (Releasing fs) s)
  end.

(** One step of the main thread, parallel.rs:155-159. *)
Definition step_main (s : state) : outcome state :=
  match main s with
  | [] => Ret s
  | i :: l => release i (set_main l s)
  end.

(** A schedule names the thread of each step: the main thread or the task of a module. *)
Inductive thread := Main | Task (mid : nat).
Definition step (t : thread) (s : state) : outcome state :=
  match t with Main => step_main s | Task i => step_task i s end.
Fixpoint exec (schedule : list thread) (s : state) : outcome state :=
  match schedule with
  | [] => Ret s
  | t :: schedule => let* s := step t s in exec schedule s
  end.

(** No thread has anything left to do: [rayon::scope] returns. *)
Definition idle (t : status) : Prop := t = Waiting \/ t = Failed \/ t = Releasing [].
Definition complete (n : nat) (s : state) : Prop := main s = [] /\ forall i, i < n -> idle (task s i).

Definition start : state :=
  {| main := seq 0 (List.length modules);
     count := fun i => match nth_error modules i with Some b => b_leader_count b | None => 0 end;
     result := fun _ => DependentModuleBuildFailed; task := fun _ => Waiting; log := [] |}.
End Context.

(** parallel.rs:42-101 [build] up to the state its threads leave behind: every schedule from here. *)
Definition build (sources : list source) (schedule : list thread) : outcome state :=
  if asserts sources then
    let (paths, modules) := setup sources [] [] in
    exec modules paths schedule (start modules)
  else Panic.

(** parallel.rs:92-100: the modules and the errors, each in source order. *)
Fixpoint partition (i : nat) (sources : list source) (s : state) : list M * list (source * built) :=
  match sources with
  | [] => ([], [])
  | src :: sources =>
    let (ms, es) := partition (S i) sources s in
    match result s i with
    | Module m => (m :: ms, es)
    | e => (ms, (src, e) :: es)
    end
  end.
End Build.
Arguments prog : clear implicits.
Arguments built : clear implicits.
Arguments state : clear implicits.
Arguments status : clear implicits.
