(** Model of llrl0/src/source/collector.rs, of the dependencies in source.rs and of source/set.rs. *)
From Verif.Base Require Import Base Assoc.
From Verif.Lexer Require Import Model.
From Verif.Sexp Require Import Model.
From Verif.Path Require Import Model.
From Verif.Topo Require Model.
From Verif.Scope Require Model.
From Verif.Build Require Model.

(** source/error.rs:10-18. Failures to load, parse or preprocess are not told apart. *)
Inductive error := LoadError | InvalidImportPath (t : text) | CannotImportModuleItself.

(** source.rs:28-34. *)
Record source := { base : Build.Model.source; errors : list error }.
Notation s_path := Build.Model.s_path.
Notation s_deps := Build.Model.s_deps.
Notation s_implicit_std := Build.Model.s_implicit_std.

(** syntax/decl.rs:58-69 [NoImplicitStd]. *)
Definition match_no_implicit_std (s : sexp) : bool :=
  match s with
  | Sexp _ (RList [Sexp _ (RSymbol h)]) => text_eqb h (t_ "no-implicit-std")
  | _ => false
  end.

(** source.rs:91-115: the loop over the forms. [self] is the path of the source. *)
Fixpoint scan (self : path) (ss : list sexp) (std : bool) (deps : list (text * path)) (errs : list error)
  : bool * list (text * path) * list error :=
  match ss with
  | [] => (std, deps, errs)
  | s :: ss =>
    if match_no_implicit_std s then scan self ss false deps errs
    else match Scope.Model.match_import s with
    | Some (t, _) =>
      match parse_path t with
      | Ok q =>
        let q := if is_current (package q) && negb (is_current (package self))
                 then {| package := package self; module := module q |} else q in
        if path_eqb q self then scan self ss std deps (errs ++ [CannotImportModuleItself])
        else scan self ss std (hinsert t q deps) errs
      | IllegalCharacters _ => scan self ss std deps (errs ++ [InvalidImportPath t])
      end
    | None => scan self ss std deps errs
    end
  end.

(** What loading, parsing and preprocessing a path yields (collector.rs:65-75): the code, when there is
    any, and the errors. *)
Record loaded := { code : option (list sexp); load_errors : list error }.

(** source.rs:37-45 and 85-133 [resolve_dependencies]. *)
Definition source_of (self : path) (l : loaded) : source :=
  match code l with
  | None => {| base := {| s_path := self; s_implicit_std := true; s_deps := [] |}; errors := load_errors l |}
  | Some ss =>
    let '(std, deps, errs) := scan self ss true [] (load_errors l) in
    let deps := if path_eqb self builtin_path then deps else hinsert (show_path builtin_path) builtin_path deps in
    let '(deps, errs) :=
      if std then
        if path_eqb self std_path then (deps, errs ++ [CannotImportModuleItself])
        else (hinsert (show_path std_path) std_path deps, errs)
      else (deps, errs) in
    {| base := {| s_path := self; s_implicit_std := std; s_deps := deps |}; errors := errs |}
  end.

(** A task of the collector, collector.rs:58-82. *)
Inductive task :=
| Begin (p : path)
| Loading (p : path)
| Visiting (src : source) (deps : list path)
| Ended.

(** collector.rs:38-44; [located] holds the paths known to the table of source locations, [loads] the
    paths loaded so far, [main] the inputs the main thread has still to visit. *)
Record state := {
  main : list path; ongoing : list path; located : list path; tasks : list task;
  result : list source; loads : list path }.

Definition mem (p : path) (l : list path) : bool := existsb (path_eqb p) l.
Definition set_main l s := {| main := l; ongoing := ongoing s; located := located s; tasks := tasks s; result := result s; loads := loads s |}.
Definition set_task k t s := {| main := main s; ongoing := ongoing s; located := located s;
  tasks := Build.Model.update k (fun _ => t) (tasks s); result := result s; loads := loads s |}.

(** source/set.rs:20-26 [insert]: a source replaces the one of the same path. *)
Definition set_insert (src : source) (l : list source) : list source :=
  src :: filter (fun x => negb (path_eqb (s_path (base x)) (s_path (base src)))) l.

(** collector.rs:47-58 [collect]. *)
Definition collect (p : path) (s : state) : state :=
  if mem p (ongoing s) then s
  else {| main := main s; ongoing := p :: ongoing s; located := located s; tasks := tasks s ++ [Begin p]; result := result s; loads := loads s |}.

Section Run.
Variable load : path -> loaded.

(** One step of a task. [begin_locate] panics on a path it knows (source_loc.rs:38). *)
Definition step_task (k : nat) (s : state) : outcome state :=
  match nth_error (tasks s) k with
  | None | Some Ended => Ret s
  | Some (Begin p) =>
    if mem p (located s) then Panic
    else Ret (set_task k (Loading p)
      {| main := main s; ongoing := ongoing s; located := p :: located s; tasks := tasks s; result := result s; loads := loads s |})
  | Some (Loading p) =>
    let src := source_of p (load p) in
    Ret (set_task k (Visiting src (map snd (s_deps (base src))))
      {| main := main s; ongoing := ongoing s; located := located s; tasks := tasks s; result := result s; loads := p :: loads s |})
  | Some (Visiting src (d :: ds)) => Ret (collect d (set_task k (Visiting src ds) s))
  | Some (Visiting src []) =>
    Ret (set_task k Ended
      {| main := main s; ongoing := ongoing s; located := located s; tasks := tasks s; result := set_insert src (result s); loads := loads s |})
  end.

(** collector.rs:27-31. *)
Definition step_main (s : state) : outcome state :=
  match main s with
  | [] => Ret s
  | p :: l => Ret (collect p (set_main l s))
  end.

Inductive thread := Main | Task (k : nat).
Definition step (t : thread) (s : state) : outcome state :=
  match t with Main => step_main s | Task k => step_task k s end.
Fixpoint exec (schedule : list thread) (s : state) : outcome state :=
  match schedule with
  | [] => Ret s
  | t :: schedule => let* s := step t s in exec schedule s
  end.
Definition start (inputs : list path) : state :=
  {| main := inputs; ongoing := []; located := []; tasks := []; result := []; loads := [] |}.
End Run.

(** No thread has anything left to do. *)
Definition complete (s : state) : Prop := main s = [] /\ forall t, In t (tasks s) -> t = Ended.

(** source/set.rs:44-65 [resolve_dependencies_order]; the order of the hash maps is the order of the
    list. *)
Fixpoint singletons (groups : list (list source)) : list source + list path :=
  match groups with
  | [] => inl []
  | [src] :: groups => match singletons groups with inl l => inl (src :: l) | inr e => inr e end
  | group :: _ => inr (map (fun src => s_path (base src)) group)
  end.
Definition dependencies_order (sources : list source) : outcome (list source + list path) :=
  let* groups := Topo.Model.run path_eqb (fun src => map snd (s_deps (base src)))
                   (map (fun src => (s_path (base src), src)) sources) in
  Ret (singletons groups).
