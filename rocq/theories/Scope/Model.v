(** Model of llrl0/src/module/scope.rs, of [Exports] in module/meaning.rs, and of
    module/sema/{importer,exporter}.rs with the import and export forms of syntax/decl.rs. *)
From Verif.Base Require Import Base Assoc.
From Verif.Lexer Require Import Model.
From Verif.Sexp Require Import Model.

(** module/meaning.rs:7-24 [LocatedConstruct]. A [Construct] is an id compared by equality. *)
Record located := { loc : srcloc; construct : N }.
Definition with_loc (c : located) (l : srcloc) : located := {| loc := l; construct := construct c |}.

(** module/error.rs, the errors of this part. *)
Inductive error :=
| MultipleDeclarations (name : text) (a b : located)
| DuplicatedIdentifier (name : text) (a b : located)
| ConflictingExports (name : text) (a b : located)
| Unresolved (l : srcloc) (name : text)
| WildcardPortNameMustBeWildcard (l : srcloc)
| Syntax (l : srcloc).
Inductive result A := Ok (a : A) | Err (e : error).
Arguments Ok {A} a.
Arguments Err {A} e.

Definition table : Type := list (text * located).

(** scope.rs:52-59 [TopLevel::define]: the table is updated in any case. *)
Definition top_define (name : text) (c : located) (map : table) : table * result unit :=
  (hinsert name c map,
   match hget name map with
   | Some old_c => if (construct old_c =? construct c)%N then Ok tt else Err (MultipleDeclarations name old_c c)
   | None => Ok tt
   end).

(** module/meaning.rs:43-48 [Exports::add]. *)
Definition exports_add (name : text) (c : located) (map : table) : table * option located :=
  (hinsert name c map,
   match hget name map with
   | Some old_c => if (construct old_c =? construct c)%N then None else Some old_c
   | None => None
   end).

(** scope.rs:25-28 and 62-65: the table shared by a top level and the local scopes entered one in
    another, with the stash of each local scope, innermost first. *)
Definition stash : Type := list (text * option located).
Record scopes := { map_ : table; stashes : list stash }.

Section Order.
(** The order in which the drained stash is visited. *)
Variable order : stash -> stash.

(** scope.rs:76-85 [Drop for LocalScope]. *)
Definition drop (st : stash) (map : table) : table :=
  fold_left (fun map e => match e with (name, Some c) => hinsert name c map | (name, None) => hremove name map end)
    (order st) map.

(** The operations on the innermost scope; [Leave] is the drop of a [LocalScope]. *)
Inductive op := Enter | Leave | Define (name : text) (c : located) | Get (name : text).
Inductive response := Done | Got (c : option located) | Failed (e : error).

(** scope.rs:43-60 and 87-110. Simplification: leaving the top level, which cannot be written, does
    nothing. *)
Definition step (o : op) (s : scopes) : outcome (scopes * response) :=
  match o with
  | Enter => Ret ({| map_ := map_ s; stashes := [] :: stashes s |}, Done)
  | Leave =>
    match stashes s with
    | [] => Ret (s, Done)
    | st :: sts => Ret ({| map_ := drop st (map_ s); stashes := sts |}, Done)
    end
  | Get name => Ret (s, Got (hget name (map_ s)))
  | Define name c =>
    match stashes s with
    | [] =>
      let (map, r) := top_define name c (map_ s) in
      Ret ({| map_ := map; stashes := [] |}, match r with Ok _ => Done | Err e => Failed e end)
    | st :: sts =>
      let prev := hget name (map_ s) in
      let map := hremove name (map_ s) in
      let st' := hinsert name prev st in
      match hget name st with
      | Some _ =>
        match prev with
        | Some p => Ret ({| map_ := map; stashes := st' :: sts |}, Failed (DuplicatedIdentifier name p c))
        | None => Panic
        end
      | None => Ret ({| map_ := hinsert name c map; stashes := st' :: sts |}, Done)
      end
    end
  end.

(** A client that stops at the first error. *)
Fixpoint session (ops : list op) (s : scopes) : outcome (list response) :=
  match ops with
  | [] => Ret []
  | o :: ops =>
    let* (s, r) := step o s in
    match r with
    | Failed _ => Ret [r]
    | _ => let* rs := session ops s in Ret (r :: rs)
    end
  end.
End Order.
Definition new_scopes : scopes := {| map_ := []; stashes := [] |}.

(** ** Imports and exports *)

(** importer.rs:9-16 [WildcardPortTarget]. *)
Definition WILDCARD := t_ "_".
Inductive wildcard := Everything | StartsWith (p : text) | EndsWith (s : text).

(** [str::strip_prefix] and [str::strip_suffix]; [str::ends_with]. *)
Definition strip_prefix (p t : text) : option text :=
  if starts_with p t then Some (skipn (List.length p) t) else None.
Definition ends_with (s t : text) : bool := starts_with (rev s) (rev t).
Definition strip_suffix (s t : text) : option text :=
  if ends_with s t then Some (firstn (List.length t - List.length s) t) else None.

(** importer.rs:20-30 [from_pattern]. *)
Definition from_pattern (input : text) : option wildcard :=
  if text_eqb input WILDCARD then Some Everything
  else match strip_prefix WILDCARD input with
       | Some pat => Some (EndsWith pat)
       | None => match strip_suffix WILDCARD input with Some pat => Some (StartsWith pat) | None => None end
       end.

(** importer.rs:32-51 [deconstruct]. Lengths in characters instead of bytes. *)
Definition deconstruct (w : wildcard) (input : text) : option text :=
  match w with
  | Everything => Some input
  | StartsWith prefix =>
    if starts_with prefix input && negb (Nat.eqb (List.length input) (List.length prefix))
    then Some (skipn (List.length prefix) input) else None
  | EndsWith suffix =>
    if ends_with suffix input && negb (Nat.eqb (List.length input) (List.length suffix))
    then Some (firstn (List.length input - List.length suffix) input) else None
  end.

(** importer.rs:53-59 [construct]. *)
Definition construct_name (w : wildcard) (input : text) : text :=
  match w with
  | Everything => input
  | StartsWith prefix => prefix ++ input
  | EndsWith suffix => input ++ suffix
  end.

(** syntax/decl.rs:129-144 [PortTarget]; [None] is the syntax error. *)
Record port_target := { p_loc : srcloc; p_name : option text; p_target : text }.
Definition match_port_target (s : sexp) : option port_target :=
  match s with
  | Sexp l (RSymbol t) => Some {| p_loc := l; p_name := None; p_target := t |}
  | Sexp l (RList [Sexp _ (RSymbol n); Sexp _ (RSymbol t)]) => Some {| p_loc := l; p_name := Some n; p_target := t |}
  | _ => None
  end.

(** syntax/decl.rs:76-93 [Import] and 103-119 [Export]. *)
Definition match_import (s : sexp) : option (text * list sexp) :=
  match s with
  | Sexp _ (RList (Sexp _ (RSymbol h) :: Sexp _ (RString path) :: targets)) =>
    if text_eqb h (t_ "import") then Some (path, targets) else None
  | _ => None
  end.
Definition match_export (s : sexp) : option (list sexp) :=
  match s with
  | Sexp _ (RList (Sexp _ (RSymbol h) :: targets)) => if text_eqb h (t_ "export") then Some targets else None
  | _ => None
  end.

Section Port.
(** The order of iteration over a table. *)
Variable order : table -> table.

(** importer.rs:77-111 and exporter.rs:8-44: visit the entries of the table [from] selected by a
    target, under their new names. [add] is [define] or [add]; it is given the name matched (without
    the text of the wildcard) and the new name. *)
Section Targets.
Context {T : Type}.
Variable from : table.
Variable add : srcloc -> text -> text -> located -> T -> T * result unit.

Fixpoint add_all (l : srcloc) (src dest : wildcard) (entries : table) (t : T) : T * result unit :=
  match entries with
  | [] => (t, Ok tt)
  | (name, c) :: entries =>
    match deconstruct src name with
    | Some name =>
      match add l name (construct_name dest name) c t with
      | (t, Ok _) => add_all l src dest entries t
      | (t, Err e) => (t, Err e)
      end
    | None => add_all l src dest entries t
    end
  end.

Definition add_target (s : sexp) (t : T) : T * result unit :=
  match match_port_target s with
  | None => (t, Err (Syntax (sloc s)))
  | Some select =>
    match from_pattern (p_target select) with
    | Some src =>
      match (match p_name select with
             | Some name => from_pattern name
             | None => Some src
             end) with
      | Some dest => add_all (p_loc select) src dest (order from) t
      | None => (t, Err (WildcardPortNameMustBeWildcard (p_loc select)))
      end
    | None =>
      let name := match p_name select with Some name => name | None => p_target select end in
      match hget (p_target select) from with
      | Some c => add (p_loc select) name name c t
      | None => (t, Err (Unresolved (p_loc select) (p_target select)))
      end
    end
  end.

Fixpoint add_targets (ss : list sexp) (t : T) : T * result unit :=
  match ss with
  | [] => (t, Ok tt)
  | s :: ss => match add_target s t with (t, Ok _) => add_targets ss t | (t, Err e) => (t, Err e) end
  end.
End Targets.

(** importer.rs:93-95, 102. *)
Definition import_add (l : srcloc) (_ name : text) (c : located) (top : table) : table * result unit :=
  top_define name (with_loc c l) top.

(** exporter.rs:23-26, 33-35: the conflict is reported under the name matched. *)
Definition export_add (_ : srcloc) (matched name : text) (c : located) (exports : table) : table * result unit :=
  match exports_add name c exports with
  | (exports, Some old_c) => (exports, Err (ConflictingExports matched old_c c))
  | (exports, None) => (exports, Ok tt)
  end.

(** importer.rs:62-126 [run]. [find path] is the module the import path leads to (importer.rs:74-75,
    its id and its exports); the missing entry is the panic of the index or the [unwrap]. [std] is
    the standard module when it is imported implicitly (source.rs:125). The result is the top level
    and the modules to initialise. Not modelled: 128-135, the instances that become available. *)
Definition module : Type := N * table.
Section Import.
Variable find : text -> option module.

Fixpoint import_forms (ss : list sexp) (top : table) (inits : list N) : outcome (table * list N * result unit) :=
  match ss with
  | [] => Ret (top, inits, Ok tt)
  | s :: ss =>
    match match_import s with
    | None => import_forms ss top inits
    | Some (path, targets) =>
      match find path with
      | None => Panic
      | Some (id, exports) =>
        match add_targets exports import_add targets top with
        | (top, Err e) => Ret (top, inits, Err e)
        | (top, Ok _) => import_forms ss top (inits ++ [id])
        end
      end
    end
  end.

Fixpoint import_std (l : srcloc) (entries : table) (top : table) : table * result unit :=
  match entries with
  | [] => (top, Ok tt)
  | (name, c) :: entries =>
    match hget name top with
    | Some _ => import_std l entries top
    | None =>
      match top_define name (with_loc c l) top with
      | (top, Ok _) => import_std l entries top
      | (top, Err e) => (top, Err e)
      end
    end
  end.

Definition import_run (builtin : option N) (std : option module) (l : srcloc) (code : list sexp) (top : table)
  : outcome (table * list N * result unit) :=
  let inits := match builtin with Some id => [id] | None => [] end in
  let* (top, inits, r) := import_forms code top inits in
  match r, std with
  | Ok _, Some (id, exports) =>
    let (top, r) := import_std l (order exports) top in Ret (top, inits ++ [id], r)
  | _, _ => Ret (top, inits, r)
  end.
End Import.

(** exporter.rs:5-49 [run]. *)
Fixpoint export_run (code : list sexp) (top exports : table) : table * result unit :=
  match code with
  | [] => (exports, Ok tt)
  | s :: code =>
    match match_export s with
    | None => export_run code top exports
    | Some targets =>
      match add_targets top export_add targets exports with
      | (exports, Ok _) => export_run code top exports
      | (exports, Err e) => (exports, Err e)
      end
    end
  end.
End Port.
