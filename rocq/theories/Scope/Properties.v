(** C13, C14: nested scopes, imports and exports. *)
From Verif.Base Require Import Base Assoc.
From Verif.Sexp Require Import Model.
From Verif.Scope Require Import Model Spec Proofs ProofsPort Examples.

(** Every sequence of operations on nested scopes answers as a stack of frames does, up to and
    including the first error, whatever order the hash map is iterated in. *)
Theorem local_scopes_exact : forall (order : list (text * option located) -> list (text * option located)) (ops : list op),
  (forall st, Permutation (order st) st) ->
  session order ops new_scopes = Ret (spec_session ops {| top := []; inner := [] |}).
Proof. exact local_scopes_ok. Qed.
Print Assumptions local_scopes_exact.

Example local_scopes_exact_example : session (fun t => t) shadowing new_scopes =
  Ret [Done; Done; Done; Done; Done; Done; Got (Some (con 4)); Got (Some (con 3)); Done; Got (Some (con 2)); Done; Got (Some (con 1)); Got None;
       Done; Done; Failed (DuplicatedIdentifier (t_ "z") (con 5) (con 6))].
Proof. exact shadowing_case. Qed.

(** Importing never panics when every import path was resolved. It succeeds exactly when every target
    can be served and no name is asked to mean two things. It then binds exactly the imported names,
    adds the implicit standard names that were not imported, and initializes the builtin module, the
    imported modules in order and the standard module. *)
Theorem import_exact : forall (order : table -> table) (find : text -> option module) (builtin : option N) (std : option module)
    (l : srcloc) (code : list sexp),
  (forall t, Permutation (order t) t) ->
  (forall path id exports, find path = Some (id, exports) -> NoDup (keys exports)) ->
  (forall id exports, std = Some (id, exports) -> NoDup (keys exports)) ->
  (forall s path targets, In s code -> import_form s path targets -> exists m, find path = Some m) ->
  exists top inits r, import_run order find builtin std l code [] = Ret (top, inits, r) /\
    (r = Ok tt <-> imports_servable find code /\ consistent (imported find code)) /\
    (r = Ok tt ->
      NoDup (keys top) /\
      (forall n c, names_in top n c <-> imported find code n c \/
         ((forall c', ~ imported find code n c') /\ exists id exports, std = Some (id, exports) /\ names_in exports n c)) /\
      exists ids, import_ids find code ids /\
        inits = (match builtin with Some id => [id] | None => [] end) ++ ids ++ (match std with Some (id, _) => [id] | None => [] end)).
Proof. exact (fun order find builtin std l code H1 H2 H3 H4 => import_ok order H1 find H2 builtin std l code H4 H3). Qed.
Print Assumptions import_exact.

Example import_exact_example :
  (forall p id es, finder p = Some (id, es) -> NoDup (keys es)) /\
  (forall s path targets, In s import_code -> import_form s path targets -> exists m, finder path = Some m) /\
  exists top, import_run (@rev _) finder (Some 0%N) (Some (1%N, std_exports)) at0 import_code [] = Ret (top, [0; 7; 1]%N, Ok tt) /\
  map (fun n => option_map construct (hget (t_ n) top)) ["v/push"; "v/pop"; "v/"; "len"; "map"]%string = [Some 10; Some 11; None; Some 13; Some 21]%N.
Proof. exact (conj finder_nodup (conj import_code_reachable import_case)). Qed.

(** Exporting succeeds exactly when every target can be served and no name is asked to mean two
    things, and then exports exactly the selected names. *)
Theorem export_exact : forall (order : table -> table) (code : list sexp) (top : table),
  (forall t, Permutation (order t) t) -> NoDup (keys top) ->
  exists exports r, export_run order code top [] = (exports, r) /\
    (r = Ok tt <-> exports_servable code top /\ consistent (exported code top)) /\
    (r = Ok tt -> NoDup (keys exports) /\ forall n c, names_in exports n c <-> exported code top n c).
Proof. exact export_ok. Qed.
Print Assumptions export_exact.

Example export_exact_example : let code := [lst [sym "export"; sym "_"; lst [sym "q"; sym "a"]]] in let top := [(t_ "a", con 1); (t_ "b", con 2)] in
  exists ex, export_run (@rev _) code top [] = (ex, Ok tt) /\ map (fun n => option_map construct (hget (t_ n) ex)) ["a"; "b"; "q"; "_"]%string = [Some 1; Some 2; Some 1; None]%N.
Proof. exact export_case. Qed.

(** The name in a conflicting-exports error need not be a name that any target exports. *)
Theorem export_conflict_name_refuted : exists code top exports n c c',
  NoDup (keys top) /\ export_run (fun t => t) code top [] = (exports, Err (ConflictingExports n c c')) /\
  forall k, ~ exported code top n k.
Proof. exact conflict_name_case. Qed.
Print Assumptions export_conflict_name_refuted.
