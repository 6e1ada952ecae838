(** What a history of registrations makes available. *)
From Verif.Base Require Import Base.
From Verif.Path Require Import Model Spec.
From Verif.Loader Require Import Model.

Section LoaderSpec.
  Context {A : Type}.

  (** Whether a request concerns a package. *)
  Definition for_package (p : package_name) (r : @request A) : Prop :=
    match r with AddPackage q _ => q = p | AddSource q _ => package q = p end.

  (** The package as created by the first request about it. *)
  Definition created_by (r : @request A) : loadable_package :=
    match r with AddPackage _ x => x | AddSource q s => InMemory [(module q, s)] end.

  (** The sources later added to an in-memory package, latest first. *)
  Fixpoint added (p : package_name) (rs : list (@request A)) (acc : list (module_name * A)) : list (module_name * A) :=
    match rs with
    | [] => acc
    | AddSource q s :: rs =>
      if package_eqb (package q) p then added p rs ((module q, s) :: acc) else added p rs acc
    | AddPackage _ _ :: rs => added p rs acc
    end.

  (** What a path denotes after the requests [rs]: nothing if no request concerns its package;
      otherwise the first one fixes the kind of package, and for an in-memory package the source is
      the one given for that module most recently. *)
  Inductive denotes (rs : list (@request A)) (p : path) : loaded -> Prop :=
  | dn_unknown : (forall r, In r rs -> ~ for_package (package p) r) -> denotes rs p PackageNotFound
  | dn_files rs1 r rs2 root : rs = rs1 ++ r :: rs2 -> (forall r', In r' rs1 -> ~ for_package (package p) r') ->
      for_package (package p) r -> created_by r = FileSystem root ->
      denotes rs p (File (module_file root (module p)))
  | dn_found rs1 r rs2 m l1 s l2 : rs = rs1 ++ r :: rs2 -> (forall r', In r' rs1 -> ~ for_package (package p) r') ->
      for_package (package p) r -> created_by r = InMemory m ->
      added (package p) rs2 m = l1 ++ (module p, s) :: l2 -> ~ In (module p) (map fst l1) ->
      denotes rs p (Source s)
  | dn_missing rs1 r rs2 m : rs = rs1 ++ r :: rs2 -> (forall r', In r' rs1 -> ~ for_package (package p) r') ->
      for_package (package p) r -> created_by r = InMemory m ->
      ~ In (module p) (map fst (added (package p) rs2 m)) ->
      denotes rs p ModuleNotFound.
End LoaderSpec.

(** A module name whose file name has no dot before the extension. *)
Definition plain (m : module_name) : Prop := m = [] \/ ~ In (c_ ".") (last m []).
