(** Model of llrl0/src/source/loader.rs (registration, lookup and file names). *)
From Verif.Base Require Import Base.
From Verif.Path Require Import Model.

(** loader.rs:155-159; [Code]'s parsed sources are identified by an arbitrary type [A]. *)
Section Loader.
  Context {A : Type}.

  (** loader.rs:65-69, 11-14. Association lists for the hash maps; a file system root is the list of
      its components. *)
  Inductive loadable_package :=
  | InMemory (m : list (module_name * A))
  | FileSystem (root : list text).
  Definition loader := list (package_name * loadable_package).

  Definition package_eqb (a b : package_name) : bool :=
    match a, b with
    | None, None => true
    | Some x, Some y => text_eqb x y
    | _, _ => false
    end.
  Fixpoint module_eqb (a b : module_name) : bool :=
    match a, b with
    | [], [] => true
    | x :: a, y :: b => text_eqb x y && module_eqb a b
    | _, _ => false
    end.

  Fixpoint lookup_package (l : loader) (p : package_name) : option loadable_package :=
    match l with
    | [] => None
    | (q, x) :: l => if package_eqb p q then Some x else lookup_package l p
    end.
  Fixpoint lookup_module (l : list (module_name * A)) (m : module_name) : option A :=
    match l with
    | [] => None
    | (q, x) :: l => if module_eqb m q then Some x else lookup_module l m
    end.

  (** loader.rs:24-28 *)
  Definition new_loader : loader := [].

  (** loader.rs:30-37 *)
  Definition add_package (l : loader) (p : package_name) (x : loadable_package) : bool * loader :=
    match lookup_package l p with
    | None => (true, (p, x) :: l)
    | Some _ => (false, l)
    end.

  (** loader.rs:39-55; updating an entry in place is shadowing it. *)
  Definition add_source (l : loader) (p : path) (s : A) : bool * loader :=
    match lookup_package l (package p) with
    | Some (InMemory m) => (true, (package p, InMemory ((module p, s) :: m)) :: l)
    | Some (FileSystem _) => (false, l)
    | None => (true, (package p, InMemory [(module p, s)]) :: l)
    end.

  (** What [load] (loader.rs:57-62, 72-106) reads: an in-memory source, a file, or an error. The
      contents of files and the parsing of the text are outside this model. *)
  Inductive loaded := Source (s : A) | File (f : list text) | ModuleNotFound | PackageNotFound.

  (** [PathBuf::set_extension("llrl")] on the last component [f]. Rust splits the name at its last
      dot; a name whose only dot is the leading one, and "..", have no extension. *)
  Fixpoint rsplit_dot (t : text) : option (text * text) :=
    match t with
    | [] => None
    | c :: t' =>
      match rsplit_dot t' with
      | Some (a, b) => Some (c :: a, b)
      | None => if (c =? c_ ".")%N then Some ([], t') else None
      end
    end.
  Definition file_stem (t : text) : text :=
    match rsplit_dot t with
    | Some ([], _) => t
    | Some (a, _) => a
    | None => t
    end.
  Definition set_extension (t : text) : text := file_stem t ++ t_ ".llrl".

  Fixpoint map_last {B} (f : B -> B) (l : list B) : list B :=
    match l with
    | [] => []
    | [x] => [f x]
    | x :: l => x :: map_last f l
    end.

  (** loader.rs:79-91. [push] of a part that is non-empty, has no slash and is not a dot name appends
      one component. *)
  Definition module_file (root : list text) (m : module_name) : list text :=
    map_last set_extension (root ++ match m with [] => [t_ "prelude"] | parts => parts end).

  Definition load (l : loader) (p : path) : loaded :=
    match lookup_package l (package p) with
    | None => PackageNotFound
    | Some (InMemory m) =>
      match lookup_module m (module p) with Some s => Source s | None => ModuleNotFound end
    | Some (FileSystem root) => File (module_file root (module p))
    end.

  (** Registration requests, in any order. *)
  Inductive request := AddPackage (p : package_name) (x : loadable_package) | AddSource (p : path) (s : A).
  Definition register (l : loader) (r : request) : loader :=
    match r with
    | AddPackage p x => snd (add_package l p x)
    | AddSource p s => snd (add_source l p s)
    end.
  Definition register_all (rs : list request) : loader := fold_left register rs new_loader.
End Loader.
