(** * What paths mean

    A path is names between slashes; it may begin with a slash. *)
From Coq Require Import NArith.
From Verif.Base Require Import Base.
From Verif.IoPath Require Import Model.
Local Open Scope list_scope.

Fixpoint segments (p : list N) : list (list N) :=
  match p with
  | [] => [[]]
  | x :: p =>
      if N.eqb x 47 then [] :: segments p
      else match segments p with a :: l => (x :: a) :: l | [] => [[x]] end
  end.
Definition names (p : list N) : list (list N) := filter (fun n => match n with [] => false | _ => true end) (segments p).
Definition rooted (p : list N) : bool := match p with x :: _ => N.eqb x 47 | [] => false end.
Definition component_of (n : list N) : component :=
  match n with
  | [46%N] => CurrentDir
  | [46%N; 46%N] => ParentDir
  | _ => Normal n
  end.
Definition meaning (p : list N) : list component := (if rooted p then [RootDir] else []) ++ map component_of (names p).

(** Directories are given by the names that lead to them from the root; above the root is the root. Symbolic links do
    not exist. *)
Fixpoint walk (cs : list component) (dir : list (list N)) : list (list N) :=
  match cs with
  | [] => dir
  | RootDir :: cs => walk cs []
  | CurrentDir :: cs => walk cs dir
  | ParentDir :: cs => walk cs (removelast dir)
  | Normal n :: cs => walk cs (dir ++ [n])
  end.
(** Where a path leads from a directory, and the absolute path to a directory. *)
Definition resolve (dir : list (list N)) (p : list N) : list (list N) := walk (meaning p) dir.
Definition absolute_path (dir : list (list N)) : list N := flat_map (fun n => 47%N :: n) dir.

(** The last name of a path is [b], between [d] and [t]: slashes after it, a slash before it. Without any name [b] is
    empty and all is [t]. *)
Definition slashfree (l : list N) : Prop := ~ In 47%N l.
Definition located (p d b t : list N) : Prop :=
  p = d ++ b ++ t /\ slashfree b /\ Forall (fun x => x = 47%N) t /\ (d = [] \/ exists d', d = d' ++ [47%N]) /\ (b = [] -> d = []).
(** [b] has the extension [x]: what follows its last dot, something being before it. *)
Definition has_extension (b stem x : list N) : Prop := b = stem ++ [46%N] ++ x /\ stem <> [] /\ ~ In 46%N x.
Definition suffix (ext : option (list N)) : list N := match ext with Some x => 46%N :: x | None => [] end.
