(** Model of llrl0/src/path.rs. *)
From Verif.Base Require Import Base.

(** path.rs:5-9: the only error carries the offending text. *)
Inductive result (A : Type) := Ok (a : A) | IllegalCharacters (t : text).
Arguments Ok {A} a.
Arguments IllegalCharacters {A} t.

(** path.rs:76 [PackageName], 136 [ModuleName], 17-21 [Path]. *)
Definition package_name := option text.
Definition module_name := list text.
Record path := { package : package_name; module : module_name }.

Definition c_slash : char := c_ "/".

(** Rust [str::find] with the character '/': the text before and after its first occurrence. *)
Fixpoint find_slash (t : text) : option (text * text) :=
  match t with
  | [] => None
  | c :: t =>
    if (c =? c_slash)%N then Some ([], t)
    else match find_slash t with Some (a, b) => Some (c :: a, b) | None => None end
  end.

(** Rust [str::split('/')]: [acc] is the current piece. *)
Fixpoint split_slash (acc t : text) : list text :=
  match t with
  | [] => [acc]
  | c :: t => if (c =? c_slash)%N then acc :: split_slash [] t else split_slash (acc ++ [c]) t
  end.

(** path.rs:111-113 [is_valid_external_name], 167-169 [is_valid_part]: same test. *)
Definition is_valid_part (t : text) : bool :=
  negb (match t with [] => true | _ => false end) &&
  (match find_slash t with None => true | Some _ => false end) &&
  negb (text_eqb t (t_ "~")) && negb (text_eqb t (t_ ".")) && negb (text_eqb t (t_ "..")).

(** path.rs:91-97 *)
Definition external (name : text) : result package_name :=
  if is_valid_part name then Ok (Some name) else IllegalCharacters name.

(** path.rs:116-126 *)
Definition parse_package (name : text) : result package_name :=
  if text_eqb name (t_ "~") then Ok None else external name.

(** path.rs:139-142 *)
Definition prelude : module_name := [].

(** path.rs:144-153 *)
Definition from_parts (parts : list text) : result module_name :=
  if match parts with [p] => text_eqb p (t_ "prelude") | _ => false end then Ok prelude
  else match find (fun p => negb (is_valid_part p)) parts with
       | Some p => IllegalCharacters p
       | None => Ok parts
       end.

(** path.rs:172-178 *)
Definition parse_module (name : text) : result module_name := from_parts (split_slash [] name).

(** path.rs:41-57 *)
Definition parse_path (t : text) : result path :=
  match find_slash t with
  | Some (head, tail) =>
    match parse_package head with
    | IllegalCharacters e => IllegalCharacters e
    | Ok p =>
      match parse_module tail with
      | IllegalCharacters e => IllegalCharacters e
      | Ok m => Ok {| package := p; module := m |}
      end
    end
  | None =>
    match parse_package t with
    | IllegalCharacters e => IllegalCharacters e
    | Ok p => Ok {| package := p; module := prelude |}
    end
  end.

(** path.rs:128-135 *)
Definition show_package (p : package_name) : text :=
  match p with None => t_ "~" | Some n => n end.

(** Iterator::format("/"). *)
Fixpoint join_slash (l : list text) : text :=
  match l with
  | [] => []
  | [t] => t
  | t :: l => t ++ c_slash :: join_slash l
  end.

(** path.rs:180-187 *)
Definition show_module (m : module_name) : text :=
  match m with [] => t_ "prelude" | parts => join_slash parts end.

(** path.rs:155-157, 59-67 *)
Definition is_prelude (m : module_name) : bool := match m with [] => true | _ => false end.
Definition show_path (p : path) : text :=
  if is_prelude (module p) then show_package (package p)
  else show_package (package p) ++ c_slash :: show_module (module p).

(** The derived [PartialEq]. *)
Fixpoint parts_eqb (a b : list text) : bool :=
  match a, b with
  | [], [] => true
  | x :: a, y :: b => text_eqb x y && parts_eqb a b
  | _, _ => false
  end.
Definition package_eqb (a b : package_name) : bool :=
  match a, b with
  | None, None => true
  | Some x, Some y => text_eqb x y
  | _, _ => false
  end.
Definition path_eqb (a b : path) : bool := package_eqb (package a) (package b) && parts_eqb (module a) (module b).

(** path.rs:32-38 [Path::builtin], [Path::std]; 99-101 [is_current]. *)
Definition builtin_path : path := {| package := Some (t_ "builtin"); module := prelude |}.
Definition std_path : path := {| package := Some (t_ "std"); module := prelude |}.
Definition is_current (p : package_name) : bool := match p with None => true | Some _ => false end.
