(** Models of llrl0/src/interning.rs and llrl0/src/source_loc{.rs,/location.rs,/location_range.rs}. *)
From Verif.Base Require Import Base.
From Verif.Lexer Require Import Model.

Section Interning.
  Context {T : Type} (eqb : T -> T -> bool).

  (** interning.rs:52-56. A [HashMap] is an association list searched by key equality; a handle
      ([Interned<T>], interning.rs:11-14) is its index. *)
  Record intern_table := { ids : list T; symbols : list (T * N) }.

  Definition new_table : intern_table := {| ids := []; symbols := [] |}. (* interning.rs:59-64 *)

  Fixpoint assoc (l : list (T * N)) (x : T) : option N :=
    match l with
    | [] => None
    | (y, n) :: l => if eqb x y then Some n else assoc l x
    end.

  (** interning.rs:74-80 *)
  Definition get_interned (tb : intern_table) (x : T) : option N := assoc (symbols tb) x.

  (** interning.rs:82-88 *)
  Definition is_interned (tb : intern_table) (x : T) : bool :=
    match get_interned tb x with Some _ => true | None => false end.

  (** interning.rs:90-107; [as u32] truncates. *)
  Definition intern (tb : intern_table) (x : T) : N * intern_table :=
    match get_interned tb x with
    | Some h => (h, tb)
    | None =>
      let h := (N.of_nat (List.length (ids tb)) mod 2 ^ 32)%N in
      (h, {| ids := ids tb ++ [x]; symbols := (x, h) :: symbols tb |})
    end.

  (** interning.rs:109-111: indexing panics when out of bounds. *)
  Definition review (tb : intern_table) (h : N) : outcome T :=
    match nth_error (ids tb) (N.to_nat h) with Some x => Ret x | None => Panic end.

  (** A history of [intern] calls: the handles returned, in order, and the final table. *)
  Fixpoint intern_all (tb : intern_table) (xs : list T) : list N * intern_table :=
    match xs with
    | [] => ([], tb)
    | x :: xs =>
      let (h, tb) := intern tb x in
      let (hs, tb) := intern_all tb xs in
      (h :: hs, tb)
    end.
End Interning.
Arguments intern_table : clear implicits.

(** location_range.rs:5-11; [location] and [location_eat] (location.rs) are those of the lexer model. *)
Record location_range := { start : location; end_ : location }.

(** Rust slicing [&text[..n]] / [&text[a..b]]; panics off a character boundary or out of range. *)
Definition slice (t : text) (a b : N) : outcome text :=
  if (a <=? b)%N then
    match split_at_byte b t with
    | Some (t1, _) => match split_at_byte a t1 with Some (_, m) => Ret m | None => Panic end
    | None => Panic
    end
  else Panic.

(** location.rs:18-22 *)
Definition from_offset (t : text) (n : N) : outcome location :=
  let* s := slice t 0 n in location_eat location_new s.

(** location_range.rs:22-30 *)
Definition from_range (t : text) (a b : N) : outcome location_range :=
  let* s := slice t 0 a in
  let* st := location_eat location_new s in
  let* m := slice t a b in
  let* en := location_eat st m in
  Ret {| start := st; end_ := en |}.

(** location_range.rs:32-34 *)
Definition review_range (r : location_range) (t : text) : outcome text :=
  slice t (offset (start r)) (offset (end_ r)).

Definition location_eqb (a b : location) : bool :=
  (offset a =? offset b)%N && (line a =? line b)%N && (character a =? character b)%N.
Definition range_eqb (a b : location_range) : bool :=
  location_eqb (start a) (start b) && location_eqb (end_ a) (end_ b).

Section SourceLoc.
  (** Module paths: any type with decidable equality. *)
  Context {P : Type} (peqb : P -> P -> bool).

  (** source_loc.rs:14-18, 60-64, 27-31 *)
  Definition source_location : Type := N * N.
  Record locator := { l_path : N; l_table : intern_table location_range }.
  Record loc_table := { path_table : intern_table P; completed : list (N * locator) }.

  Definition new_loc_table : loc_table := {| path_table := new_table; completed := [] |}.

  (** source_loc.rs:38-45 *)
  Definition begin_locate (tb : loc_table) (p : P) : outcome (locator * loc_table) :=
    if is_interned peqb (path_table tb) p then Panic
    else let (h, pt) := intern peqb (path_table tb) p in
         Ret ({| l_path := h; l_table := new_table |}, {| path_table := pt; completed := completed tb |}).

  (** source_loc.rs:47-49: [HashMap::insert] replaces. *)
  Definition complete_locate (tb : loc_table) (l : locator) : loc_table :=
    {| path_table := path_table tb; completed := (l_path l, l) :: completed tb |}.

  Fixpoint find_locator (l : list (N * locator)) (h : N) : option locator :=
    match l with
    | [] => None
    | (k, x) :: l => if (h =? k)%N then Some x else find_locator l h
    end.

  (** source_loc.rs:51-57 *)
  Definition review_location (tb : loc_table) (s : source_location) : outcome (P * location_range) :=
    let* p := review (path_table tb) (fst s) in
    match find_locator (completed tb) (fst s) with
    | None => Panic
    | Some l => let* r := review (l_table l) (snd s) in Ret (p, r)
    end.

  (** source_loc.rs:71-77 *)
  Definition issue (l : locator) (r : location_range) : source_location * locator :=
    let (h, t) := intern range_eqb (l_table l) r in
    ((l_path l, h), {| l_path := l_path l; l_table := t |}).

  (** A client of one table: it holds the locators it has begun (in order, [None] once given back by
      [complete_locate], which consumes the locator) and may interleave the operations freely. *)
  Inductive op := Begin (p : P) | Issue (i : nat) (r : location_range) | Complete (i : nat).

  Record client := { c_table : loc_table; c_locs : list (option locator); c_paths : list P;
                     c_issued : list (source_location * (nat * location_range)) }.
  Definition new_client : client :=
    {| c_table := new_loc_table; c_locs := []; c_paths := []; c_issued := [] |}.

  Fixpoint set_nth {A} (l : list A) (i : nat) (x : A) : list A :=
    match l, i with
    | [], _ => []
    | _ :: l, O => x :: l
    | y :: l, S i => y :: set_nth l i x
    end.

  (** [None]: the client does not hold the locator it tries to use (ruled out by ownership). *)
  Definition step (c : client) (o : op) : option (outcome client) :=
    match o with
    | Begin p =>
      Some (let* (l, tb) := begin_locate (c_table c) p in
            Ret {| c_table := tb; c_locs := c_locs c ++ [Some l]; c_paths := c_paths c ++ [p];
                   c_issued := c_issued c |})
    | Issue i r =>
      match nth_error (c_locs c) i with
      | Some (Some l) =>
        let (s, l) := issue l r in
        Some (Ret {| c_table := c_table c; c_locs := set_nth (c_locs c) i (Some l); c_paths := c_paths c;
                     c_issued := c_issued c ++ [(s, (i, r))] |})
      | _ => None
      end
    | Complete i =>
      match nth_error (c_locs c) i with
      | Some (Some l) =>
        Some (Ret {| c_table := complete_locate (c_table c) l; c_locs := set_nth (c_locs c) i None;
                     c_paths := c_paths c; c_issued := c_issued c |})
      | _ => None
      end
    end.

  Inductive runs : client -> list op -> client -> Prop :=
  | runs_nil c : runs c [] c
  | runs_cons c o os c1 c2 : step c o = Some (Ret c1) -> runs c1 os c2 -> runs c (o :: os) c2.
End SourceLoc.
