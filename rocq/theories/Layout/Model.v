(** * llrl0/src/backend/native/mem_layout.rs

    How values are arranged in memory.  [usize] is [N] without an upper bound. *)
From Verif.Base Require Import Base.
From Verif.Ir Require Import Model.
Local Open Scope N_scope.

(** mem_layout.rs:8-14 *)
Inductive class := Void | Integer | FloatingPoint | Memory.

(** mem_layout.rs:16-26 [Class::merge] *)
Definition merge (a b : class) : class :=
  match a, b with
  | Memory, _ | _, Memory => Memory
  | Integer, _ | _, Integer => Integer
  | FloatingPoint, _ | _, FloatingPoint => FloatingPoint
  | Void, _ => Void
  end.

(** mem_layout.rs:28-35, 187-192.  [composite] is the pair of [elems] and [components]. *)
Inductive layout := Layout
  { size : N; align : N; cls : class; composite : option (list (N * layout) * list (N * layout)) }.

(** The padding in [Layout::new] (mem_layout.rs:39-41) and [iter_with_offset] (:178-180). *)
Definition pad (size align : N) : N := (align - size mod align) mod align.

(** mem_layout.rs:38-53 [Layout::new] *)
Definition new (sz al : N) (c : class) : layout :=
  let sz := if al =? 0 then sz else sz + pad sz al in
  let c := if sz =? 0 then Void else if 16 <? sz then Memory else c in
  Layout sz al c None.

(** mem_layout.rs:55-58; the assertion that there is none yet holds by construction. *)
Definition with_composite (l : layout) (c : list (N * layout) * list (N * layout)) : layout :=
  Layout (size l) (align l) (cls l) (Some c).

(** mem_layout.rs:60-107.  The sizes of the native types are those of their [repr(C)] declarations
    in native/data.rs:89,145,167,174,276. *)
Definition l_unit : layout := new 0 0 Void.
Definition l_integer (n : N) : layout := new n n Integer.
Definition l_floating_point (n : N) : layout := new n n FloatingPoint.
Definition l_memory (n a : N) : layout := new n a Memory.
Definition l_pointer : layout := new 8 8 Integer.
Definition l_clos : layout := new 16 8 Integer.
Definition l_string : layout := new 16 8 Integer.
Definition l_char : layout := new 4 4 Integer.
Definition l_array : layout := new 16 8 Integer.
Definition l_captured_use : layout := new 16 8 Integer.
Definition l_syntax : layout := new 8 8 Integer.

(** mem_layout.rs:172-185 [iter_with_offset] *)
Fixpoint iter_with_offset (offset : N) (ls : list layout) : list (N * layout) :=
  match ls with
  | [] => []
  | l :: ls =>
      let o := if align l =? 0 then offset else offset + pad offset (align l) in
      (o, l) :: iter_with_offset (o + size l) ls
  end.

(** mem_layout.rs:120-124: what an element adds to [components]. *)
Definition components_of (e : N * layout) : list (N * layout) :=
  match composite (snd e) with
  | Some (_, cs) => map (fun c => (fst e + fst c, snd c)) cs
  | None => [e]
  end.

(** mem_layout.rs:109-127 [Layout::product]; the loop keeps the maximum of the alignments, the merged
    class and the end of the last element. *)
Definition product (ls : list layout) : layout :=
  let elems := iter_with_offset 0 ls in
  let al := fold_left (fun a e => N.max (align (snd e)) a) elems 0 in
  let c := fold_left (fun c e => merge (cls (snd e)) c) elems Void in
  let sz := fold_left (fun _ e => fst e + size (snd e)) elems 0 in
  with_composite (new sz al c) (elems, flat_map components_of elems).

(** mem_layout.rs:129-139 [Layout::sum] *)
Definition sum (ls : list layout) : layout :=
  let al := fold_left (fun a l => N.max (align l) a) ls 0 in
  let c := fold_left (fun c l => merge (cls l) c) ls Integer in
  let sz := fold_left (fun s l => N.max (size l) s) ls 0 in
  new sz al c.

(** mem_layout.rs:142-144 *)
Definition num_eightbytes (l : layout) : N := (size l + 7) / 8.

(** mem_layout.rs:194-200 *)
Record eightbyte := Eightbyte { e_offset : N; e_size : N; e_class : class }.

(** mem_layout.rs:150-157: the class of the eightbyte at [offset]. *)
Definition eightbyte_class (l : layout) (offset : N) : class :=
  match composite l with
  | Some (_, cs) =>
      fold_left (fun c e => merge c (cls (snd e)))
        (filter (fun e => (offset <? size (snd e) + fst e) && (fst e <? offset + 8)) cs) Void
  | None => cls l
  end.

(** mem_layout.rs:146-160 [Layout::eightbytes] *)
Definition eightbytes (l : layout) : list eightbyte :=
  map (fun i => let offset := N.of_nat i * 8 in
        Eightbyte offset (N.min (size l - offset) 8) (eightbyte_class l offset))
    (List.seq 0 (N.to_nat (num_eightbytes l))).

(** mem_layout.rs:162-168 *)
Definition class_eqb (a b : class) : bool :=
  match a, b with
  | Void, Void | Integer, Integer | FloatingPoint, FloatingPoint | Memory, Memory => true
  | _, _ => false
  end.
Definition size_in_stack (l : layout) (last_value : bool) : N :=
  if last_value && negb (class_eqb (cls l) Memory) then 0 else num_eightbytes l * 8.

(** mem_layout.rs:170-174 *)
Definition in_stack (l : layout) : layout :=
  Layout (size_in_stack l false) (align l) (cls l) (composite l).

(** ** Resolving the layouts of types *)

(** The definitions of a program (ir.rs [Def]); those that are not types are [DOther]. *)
Inductive def := DStruct (fields : list ct) | DUnion (tys : list ct) | DOther.

(** mem_layout.rs:203-206: a map in which [None] marks a type whose layout is being computed. *)
Definition resolver : Type := list (nat * option layout).
Fixpoint find {A} (m : list (nat * A)) (id : nat) : option A :=
  match m with
  | [] => None
  | (i, a) :: m => if (i =? id)%nat then Some a else find m id
  end.

(** [usize::next_power_of_two] *)
Definition next_power_of_two (n : N) : N := 2 ^ N.log2_up n.

(** mem_layout.rs:258-285 [LayoutResolver::get] *)
Definition get (r : resolver) (t : ct) : outcome layout :=
  match t with
  | CtId id => match find r id with Some (Some l) => Ret l | _ => Panic end
  | CtGenericInst _ _ | CtTableGet _ _ => Panic
  | CtPtr _ => Ret l_pointer
  | CtClos _ _ => Ret l_clos
  | CtS s | CtU s => Ret (l_integer (next_power_of_two ((N.of_nat s + 7) / 8)))
  | CtF32 => Ret (l_floating_point 4)
  | CtF64 => Ret (l_floating_point 8)
  | CtString => Ret l_string
  | CtChar => Ret l_char
  | CtArray _ => Ret l_array
  | CtCapturedUse => Ret l_captured_use
  | CtUnit => Ret l_unit
  | CtEnv => Ret l_pointer
  | CtSyntax _ => Ret l_syntax
  end.

Section Visit.
Variable visit : resolver -> ct -> outcome (layout * resolver).
(** [.iter().map(|f| self.register_visit(f, defs)).collect()] *)
Fixpoint visits (r : resolver) (ts : list ct) : outcome (list layout * resolver) :=
  match ts with
  | [] => Ret ([], r)
  | t :: ts =>
      let* p := visit r t in let '(l, r) := p in
      let* q := visits r ts in let '(ls, r) := q in
      Ret (l :: ls, r)
  end.
End Visit.

(** mem_layout.rs:224-256 [register_visit].  [fuel] bounds the depth of the recursion. *)
Fixpoint register_visit (defs : list (nat * def)) (fuel : nat) (r : resolver) (t : ct)
  : outcome (layout * resolver) :=
  match t with
  | CtId id =>
      match find r id with
      | Some None => Panic
      | Some (Some l) => Ret (l, r)
      | None =>
          let go (ts : list ct) (make : list layout -> layout) :=
            match fuel with
            | O => OutOfFuel
            | S fuel =>
                let* p := visits (register_visit defs fuel) ((id, None) :: r) ts in
                let '(ls, r) := p in
                let l := make ls in
                Ret (l, (id, Some l) :: r)
            end in
          match find defs id with
          | Some (DStruct fields) => go fields product
          | Some (DUnion tys) => go tys sum
          | Some DOther | None => Panic
          end
      end
  | _ => let* l := get r t in Ret (l, r)
  end.

(** mem_layout.rs:216-222 [register].  The hash map of definitions is visited in some order, given as
    the list [todo] of its entries. *)
Fixpoint register_all (defs : list (nat * def)) (fuel : nat) (todo : list (nat * def)) (r : resolver)
  : outcome resolver :=
  match todo with
  | [] => Ret r
  | (id, DOther) :: todo => register_all defs fuel todo r
  | (id, _) :: todo =>
      let* p := register_visit defs fuel r (CtId id) in
      register_all defs fuel todo (snd p)
  end.
Definition register (order : list (nat * def) -> list (nat * def)) (defs : list (nat * def))
  (r : resolver) : outcome resolver :=
  register_all defs (List.length defs) (order defs) r.
