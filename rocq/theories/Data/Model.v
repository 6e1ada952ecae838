(** * Representation of data types (llrl0/src/lowering/data_expander.rs) *)
From Verif.Base Require Import Base.
From Verif.Ir Require Import Model.
From Verif.Topo Require Model.

(** ir/def.rs [DataRepr] and [Data]: the field types of every constructor. *)
Inductive data_repr := DBoxed | DValue | DC.
Record data := Data { d_repr : data_repr; d_cons : list (list ct) }.

(** ir/def.rs [StructRepr], [Struct], [Union]: the definitions added by the pass. *)
Inductive struct_repr := SStandard | SC.
Inductive def := DStruct (r : struct_repr) (fields : list ct) | DUnion (tys : list ct).

(** data_expander.rs:10-14 [Env]: [add_def] gives the definition a fresh identifier. *)
Record env := Env { next : nat; defs : list (nat * def) }.
Definition add_def (e : env) (d : def) : nat * env :=
  (next e, Env (S (next e)) ((next e, d) :: defs e)).

(** data_expander.rs:260-265 [TaggedDataBody]. *)
Inductive body := BAlias (i : nat) (ty : ct) | BStruct (i : nat) (id : nat) | BUnion (id : nat) (structs : list nat).

(** data_expander.rs:90-98 [DataExpansion]. *)
Inductive expansion :=
| EUnit
| EEnum (n : nat)
| EAlias (ty : ct)
| EBoxedStruct (id : nat)
| EStruct (id : nat)
| EBoxedTagged (id : nat) (n : nat) (b : body)
| ETagged (id : nat) (n : nat) (b : body).

(** data_expander.rs:237-242 [enum_ct].  The Rust code computes the rounded-up logarithm through [f64];
    here it is exact. *)
Definition enum_ct (size : nat) : ct :=
  match size with O | S O => CtUnit | n => CtU (Nat.log2_up n) end.

(** data_expander.rs:252-257 [enum_const]. *)
Definition enum_const (size index : nat) : const :=
  match size with O | S O => KUnit | _ => KInteger (enum_ct size) false (N.of_nat index) end.

(** data_expander.rs:244-250 *)
Definition enum_rt (size index : nat) : rt := RConst (enum_const size index).
Definition enum_pat (size index : nat) : rtpat := PConst (enum_const size index).

(** [args.pop().unwrap()] *)
Definition pop {A} (args : list A) : outcome A :=
  match rev args with a :: _ => Ret a | [] => Panic end.

(** [structs[index]] *)
Definition at_index (structs : list nat) (i : nat) : outcome nat :=
  match nth_error structs i with Some id => Ret id | None => Panic end.

(** data_expander.rs:293-302 *)
Definition body_ct (b : body) : ct :=
  match b with BAlias _ ty => ty | BStruct _ id => CtId id | BUnion id _ => CtId id end.

(** data_expander.rs:304-329 *)
Definition body_rt (b : body) (index : nat) (args : list rt) : outcome rt :=
  match b with
  | BAlias i ty => if index =? i then pop args else Ret (RNullary (NUninitialized ty))
  | BStruct i id =>
      if index =? i then Ret (RConstructStruct (CtId id) args)
      else Ret (RNullary (NUninitialized (CtId id)))
  | BUnion id structs =>
      let* s := at_index structs index in
      Ret (RUnary (UReinterpret (CtId id)) (RConstructStruct (CtId s) args))
  end%nat.

(** data_expander.rs:331-341 *)
Definition body_rt_boxed (b : body) (index : nat) (args : list rt) : outcome rt :=
  match b with
  | BAlias i ty =>
      if negb (index =? i) then Ret (RNullary (NUninitialized (CtPtr ty)))
      else let* e := body_rt b index args in Ret (RAlloc LHeap e)
  | BStruct i id =>
      if negb (index =? i) then Ret (RNullary (NUninitialized (CtPtr (CtId id))))
      else let* e := body_rt b index args in Ret (RAlloc LHeap e)
  | BUnion _ _ => let* e := body_rt b index args in Ret (RAlloc LHeap e)
  end%nat.

(** data_expander.rs:343-366 *)
Definition body_pat (b : body) (index : nat) (args : list rtpat) : outcome rtpat :=
  match b with
  | BAlias i ty => if index =? i then pop args else Ret (PWildcard ty)
  | BStruct i id => if index =? i then Ret (PStruct (CtId id) args) else Ret (PWildcard (CtId id))
  | BUnion id structs =>
      let* s := at_index structs index in Ret (PReinterpret (CtId id) (PStruct (CtId s) args))
  end%nat.

(** data_expander.rs:368-374 *)
Definition body_pat_boxed (b : body) (index : nat) (args : list rtpat) : outcome rtpat :=
  match b with
  | BAlias i ty =>
      if negb (index =? i) then Ret (PWildcard (CtPtr ty))
      else let* p := body_pat b index args in Ret (PDeref p)
  | BStruct i id =>
      if negb (index =? i) then Ret (PWildcard (CtPtr (CtId id)))
      else let* p := body_pat b index args in Ret (PDeref p)
  | BUnion _ _ => let* p := body_pat b index args in Ret (PDeref p)
  end%nat.

(** data_expander.rs:135-152 *)
Definition to_ct (x : expansion) : ct :=
  match x with
  | EUnit => CtUnit
  | EEnum n => enum_ct n
  | EBoxedStruct id => CtPtr (CtId id)
  | EStruct id => CtId id
  | EAlias ty => ty
  | EBoxedTagged id _ _ => CtId id
  | ETagged id _ _ => CtId id
  end.

(** data_expander.rs:154-192.  The [debug_assert]s are not modelled. *)
Definition to_rt (x : expansion) (index : nat) (args : list rt) : outcome rt :=
  match x with
  | EUnit => Ret (RConst KUnit)
  | EEnum n => Ret (enum_rt n index)
  | EBoxedStruct id => Ret (RAlloc LHeap (RConstructStruct (CtId id) args))
  | EStruct id => Ret (RConstructStruct (CtId id) args)
  | EAlias _ => pop args
  | EBoxedTagged id n b =>
      let* e := body_rt_boxed b index args in Ret (RConstructStruct (CtId id) [enum_rt n index; e])
  | ETagged id n b =>
      let* e := body_rt b index args in Ret (RConstructStruct (CtId id) [enum_rt n index; e])
  end.

(** data_expander.rs:194-235 *)
Definition to_rt_pat (x : expansion) (index : nat) (args : list rtpat) : outcome rtpat :=
  match x with
  | EUnit => Ret (PConst KUnit)
  | EEnum n => Ret (enum_pat n index)
  | EBoxedStruct id => Ret (PDeref (PStruct (CtId id) args))
  | EStruct id => Ret (PStruct (CtId id) args)
  | EAlias _ => pop args
  | EBoxedTagged id n b =>
      let* p := body_pat_boxed b index args in Ret (PStruct (CtId id) [enum_pat n index; p])
  | ETagged id n b =>
      let* p := body_pat b index args in Ret (PStruct (CtId id) [enum_pat n index; p])
  end.

(** data_expander.rs:275-289 [union_on]: one structure for every constructor, in order. *)
Fixpoint add_structs (e : env) (kons : list (list ct)) : list nat * env :=
  match kons with
  | [] => ([], e)
  | fields :: kons =>
      let (id, e) := add_def e (DStruct SStandard fields) in
      let (ids, e) := add_structs e kons in
      (id :: ids, e)
  end.
Definition union_on (e : env) (kons : list (list ct)) : body * env :=
  let (ids, e) := add_structs e kons in
  let (id, e) := add_def e (DUnion (map CtId ids)) in
  (BUnion id ids, e).

(** [cons.iter().find_position(|fields| !fields.is_empty()).unwrap()], counting from [i]. *)
Fixpoint find_nonempty (i : nat) (kons : list (list ct)) : outcome (nat * list ct) :=
  match kons with
  | [] => Panic
  | [] :: kons => find_nonempty (S i) kons
  | fields :: _ => Ret (i, fields)
  end.

Definition is_empty {A} (l : list A) : bool := match l with [] => true | _ => false end.

(** data_expander.rs:100-133: structures made for an expansion. *)
Definition boxed_struct_on (e : env) (fields : list ct) : expansion * env :=
  let (id, e) := add_def e (DStruct SStandard fields) in (EBoxedStruct id, e).
Definition struct_on (e : env) (fields : list ct) : expansion * env :=
  let (id, e) := add_def e (DStruct SStandard fields) in (EStruct id, e).
Definition c_struct_on (e : env) (fields : list ct) : expansion * env :=
  let (id, e) := add_def e (DStruct SC fields) in (EStruct id, e).
Definition boxed_tagged_on (e : env) (size : nat) (b : body) : expansion * env :=
  let (id, e) := add_def e (DStruct SStandard [enum_ct size; CtPtr (body_ct b)]) in
  (EBoxedTagged id size b, e).
Definition tagged_on (e : env) (size : nat) (b : body) : expansion * env :=
  let (id, e) := add_def e (DStruct SStandard [enum_ct size; body_ct b]) in
  (ETagged id size b, e).

(** data_expander.rs:400-441 [compute_data_expansion]. *)
Definition compute_data_expansion (d : data) (should_be_named : bool) (e : env)
  : outcome (expansion * env) :=
  match d_cons d with
  | [] => Ret (EUnit, e)
  | [fields] =>
      match d_repr d, fields, should_be_named with
      | DBoxed, [], _ | DValue, [], _ => Ret (EUnit, e)
      | DValue, [field], false => Ret (EAlias field, e)
      | DBoxed, _, _ => Ret (boxed_struct_on e fields)
      | DValue, _, _ => Ret (struct_on e fields)
      | DC, _, _ => Ret (c_struct_on e fields)
      end
  | kons =>
      match d_repr d with
      | DC => Panic
      | repr =>
          let finish (b : body) (e : env) :=
            match repr with
            | DBoxed => Ret (boxed_tagged_on e (List.length kons) b)
            | _ => Ret (tagged_on e (List.length kons) b)
            end in
          match List.length (filter (fun fields => negb (is_empty fields)) kons) with
          | O => Ret (EEnum (List.length kons), e)
          | S O =>
              let* (index, fields) := find_nonempty 0 kons in
              match fields with
              | [field] => finish (BAlias index field) e
              | fields =>
                  let (id, e) := add_def e (DStruct SStandard fields) in
                  finish (BStruct index id) e
              end
          | _ => let (b, e) := union_on e kons in finish b e
          end
      end
  end.

(** ** The whole pass *)

(** traverser.rs:541-557 [visit_ct_uses]: the identifiers used in a type. *)
Fixpoint uses (t : ct) : list nat :=
  match t with
  | CtId id => [id]
  | CtGenericInst f args => uses f ++ flat_map uses args
  | CtTableGet t _ => uses t
  | CtPtr t | CtArray t | CtSyntax t => uses t
  | CtClos args r => flat_map uses args ++ uses r
  | CtS _ | CtU _ | CtF32 | CtF64 | CtString | CtChar | CtCapturedUse | CtUnit | CtEnv => []
  end.

(** data_expander.rs:440-444 [traverse_dependencies]: the identifiers used in a data type. *)
Definition data_uses (d : data) : list nat := flat_map (flat_map uses) (d_cons d).

(** data_expander.rs:381-384 and 446-458 [has_recursion]. *)
Definition has_recursion (x : nat * data) : bool := existsb (Nat.eqb (fst x)) (data_uses (snd x)).

(** data_expander.rs:26-31: the inner loop of [compute].  [data_expansions] is an association list. *)
Fixpoint expand_group (named : bool) (g : list (nat * data)) (m : list (nat * expansion)) (e : env)
  : outcome (list (nat * expansion) * env) :=
  match g with
  | [] => Ret (m, e)
  | (id, d) :: g =>
      let* (x, e) := compute_data_expansion d named e in
      expand_group named g ((id, x) :: m) e
  end.

(** data_expander.rs:22-24; indexing an empty group would panic. *)
Definition should_be_named (g : list (nat * data)) : outcome bool :=
  match g with
  | [] => Panic
  | [x] => Ret (has_recursion x)
  | _ => Ret true
  end.

Fixpoint expand_groups (gs : list (list (nat * data))) (m : list (nat * expansion)) (e : env)
  : outcome (list (nat * expansion) * env) :=
  match gs with
  | [] => Ret (m, e)
  | g :: gs =>
      let* named := should_be_named g in
      let* (m, e) := expand_group named g m e in
      expand_groups gs m e
  end.

(** data_expander.rs:16-32 [compute]. *)
Definition compute (data_types : list (nat * data)) (e : env)
  : outcome (list (nat * expansion) * env) :=
  let* gs := Topo.Model.run Nat.eqb (fun x : nat * data => data_uses (snd x))
               (map (fun x => (fst x, x)) data_types) in
  expand_groups gs [] e.

Fixpoint get (m : list (nat * expansion)) (id : nat) : option expansion :=
  match m with
  | [] => None
  | (i, x) :: m => if (i =? id)%nat then Some x else get m id
  end.

Section Each.
Variable f : ct -> outcome ct.
Fixpoint each (ts : list ct) : outcome (list ct) :=
  match ts with
  | [] => Ret []
  | t :: ts => let* t := f t in let* ts := each ts in Ret (t :: ts)
  end.
End Each.

(** data_expander.rs:46-57 [before_ct] inside rewriter.rs:79-119: the replacement is itself
    rewritten.  [fuel] bounds the number of nested calls. *)
Fixpoint expand_ct (fuel : nat) (m : list (nat * expansion)) (t : ct) : outcome ct :=
  match fuel with
  | O => OutOfFuel
  | S fuel =>
      match t with
      | CtId id => match get m id with Some x => expand_ct fuel m (to_ct x) | None => Ret t end
      | CtGenericInst f args =>
          let* f := expand_ct fuel m f in
          let* args := each (expand_ct fuel m) args in Ret (CtGenericInst f args)
      | CtTableGet t id => let* t := expand_ct fuel m t in Ret (CtTableGet t id)
      | CtPtr t => let* t := expand_ct fuel m t in Ret (CtPtr t)
      | CtClos args r =>
          let* args := each (expand_ct fuel m) args in
          let* r := expand_ct fuel m r in Ret (CtClos args r)
      | CtArray t => let* t := expand_ct fuel m t in Ret (CtArray t)
      | CtSyntax t => let* t := expand_ct fuel m t in Ret (CtSyntax t)
      | CtS _ | CtU _ | CtF32 | CtF64 | CtString | CtChar | CtCapturedUse | CtUnit | CtEnv => Ret t
      end
  end.
