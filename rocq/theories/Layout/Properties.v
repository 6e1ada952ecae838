(** C19: how values are arranged in memory. *)
From Coq Require Import Permutation.
From Verif.Base Require Import Base.
From Verif.Ir Require Import Model.
From Verif.Layout Require Import Model Spec ProofsResolve.

(** The layout of every type: the size is a multiple of the alignment, a power of two, and the class
    says when the value is passed in memory. *)
Theorem layout_sizes_exact :
  forall r t l, reached r -> get r t = Ret l -> ok l /\ class_ok l.
Proof. exact layout_ok. Qed.
Print Assumptions layout_sizes_exact.

(** The types that refer to no definition have the layouts of their C counterparts. *)
Theorem layout_base_exact :
  forall r t l, base_layout t l -> get r t = Ret l.
Proof. exact base_get. Qed.
Print Assumptions layout_base_exact.

(** The fields of a structure keep their own layouts, and are aligned, disjoint, inside the structure
    and no further apart than necessary; so are the parts they are made of. *)
Theorem layout_struct_exact :
  forall order defs r r' id fs, reached r -> NoDup (map fst defs) ->
  (forall l, Permutation (order l) l) -> register order defs r = Ret r' ->
  In (id, DStruct fs) defs -> ~ known r id ->
  exists ls l, Forall2 (fun t l => get r' t = Ret l) fs ls /\ get r' (CtId id) = Ret l /\ struct_layout ls l.
Proof. exact registered_struct. Qed.
Print Assumptions layout_struct_exact.

(** Every alternative of a union fits. *)
Theorem layout_union_exact :
  forall order defs r r' id ts, reached r -> NoDup (map fst defs) ->
  (forall l, Permutation (order l) l) -> register order defs r = Ret r' ->
  In (id, DUnion ts) defs -> ~ known r id ->
  exists ls l, Forall2 (fun t l => get r' t = Ret l) ts ls /\ get r' (CtId id) = Ret l /\ union_layout ls l.
Proof. exact registered_union. Qed.
Print Assumptions layout_union_exact.

(** The classification covers every byte of the value, and the class of each eightbyte is that of the
    parts found in it. *)
Theorem layout_eightbytes_exact :
  forall r t l, reached r -> get r t = Ret l ->
  eightbytes_cover 0 (eightbytes l) (size l) /\
  ((0 < size l <= 16)%N -> Forall (fun e => has_class l (e_offset e) (e_class e)) (eightbytes l)).
Proof. exact layout_eightbytes. Qed.
Print Assumptions layout_eightbytes_exact.

(** Registration ends, and succeeds exactly when every structure and union has a finite size. *)
Theorem layout_register_exact :
  forall order defs r, reached r -> NoDup (map fst defs) -> (forall l, Permutation (order l) l) ->
  register order defs r <> OutOfFuel /\
  ((exists r', register order defs r = Ret r') <->
   (forall id d, In (id, d) defs -> is_type d = true -> sized (known r) defs (CtId id))).
Proof. exact register_exact. Qed.
Print Assumptions layout_register_exact.

(** The layouts do not depend on the order in which the definitions are visited. *)
Theorem layout_order_irrelevant :
  forall order1 order2 defs r r1, reached r -> NoDup (map fst defs) ->
  (forall l, Permutation (order1 l) l) -> (forall l, Permutation (order2 l) l) ->
  register order1 defs r = Ret r1 -> exists r2, register order2 defs r = Ret r2 /\ same r1 r2.
Proof. exact register_order. Qed.
Print Assumptions layout_order_irrelevant.

(** Layouts never change once registered. *)
Theorem layout_stable :
  forall order defs r r' t l, (forall l, Permutation (order l) l) -> register order defs r = Ret r' ->
  get r t = Ret l -> get r' t = Ret l.
Proof. exact register_keeps. Qed.
Print Assumptions layout_stable.

(** On the stack a value takes whole eightbytes. *)
Theorem layout_stack_exact :
  forall l, (size l <= size (in_stack l) < size l + 8 /\ size (in_stack l) mod 8 = 0)%N /\
  align (in_stack l) = align l.
Proof. exact stack_size. Qed.
Print Assumptions layout_stack_exact.
