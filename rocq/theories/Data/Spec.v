(** * What a representation of a data type has to satisfy *)
From Verif.Base Require Import Base.
From Verif.Ir Require Import Model Spec.
From Verif.Data Require Import Model.

(** Every cell of [h] is unchanged in [h']. *)
Definition unchanged (h h' : heap) : Prop :=
  forall a c, nth_error h a = Some c -> nth_error h' a = Some c.

(** [h3] still holds what [h2] holds in the cells allocated since [h1]. *)
Definition still_holds (h1 h2 h3 : heap) : Prop :=
  forall a v, (List.length h1 <= a)%nat -> load h2 a = Some v -> load h3 a = Some v.

(** ** Agreement of expressions and patterns with the definitions of structures and unions *)
Section Agreement.
Variable ds : list (nat * def).

(** [made field e t]: [e] has the type [t], where [field] types the fields given. *)
Inductive made (field : rt -> ct -> Prop) : rt -> ct -> Prop :=
| made_field e t : field e t -> made field e t
| made_unit : made field (RConst KUnit) CtUnit
| made_tag n v : (v < 2 ^ N.of_nat n)%N -> made field (RConst (KInteger (CtU n) false v)) (CtU n)
| made_uninit t : made field (RNullary (NUninitialized t)) t
| made_alloc l e t : made field e t -> made field (RAlloc l e) (CtPtr t)
| made_struct id r fields es :
    In (id, DStruct r fields) ds -> Forall2 (made field) es fields ->
    made field (RConstructStruct (CtId id) es) (CtId id)
| made_union id ts s e :
    In (id, DUnion ts) ds -> In (CtId s) ts -> made field e (CtId s) ->
    made field (RUnary (UReinterpret (CtId id)) e) (CtId id).

Inductive fits (field : rtpat -> ct -> Prop) : rtpat -> ct -> Prop :=
| fits_field p t : field p t -> fits field p t
| fits_unit : fits field (PConst KUnit) CtUnit
| fits_tag n v : (v < 2 ^ N.of_nat n)%N -> fits field (PConst (KInteger (CtU n) false v)) (CtU n)
| fits_any t : fits field (PWildcard t) t
| fits_deref p t : fits field p t -> fits field (PDeref p) (CtPtr t)
| fits_struct id r fields ps :
    In (id, DStruct r fields) ds -> Forall2 (fits field) ps fields ->
    fits field (PStruct (CtId id) ps) (CtId id)
| fits_union id ts s p :
    In (id, DUnion ts) ds -> In (CtId s) ts -> fits field p (CtId s) ->
    fits field (PReinterpret (CtId id) p) (CtId id).
End Agreement.

(** Definitions have distinct identifiers, all below the next one. *)
Definition env_wf (e : Model.env) : Prop :=
  NoDup (map fst (defs e)) /\ forall id d, In (id, d) (defs e) -> (id < next e)%nat.

(** [e'] has the definitions of [e] and more. *)
Definition env_grows (e e' : Model.env) : Prop :=
  (next e <= next e')%nat /\ exists new, defs e' = new ++ defs e.

(** A C data type has at most one constructor. *)
Definition c_compatible (d : data) : Prop :=
  d_repr d = DC -> (List.length (d_cons d) <= 1)%nat.

(** [stands_for m t t']: [t'] is [t] with every data type replaced by its representation, and no data
    type left. *)
Inductive stands_for (m : list (nat * expansion)) : ct -> ct -> Prop :=
| stands_data id x t : get m id = Some x -> stands_for m (to_ct x) t -> stands_for m (CtId id) t
| stands_id id : get m id = None -> stands_for m (CtId id) (CtId id)
| stands_inst f f' args args' :
    stands_for m f f' -> Forall2 (stands_for m) args args' ->
    stands_for m (CtGenericInst f args) (CtGenericInst f' args')
| stands_table t t' id : stands_for m t t' -> stands_for m (CtTableGet t id) (CtTableGet t' id)
| stands_ptr t t' : stands_for m t t' -> stands_for m (CtPtr t) (CtPtr t')
| stands_clos args args' r r' :
    Forall2 (stands_for m) args args' -> stands_for m r r' ->
    stands_for m (CtClos args r) (CtClos args' r')
| stands_array t t' : stands_for m t t' -> stands_for m (CtArray t) (CtArray t')
| stands_syntax t t' : stands_for m t t' -> stands_for m (CtSyntax t) (CtSyntax t')
| stands_other t :
    match t with
    | CtS _ | CtU _ | CtF32 | CtF64 | CtString | CtChar | CtCapturedUse | CtUnit | CtEnv => True
    | _ => False
    end -> stands_for m t t.
