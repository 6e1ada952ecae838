(** C44: values keep their bytes when they are moved between registers, the stack and memory. *)
From Coq Require Import ZArith.
From Verif.Base Require Import Base.
From Verif.Ir Require Import Model.
From Verif.Layout Require Import Model Spec.
From Verif.Stack Require Import Machine Model Spec Proofs ProofsValue ProofsMove ProofsRefute.
Local Open Scope Z_scope.

(** Pushing the value just computed puts its bytes on top of the stack, writes nothing else, and the
    stack depth the generator records changes as the stack pointer does. *)
Theorem value_push_exact :
  forall l bs s, type_layout l -> value l bs s ->
  let s' := run (fst (push l)) s in
  pushed l bs s' /\ gp s' Rsp = gp s Rsp + taken l - room l /\ snd (push l) * 8 = room l - taken l /\
  same_outside (gp s' Rsp) (gp s Rsp) s s' /\ same_regs s s'.
Proof. exact (fun l bs s T => push_ok l bs s (type_layout_usable l T)). Qed.
Print Assumptions value_push_exact.

(** Popping makes the value on top of the stack the value just computed. *)
Theorem value_pop_exact :
  forall l bs s, type_layout l -> pushed l bs s ->
  let s' := run (fst (pop l)) s in
  value l bs s' /\ gp s' Rsp = gp s Rsp + room l - taken l /\ snd (pop l) * 8 = taken l - room l /\
  mem s' = mem s /\ same_regs s s'.
Proof. exact (fun l bs s T => pop_ok l bs s (type_layout_usable l T)). Qed.
Print Assumptions value_pop_exact.

(** Loading reads exactly the bytes of the value, whatever their number. *)
Theorem value_load_exact :
  forall a l bs s, type_layout l -> usable_address a -> List.length bs = length_of l -> in_mem (mem s) (ea a s) bs ->
  apart (ea a s) (Z.of_N (size l)) (gp s Rsp - taken l) (taken l) ->
  let s' := run (fst (load a l)) s in
  value l bs s' /\ gp s' Rsp = gp s Rsp - taken l /\ snd (load a l) * 8 = taken l /\
  same_outside (gp s Rsp - taken l) (gp s Rsp) s s' /\ same_regs s s'.
Proof. exact (fun a l bs s T A => load_ok a l bs s (type_layout_usable l T) (usable_address_ok a A)). Qed.
Print Assumptions value_load_exact.

(** Storing writes exactly the bytes of the value and takes it off the stack. *)
Theorem value_store_exact :
  forall a l bs s, type_layout l -> usable_address a -> value l bs s ->
  apart (ea a s) (Z.of_N (size l)) (gp s Rsp) (taken l) ->
  let s' := run (fst (store a l)) s in
  in_mem (mem s') (ea a s) bs /\ gp s' Rsp = gp s Rsp + taken l /\ snd (store a l) * 8 = - taken l /\
  same_outside (ea a s) (ea a s + Z.of_N (size l)) s s' /\ same_regs s s'.
Proof. exact (fun a l bs s T A => store_ok a l bs s (type_layout_usable l T) (usable_address_ok a A)). Qed.
Print Assumptions value_store_exact.

(** A value that is not needed leaves the stack. *)
Theorem value_discard_exact :
  forall l s, type_layout l ->
  let s' := run (fst (discard l)) s in
  gp s' Rsp = gp s Rsp + taken l /\ snd (discard l) * 8 = - taken l /\ mem s' = mem s /\
  (forall g, g <> Rsp -> gp s' g = gp s g).
Proof. exact (fun l s T => discard_ok l s (type_layout_usable l T)). Qed.
Print Assumptions value_discard_exact.

(** Sliding a value along the stack keeps its bytes even when the two places overlap. *)
Theorem value_slide_exact :
  forall l src dst bs s, List.length bs = length_of l -> in_mem (mem s) (gp s Rsp + Z.of_N src) bs ->
  let s' := run (fst (slide_in_stack src dst l)) s in
  in_mem (mem s') (gp s Rsp + Z.of_N dst) bs /\ snd (slide_in_stack src dst l) = 0 /\
  same_outside (gp s Rsp + Z.of_N dst) (gp s Rsp + Z.of_N dst + Z.of_N (size l)) s s' /\
  (forall g, g <> R10 -> g <> R11 -> gp s' g = gp s g) /\ xm s' = xm s.
Proof. exact slide_ok. Qed.
Print Assumptions value_slide_exact.

(** Taking an element of a structure leaves the bytes of the element.  Missing: the first element of a
    structure that has as many eightbytes but not of the same classes, for which it is false. *)
Theorem struct_elem_exact_partial :
  forall l i es cs o e bs s c,
  type_layout l -> composite l = Some (es, cs) -> nth_error es i = Some (o, e) -> value l bs s ->
  (o <> 0%N \/ num_eightbytes e <> num_eightbytes l \/ map e_class (eightbytes e) = map e_class (eightbytes l)) ->
  struct_elem l i = Ret (c, e) ->
  let s' := run (fst c) s in
  value e (part bs o (size e)) s' /\ gp s' Rsp = gp s Rsp + taken l - taken e /\
  snd c * 8 = taken e - taken l /\
  same_outside (gp s Rsp + taken l - room l) (gp s Rsp + taken l) s s' /\ same_regs s s'.
Proof. exact struct_elem_ok. Qed.
Print Assumptions struct_elem_exact_partial.

(** Of a structure of a float and an integer, in [rax], the float is then looked for in [xmm0]. *)
Theorem struct_elem_exact_refuted :
  exists l i c e bs s es cs o,
  type_layout l /\ value l bs s /\ composite l = Some (es, cs) /\ nth_error es i = Some (o, e) /\
  struct_elem l i = Ret (c, e) /\ ~ value e (part bs o (size e)) (run (fst c) s).
Proof. exact struct_elem_wrong. Qed.
Print Assumptions struct_elem_exact_refuted.

(** Reinterpreting a value as one of another type keeps the bytes they have in common. *)
Theorem reinterpret_exact :
  forall from to bs s, type_layout from -> type_layout to -> value from bs s ->
  let s' := run (fst (reinterpret from to)) s in
  exists bs', value to bs' s' /\
  firstn (Nat.min (length_of from) (length_of to)) bs' = firstn (Nat.min (length_of from) (length_of to)) bs /\
  gp s' Rsp = gp s Rsp + taken from - taken to /\ snd (reinterpret from to) * 8 = taken to - taken from /\
  same_outside (gp s Rsp + taken from - Z.max (room from) (room to)) (gp s Rsp + taken from) s s' /\ same_regs s s'.
Proof. exact (fun f t bs s F T => reinterpret_ok f t bs s (type_layout_usable f F) (type_layout_usable t T)). Qed.
Print Assumptions reinterpret_exact.
