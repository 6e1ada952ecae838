(** * Properties C40 and C45: calls, and the code of functions

    C45: running the code of a function does what the function means.  The suffix is due to the forms
    of expressions that are not modelled, see DESIGN.md. *)
From Coq Require Import ZArith.
From Verif.Base Require Import Base.
From Verif.Ir Require Import Model.
From Verif.Frame Require Model Spec.
From Verif.Layout Require Import Model Spec.
From Verif.Stack Require Import Machine Model Spec.
From Verif.Codegen Require Import Float Alu Operators Model Machine Spec Foreign Convention ProofsTop ProofsFrameSize ProofsRefute.
Local Open Scope Z_scope.

(** A function that is called as the convention demands runs until it gives back what a call of it
    means, to the place it was called from; or the stack overflows. *)
Theorem compiled_call_computes_partial : forall M r known start functions c_means,
  compiled M r known start functions c_means ->
  forall id ev ls vs w w' l v,
  apply r functions (fun f => address M f 0) start (memo M) (alloc M) (symbol M) c_means id ev ls vs w w' l v ->
  forall f0 p0 s, called M start ev ls vs l (snd w) f0 p0 s ->
  leads M (fun c => al c = fst w' /\ returned M start l v (snd w') f0 p0 s c) (Config id 0 s (fst w)).
Proof. exact compiled_call. Qed.
Print Assumptions compiled_call_computes_partial.

(** C40: whatever depth a call is made at, the stack is aligned once the arguments are pushed. *)
Theorem call_stack_aligned : forall r ts t ls l base depth,
  reached r -> Forall2 (fun t l => get r t = Ret l) ts ls -> get r t = Ret l -> base mod 16 = 0 ->
  (base - 8 * depth - room (padding_before_stack_args (new_frame ls l depth)) - rooms ls) mod 16 = 0.
Proof. exact call_aligned. Qed.
Print Assumptions call_stack_aligned.

(** The place for the result is above the arguments and inside of what was reserved before them. *)
Theorem call_result_separate : forall r t ls l depth, reached r -> get r t = Ret l ->
  let f := new_frame ls l depth in
  match offset_to_ret_destination f with
  | Some o => cls l = Memory /\ rooms ls <= o /\ o + room l = rooms ls + room (padding_before_stack_args f)
  | None => cls l <> Memory
  end.
Proof. exact call_result. Qed.
Print Assumptions call_result_separate.

(** After the call everything but the result is taken off the stack. *)
Theorem call_leaves_result : forall r t ls l depth, reached r -> get r t = Ret l ->
  let f := new_frame ls l depth in
  room (remnants_after_call f) =
  rooms ls + room (padding_before_stack_args f) - match cls l with Memory => room l | _ => 0 end.
Proof. exact call_left. Qed.
Print Assumptions call_leaves_result.

(** Arguments that were pushed from left to right are where the frame of the function that is called,
    of which the base is below the return address and the saved base, has its parameters. *)
Theorem call_arguments_found : forall words in_memory f s ret args m rsp,
  NoDup (map fst (Frame.Spec.bound f)) -> Frame.Model.new words in_memory f = Ret (s, ret) ->
  Forall2 (fun v a => Z.of_nat (words (snd v)) * 8 = room (fst a)) (Frame.Spec.passed f) args ->
  stacked m rsp (rev args) ->
  forall i v a, nth_error (Frame.Spec.passed f) i = Some v -> nth_error args i = Some a ->
  exists p, Frame.Spec.place words s v p /\ bytes_at m (rsp - 16 + fst p) (snd a).
Proof. exact call_found. Qed.
Print Assumptions call_arguments_found.

(** The same for C functions. *)
Theorem c_call_stack_aligned : forall r ts t ls l base depth,
  reached r -> Forall2 (fun t l => get r t = Ret l) ts ls -> get r t = Ret l -> base mod 16 = 0 ->
  (base - 8 * depth - room (padding_before_stack_args (c_frame (c_args ls l) l depth)) - on_stack l ls) mod 16 = 0.
Proof. exact c_aligned. Qed.
Print Assumptions c_call_stack_aligned.

Theorem c_call_result_separate : forall r ts t ls l depth,
  reached r -> Forall2 (fun t l => get r t = Ret l) ts ls -> get r t = Ret l ->
  let f := c_frame (c_args ls l) l depth in
  match offset_to_ret_destination f with
  | Some o => cls l = Memory /\ on_stack l ls <= o /\ o + room l = on_stack l ls + room (padding_before_stack_args f)
  | None => cls l <> Memory
  end.
Proof. exact c_result. Qed.
Print Assumptions c_call_result_separate.

Theorem c_call_leaves_result : forall r ts t ls l depth,
  reached r -> Forall2 (fun t l => get r t = Ret l) ts ls -> get r t = Ret l ->
  let f := c_frame (c_args ls l) l depth in
  room (remnants_after_call f) =
  on_stack l ls + room (padding_before_stack_args f) - match cls l with Memory => room l | _ => 0 end.
Proof. exact c_left. Qed.
Print Assumptions c_call_leaves_result.

(** Arguments of any number and types that were pushed are taken to where the convention has them. *)
Theorem c_call_arguments_passed : forall r ts t ls l args s,
  reached r -> Forall2 (fun t l => get r t = Ret l) ts ls -> get r t = Ret l ->
  map fst args = ls -> Forall (fun x => List.length (snd x) = length_of (fst x)) args ->
  stacked (mem s) (gp s Rsp) (rev (push_order (c_args ls l) args)) ->
  let s' := run (fst (all (map pop_arg (c_args ls l)))) s in
  passed (gprs l) xmms (gp s' Rsp) args s' /\ mem s' = mem s /\
  gp s' Rsp + on_stack l ls = gp s Rsp + rooms ls /\
  forall x, saved x = true -> x <> Rsp -> gp s' x = gp s x.
Proof. exact c_passed. Qed.
Print Assumptions c_call_arguments_passed.

(** What the programs that are [compiled] leave out.  The callee of a call may not be left by a
    [return], ... *)
Theorem call_of_return_refuted : exists t value, goes_wrong t (RCall (RReturn value) []).
Proof. exact call_of_return. Qed.
Print Assumptions call_of_return_refuted.

(** ... nor a loop by a [return] in an argument, even where it is never run, ... *)
Theorem loop_left_in_call_refuted : exists t no f first value next,
  goes_wrong t (RSeq [RWhile no (RCall f [first; RReturn value])] next).
Proof. exact loop_left_in_call. Qed.
Print Assumptions loop_left_in_call_refuted.

(** ... nor a jump by a jump in an argument, after another jump to the same continuation was begun. *)
Theorem nested_jump_refuted : exists t k ps body first inner second escape,
  goes_wrong t (RLetCont [(k, ps, body)] (RContCall k [first; RLetCont inner (RContCall k [second; escape] (Some t))] (Some t))).
Proof. exact nested_jump. Qed.
Print Assumptions nested_jump_refuted.

(** The arguments of a C function are not evaluated from left to right. *)
Theorem c_arguments_in_order_refuted : exists t a b f items, a <> b /\
  function_code nil (fun _ => true) (Frame.Model.Function None nil t (RCallC f t (RCallC a t nil :: RCallC b t nil :: nil)) Frame.Model.Standard) = Ret items /\
  filter (fun i => match i with CallSym _ => true | _ => false end) items = (CallSym b :: CallSym a :: CallSym f :: nil)%list.
Proof. exact c_arguments_backwards. Qed.
Print Assumptions c_arguments_in_order_refuted.

(** What the meaning of operators leaves out: comparisons with a floating-point number that is not a
    number should be false.  The code of [=], [<] and [<=] gives true. *)
Theorem float_comparison_refuted :
  (exists x, float_compare Q x x = None) /\
  forall r o b al bl g w, List.In o (BFEq :: BFLt :: BFLe :: nil)%list -> float_width (size bl) = Ret w ->
  exists is g', gen_binary r o b al bl g = Ret (List.map I (fst (pop_eightbyte (Xmm 1))) ++ (Block is :: nil), Some (l_integer 1), g')%list /\
    forall s, float_compare w (xm s 1%nat) (xm s 0%nat) = None ->
    exists s', block is s = Some s' /\ low B (gp s' Rax) = 1.
Proof. exact (conj unordered_exists unordered_is_true). Qed.
Print Assumptions float_comparison_refuted.

(** Floating-point numbers above [2 ^ 63] that fit an unsigned integer of 8 bytes all become [2 ^ 63]. *)
Theorem float_to_unsigned_refuted :
  (exists x, to_integer Q x = Some (2 ^ 63 + 2 ^ 62)) /\
  forall r t a al l g, get r t = Ret l -> floating Q al -> integral Q l ->
  exists is g', gen_unary r (UFToU t) a al g = Ret ((Block is :: nil)%list, Some l, g') /\
    forall s z, to_integer Q (xm s 0%nat) = Some z -> 2 ^ 63 < z < 2 ^ 64 ->
    exists s', block is s = Some s' /\ low Q (gp s' Rax) = 2 ^ 63.
Proof. exact (conj highest_bit_exists highest_bit_lost). Qed.
Print Assumptions float_to_unsigned_refuted.
