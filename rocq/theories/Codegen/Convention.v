(** * Compiled programs, and what a function is given and gives back

    A function is entered with its arguments on the stack, the last one next to the return address,
    each rounded up to whole eightbytes.  The environment is in [rsi]; [rdi] is the address for a
    result that does not fit into registers. *)
From Coq Require Import ZArith.
From Verif.Base Require Import Base.
From Verif.Ir Require Import Model.
From Verif.Layout Require Import Model Spec.
From Verif.Frame Require Model Spec.
From Verif.Stack Require Import Machine Model Spec.
From Verif.Codegen Require Import Model Machine Spec.
From Verif.Codegen Require Export Foreign.
Local Open Scope Z_scope.

(** The recorded depth is the same before and after the code of [x], once its value is discarded. *)
Definition balanced (r : resolver) (x : rt) : Prop :=
  forall known offsets g c o g', gen r known offsets x g = Ret (c, o, g') ->
  exists l, o = Some l /\ depth g' + snd (discard l) = depth g.

(** The code in the machine is what the compiler writes for the functions. *)
Record emitted (M : machine) (r : resolver) (known : nat -> bool) (start : Z)
    (functions : nat -> option Frame.Model.function)
    (c_means : Z -> list (layout * val) -> layout -> world (memo M) -> world (memo M) -> val -> Prop) : Prop := Emitted {
  k_layouts : reached r;
  k_allocator : allocator M;
  k_addresses : addresses M;
  k_foreign : c_functions M start c_means;
  k_start : 0 <= start <= 2 ^ 64;
  k_functions : forall id f, functions id = Some f -> Frame.Model.f_kind f = Frame.Model.Standard ->
    function_code r known f = Ret (code_of M id) /\ NoDup (map fst (Frame.Spec.bound f)) }.
(** Moreover the functions are free of what the compiler gets wrong. *)
Definition compiled (M : machine) (r : resolver) (known : nat -> bool) (start : Z)
    (functions : nat -> option Frame.Model.function)
    (c_means : Z -> list (layout * val) -> layout -> world (memo M) -> world (memo M) -> val -> Prop) : Prop :=
  emitted M r known start functions c_means /\
  forall id f, functions id = Some f -> Frame.Model.f_kind f = Frame.Model.Standard ->
  fine (balanced r) [] (Frame.Model.f_body f).

(** [f0] and [p0] are the place to return to. *)
Record called (M : machine) (start : Z) (ev : val) (ls : list layout) (vs : list val) (l : layout)
    (h : heap) (f0 p0 : nat) (s : state) : Prop := Called {
  n_aligned : (gp s Rsp + 8) mod 16 = 0;
  n_back : read 8 (mem s) (gp s Rsp) = address M f0 p0 /\ position M (address M f0 p0) = Some (f0, p0);
  n_arguments : forall i l v, nth_error ls i = Some l -> nth_error vs i = Some v ->
    bytes_at (mem s) (gp s Rsp + 8 + rooms (skipn (S i) ls)) v;
  n_environment : forall p, ev = pointer p -> 0 <= p < 2 ^ 64 -> gp s Rsi = p;
  n_result : cls l = Memory -> gp s Rsp + 8 + rooms ls <= gp s Rdi /\ gp s Rdi + room l <= start;
  n_stack : gp s Rsp + 8 + rooms ls <= start;
  n_heap : heap_at start h (mem s);
  n_registers : forall x, x <> Rsp -> 0 <= gp s x < 2 ^ 64 }.

(** The stack is as before, except for the arguments, which have not been taken off, and the place of
    the result; so are the registers that belong to the caller. *)
Record returned (M : machine) (start : Z) (l : layout) (v : val) (h' : heap) (f0 p0 : nat) (s : state)
    (c : config (memo M)) : Prop := Returned {
  t_back : fn c = f0 /\ pc c = p0;
  t_rsp : gp (st c) Rsp = gp s Rsp + 8;
  t_saved : forall x, saved x = true -> x <> Rsp -> gp (st c) x = gp s x;
  t_result : delivered l v s (st c);
  t_heap : heap_at start h' (mem (st c));
  t_stack : forall a, gp s Rsp + 8 <= a < start ->
    ~ (cls l = Memory /\ gp s Rdi <= a < gp s Rdi + room l) -> mem (st c) a = mem s a }.

(** A program has the function [body], without parameters, and a call of it does not give back what
    it means. *)
Definition goes_wrong (t : ct) (body : rt) : Prop :=
  exists M r known start functions c_means, emitted M r known start functions c_means /\
  functions 0%nat = Some (Frame.Model.Function None [] t body Frame.Model.Standard) /\
  exists ev w w' l v f0 p0 s,
  apply r functions (fun f => address M f 0) start (memo M) (alloc M) (symbol M) c_means 0 ev [] [] w w' l v /\
  called M start ev [] [] l (snd w) f0 p0 s /\
  ~ leads M (fun c => al c = fst w' /\ returned M start l v (snd w') f0 p0 s c) (Config 0 0 s (fst w)).
