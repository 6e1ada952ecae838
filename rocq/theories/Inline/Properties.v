(** * Property C49: a call of a transparent function does what its body does *)
From Verif.Base Require Import Base.
From Verif.Ir Require Import Model.
From Verif.Closure Require Import Model Spec.
From Verif.Inline Require Import Model Spec ProofsTop ProofsWrong.

(** A call whose arguments are variables is replaced with an expression that has ids of its own, and does what the
    call did.  Missing: arguments that are not variables, and bodies that return or have local functions; the theorems
    below show that for these it does not hold. *)
Theorem transparent_call_partial : forall prim equals funs n g f vars ty,
  prims_plain prim -> funs g = Some f -> f_env f = None -> well_formed n f -> simple (f_body f) ->
  List.length vars = List.length (f_params f) -> Forall (fun a => fst a < n /\ ~ In (fst a) (defs (f_body f)))%nat vars ->
  exists x, call_transparent n f (variables vars) = Ret ((n + List.length (defs (f_body f)))%nat, x) /\
  scoped (map fst vars) [] x /\ defs x = List.seq n (List.length (defs (f_body f))) /\
  forall h e h1 r, (forall a, In a vars -> lookup e (fst a) <> None) ->
  (ev prim equals funs h e (call_of g ty (variables vars)) h1 r <-> ev prim equals funs h e x h1 r).
Proof. exact transparent. Qed.
Print Assumptions transparent_call_partial.

(** An argument is evaluated once by a call, and twice when the body uses it twice. *)
Theorem transparent_argument_refuted : exists prim equals funs n g f ty arg n' x h1 r h2 r',
  prims_plain prim /\ funs g = Some f /\ f_env f = None /\ well_formed n f /\ simple (f_body f) /\ simple arg /\ scoped [] [] arg /\ defs arg = [] /\
  call_transparent n f [arg] = Ret (n', x) /\
  ev prim equals funs [] [] (call_of g ty [arg]) h1 r /\ ev prim equals funs [] [] x h2 r' /\ List.length h1 = 1%nat /\ List.length h2 = 2%nat.
Proof. exact argument_twice. Qed.
Print Assumptions transparent_argument_refuted.

(** An argument that panics is not evaluated when the body does not use it. *)
Theorem transparent_unused_refuted : exists prim equals funs n g f ty arg n' x s v,
  prims_plain prim /\ funs g = Some f /\ f_env f = None /\ well_formed n f /\ simple (f_body f) /\ simple arg /\ scoped [] [] arg /\ defs arg = [] /\
  call_transparent n f [arg] = Ret (n', x) /\
  ev prim equals funs [] [] (call_of g ty [arg]) [] (RsPanic s) /\ ev prim equals funs [] [] x [] (RsVal v).
Proof. exact argument_unused. Qed.
Print Assumptions transparent_unused_refuted.

(** A return of the body leaves the caller. *)
Theorem transparent_return_refuted : exists prim equals funs n g f vars e v n' x,
  prims_plain prim /\ funs g = Some f /\ f_env f = None /\ well_formed n f /\ List.length vars = List.length (f_params f) /\
  Forall (fun a => lookup e (fst a) = Some v) vars /\
  call_transparent n f (variables vars) = Ret (n', x) /\
  ev prim equals funs [] e (call_of g (CtU 64) (variables vars)) [] (RsVal v) /\ ev prim equals funs [] e x [] (RsReturn v).
Proof. exact return_leaves_caller. Qed.
Print Assumptions transparent_return_refuted.

(** The compiler panics when an argument that defines a variable is used twice. *)
Theorem transparent_definition_refuted : exists n f arg,
  f_env f = None /\ well_formed n f /\ simple (f_body f) /\ simple arg /\ scoped [] [] arg /\ NoDup (bound f ++ defs (f_body f) ++ defs arg) /\ Forall (fun id => id < n)%nat (defs arg) /\
  List.length (f_params f) = 1%nat /\ call_transparent n f [arg] = Panic.
Proof. exact definition_twice. Qed.
Print Assumptions transparent_definition_refuted.

(** Of two local functions of a body that call each other, one is lost; then the compiler panics. *)
Theorem transparent_local_functions_refuted : exists n f vars n' x,
  f_env f = None /\ well_formed n f /\ List.length vars = List.length (f_params f) /\ Forall (fun a => fst a < n /\ ~ In (fst a) (bound f ++ defs (f_body f)))%nat vars /\
  call_transparent n f (variables vars) = Ret (n', x) /\ ~ scoped (map fst vars) [] x /\
  forall k fuel, (3 <= fuel)%nat -> normalize fuel fuel n' k [(0%nat, Function None vars (CtU 64) x)] = Panic.
Proof. exact local_functions_lost. Qed.
Print Assumptions transparent_local_functions_refuted.

(** The compiler does not come to an end for a transparent function that calls itself, although its calls do. *)
Theorem transparent_recursion_refuted : exists prim equals funs g f n vars,
  f_env f = None /\ funs g = Some f /\ well_formed n f /\ simple (f_body f) /\ List.length vars = List.length (f_params f) /\
  Forall (fun a => fst a < n /\ ~ In (fst a) (bound f ++ defs (f_body f)))%nat vars /\
  (forall v h, ev prim equals funs h (combine (map fst vars) [VAtom (AInt v)]) (call_of g (CtU 64) (variables vars)) h (RsVal (VAtom (AInt 0)))) /\
  forall fuel, inline funs fuel n (call_of g (CtU 64) (variables vars)) = OutOfFuel.
Proof. exact inlining_goes_on. Qed.
Print Assumptions transparent_recursion_refuted.
