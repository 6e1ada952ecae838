(** * What an expression of the IR evaluates to

    A big-step semantics of run-time expressions, written independently of the passes.  It is the
    meaning against which the passes of lowering are judged. *)
From Verif.Base Require Import Base.
From Verif.Ir Require Import Model.

(** Run-time values.  A structure knows its type.  [VRein t vs] is a structure of type [t] stored at
    another type (a member of a union); it can only be read back at the type [t].  Pointers name
    cells of the heap. *)
Inductive val :=
| VInt (n : N)
| VFloat (f : fp)
| VString (s : text)
| VUnit
| VNull
| VPtr (a : nat)
| VStruct (t : ct) (vs : list val)
| VRein (t : ct) (vs : list val)
| VSyntax (v : val)
| VEnv (vs : list val)
| VClos (f : nat) (env : option val).

Definition v_true : val := VInt 1.
Definition v_false : val := VInt 0.
Definition v_bool (b : bool) : val := if b then v_true else v_false.

(** The heap: cell [a] is [nth_error h a]; a cell that has been released holds [None]. *)
Definition heap : Type := list (option val).

Definition load (h : heap) (a : nat) : option val :=
  match nth_error h a with Some (Some v) => Some v | _ => None end.

Fixpoint write (h : heap) (a : nat) (c : option val) : heap :=
  match h, a with
  | [], _ => []
  | _ :: h, O => c :: h
  | x :: h, S a => x :: write h a c
  end.

Definition env : Type := list (nat * val).

Fixpoint lookup (e : env) (id : nat) : option val :=
  match e with
  | [] => None
  | (i, v) :: e => if i =? id then Some v else lookup e id
  end%nat.

(** The width in bits that an integer type occupies in a register or in memory. *)
Definition int_bits (n : nat) : N := (
  if (n <=? 8)%nat then 8 else if (n <=? 16)%nat then 16 else if (n <=? 32)%nat then 32 else 64)%N.

Section Semantics.

(** Whether an object allocated on the stack by the initializer of a variable is gone when the scope
    of the variable ends ([true]: the strictest reading), or lives on ([false]). *)
Variable scoped : bool.

(** The [f32] nearest to an [f64]. *)
Variable round32 : fp -> fp.

(** The operations that the passes treat as opaque: arithmetic, arrays, calls of C code, ... *)
Inductive prim_op :=
| QNullary (o : nullary) | QUnary (o : unary) | QBinary (o : binary) | QTernary (o : ternary)
| QAllocArray (l : location) (t : ct) | QSexp (t : ct) (s : text)
| QCallC (label : text) (ret : ct) | QCallAddr (kind : nat) (ret : ct)
| QData (t : ct) (i : nat).
Variable prim : prim_op -> heap -> list val -> option (heap * val).

(** The functions of the program: parameters, captured variables, body. *)
Variable funs : nat -> option (list nat * list nat * rt).

(** The value of a constant. *)
Definition const_val (c : const) : option val :=
  match c with
  | KInteger (CtS n) _ v => Some (VInt (v mod 2 ^ int_bits n))
  | KInteger (CtU n) _ v => Some (VInt (v mod 2 ^ int_bits n))
  | KInteger _ _ _ => None
  | KFPNumber CtF64 f => Some (VFloat f)
  | KFPNumber CtF32 f => Some (VFloat (round32 f))
  | KFPNumber _ _ => None
  | KString s => Some (VString s)
  | KChar c => Some (VInt c)
  | KSyntaxSexp _ _ => None
  | KUnit => Some VUnit
  end.

(** Whether a value equals a constant; [None] when they cannot be compared.  A NaN equals nothing. *)
Definition equals_const (c : const) (v : val) : option bool :=
  match c, const_val c, v with
  | _, Some (VInt a), VInt b => Some (N.eqb a b)
  | _, Some (VFloat (FNum a)), VFloat (FNum b) => Some (Z.eqb a b)
  | _, Some (VFloat _), VFloat _ => Some false
  | _, Some (VString a), VString b => Some (text_eqb a b)
  | _, Some VUnit, VUnit => Some true
  | _, _, _ => None
  end.

(** ** Patterns *)

Inductive matched :=
| MYes (binds : list (nat * val))  (* the pattern matches, with these values of its variables *)
| MNo
| MUndefined.                      (* deciding would read something that is not there *)

Definition and_then (a : matched) (k : list (nat * val) -> matched) : matched :=
  match a with MYes b => k b | MNo => MNo | MUndefined => MUndefined end.

Section Fields.
Variable pmatch : rtpat -> val -> matched.

(** The components of a structure are matched from left to right; the first that does not match
    decides. *)
Fixpoint pmatch_fields (ps : list rtpat) (vs : list val) : matched :=
  match ps, vs with
  | [], _ => MYes []
  | p :: ps, v :: vs =>
      and_then (pmatch p v) (fun b => and_then (pmatch_fields ps vs) (fun bs => MYes (b ++ bs)))
  | _ :: _, [] => MUndefined
  end.
End Fields.

Fixpoint pmatch (h : heap) (p : rtpat) (v : val) : matched :=
  match p with
  | PVar id _ None => MYes [(id, v)]
  | PVar id _ (Some p) => and_then (pmatch h p v) (fun b => MYes ((id, v) :: b))
  | PWildcard _ => MYes []
  | PDeref p =>
      match v with
      | VPtr a => match load h a with Some w => pmatch h p w | None => MUndefined end
      | _ => MUndefined
      end
  | PNonNull p =>
      match v with
      | VNull => MNo
      | VPtr a => match load h a with Some w => pmatch h p w | None => MUndefined end
      | _ => MUndefined
      end
  | PNull _ => match v with VNull => MYes [] | VPtr _ => MNo | _ => MUndefined end
  | PData _ _ _ => MUndefined
  | PStruct _ ps => match v with VStruct _ vs => pmatch_fields (pmatch h) ps vs | _ => MUndefined end
  | PReinterpret _ p =>
      match v with
      | VRein t vs => if ct_eq_dec t (pat_ty p) then pmatch h p (VStruct t vs) else MUndefined
      | _ => MUndefined
      end
  | PSyntax p => match v with VSyntax w => pmatch h p w | _ => MUndefined end
  | PConst c =>
      match equals_const c v with
      | Some true => MYes []
      | Some false => MNo
      | None => MUndefined
      end
  end.

(** The first clause whose pattern matches; [None] when there is none, or when deciding whether an
    earlier one matches would read something that is not there. *)
Fixpoint first_match (h : heap) (v : val) (clauses : list (rtpat * rt)) : option (env * rt) :=
  match clauses with
  | [] => None
  | (p, body) :: rest =>
      match pmatch h p v with
      | MYes binds => Some (binds, body)
      | MNo => first_match h v rest
      | MUndefined => None
      end
  end.

(** ** Results *)

Inductive res :=
| RsVal (v : val)                     (* a value *)
| RsReturn (v : val)                  (* return from the function *)
| RsJump (cont : nat) (vs : list val) (* a jump to a local continuation *)
| RsPanic (s : text).                 (* the program panicked with a message *)

(** Results that are not a value end the evaluation of the surrounding expression. *)
Definition abrupt (r : res) : Prop := match r with RsVal _ => False | _ => True end.

(** ** Operations on values *)

Inductive op :=
| ONullary (o : nullary) | OUnary (o : unary) | OBinary (o : binary) | OTernary (o : ternary)
| OAlloc | OAllocArray (l : location) (t : ct) | OEnv
| OStruct (t : ct) | OSyntax | OFun (f : ct) (captures : bool)
| OCallC (label : text) (ret : ct) | OCallAddr (kind : nat) (ret : ct) | OReturn
| OJump (cont : nat) | OConst (c : const) | OData (t : ct) (i : nat).

(** The operation of an expression that first evaluates all its operands, and the operands. *)
Definition operation (e : rt) : option (op * list rt) :=
  match e with
  | RNullary o => Some (ONullary o, [])
  | RUnary o a => Some (OUnary o, [a])
  | RBinary o a b => Some (OBinary o, [a; b])
  | RTernary o a b c => Some (OTernary o, [a; b; c])
  | RAlloc _ a => Some (OAlloc, [a])
  | RAllocArray l t a => Some (OAllocArray l t, [a])
  | RConstructEnv _ es => Some (OEnv, es)
  | RConstructStruct t es => Some (OStruct t, es)
  | RConstructData t i es => Some (OData t i, es)
  | RConstructSyntax _ a => Some (OSyntax, [a])
  | RStaticFun f _ (Some a) => Some (OFun f true, [a])
  | RStaticFun f _ None => Some (OFun f false, [])
  | RCallC l r es => Some (OCallC l r, es)
  | RCallAddr k f r es => Some (OCallAddr k r, f :: es)
  | RReturn a => Some (OReturn, [a])
  | RContCall k es _ => Some (OJump k, es)
  | RConst c => Some (OConst c, [])
  | _ => None
  end.

Definition pure (h : heap) (v : val) : option (heap * res) := Some (h, RsVal v).

Definition by_prim (q : prim_op) (h : heap) (vs : list val) : option (heap * res) :=
  match prim q h vs with Some (h', v) => Some (h', RsVal v) | None => None end.

Definition ptr_eqb (a b : val) : option bool :=
  match a, b with
  | VNull, VNull => Some true
  | VNull, VPtr _ => Some false
  | VPtr _, VNull => Some false
  | VPtr a, VPtr b => Some (Nat.eqb a b)
  | _, _ => None
  end.

Definition of_bool (h : heap) (b : option bool) : option (heap * res) :=
  match b with Some b => pure h (v_bool b) | None => None end.

(** What an operation does, given the values of its operands. *)
Definition perform (o : op) (h : heap) (vs : list val) : option (heap * res) :=
  match o, vs with
  | ONullary (NNull _), [] => pure h VNull
  | ONullary o, [] => by_prim (QNullary o) h []
  | OUnary UNot, [VInt n] =>
      match n with 0%N => pure h v_true | 1%N => pure h v_false | _ => None end
  | OUnary UNot, _ => None
  | OUnary ULoad, [VPtr a] => match load h a with Some v => pure h v | None => None end
  | OUnary ULoad, _ => None
  | OUnary (UStructElem _ i), [VStruct _ vs] =>
      match nth_error vs i with Some v => pure h v | None => None end
  | OUnary (UStructElem _ i), _ => None
  | OUnary (UReinterpret t), [VRein t' vs] =>
      if ct_eq_dec t' t then pure h (VStruct t' vs) else None
  | OUnary (UReinterpret _), [VStruct t' vs] => pure h (VRein t' vs)
  | OUnary USyntaxBody, [VSyntax v] => pure h v
  | OUnary USyntaxBody, _ => None
  | OUnary UPanic, [VString s] => Some (h, RsPanic s)
  | OUnary UPanic, _ => None
  | OUnary o, vs => by_prim (QUnary o) h vs
  | OBinary BStore, [v; VPtr a] =>
      match load h a with Some _ => pure (write h a (Some v)) VUnit | None => None end
  | OBinary BStore, _ => None
  | OBinary BPtrEq, [a; b] => of_bool h (ptr_eqb a b)
  | OBinary BIEq, [VInt a; VInt b] => of_bool h (Some (N.eqb a b))
  | OBinary BIEq, _ => None
  | OBinary BFEq, [VFloat (FNum a); VFloat (FNum b)] => of_bool h (Some (Z.eqb a b))
  | OBinary BFEq, [VFloat _; VFloat _] => of_bool h (Some false)
  | OBinary BFEq, _ => None
  | OBinary BStringEq, [VString a; VString b] => of_bool h (Some (text_eqb a b))
  | OBinary BStringEq, _ => None
  | OBinary o, vs => by_prim (QBinary o) h vs
  | OTernary o, vs => by_prim (QTernary o) h vs
  | OAlloc, [v] => Some (h ++ [Some v], RsVal (VPtr (List.length h)))
  | OAllocArray l t, vs => by_prim (QAllocArray l t) h vs
  | OEnv, vs => pure h (VEnv vs)
  | OStruct t, vs => pure h (VStruct t vs)
  | OSyntax, [v] => pure h (VSyntax v)
  | OFun (CtId f) false, [] => pure h (VClos f None)
  | OFun (CtId f) true, [v] => pure h (VClos f (Some v))
  | OCallC l r, vs => by_prim (QCallC l r) h vs
  | OCallAddr k r, vs => by_prim (QCallAddr k r) h vs
  | OReturn, [v] => Some (h, RsReturn v)
  | OJump k, vs => Some (h, RsJump k vs)
  | OConst (KSyntaxSexp t s), [] => by_prim (QSexp t s) h []
  | OConst c, [] => match const_val c with Some v => pure h v | None => None end
  | OData t i, vs => by_prim (QData t i) h vs
  | _, _ => None
  end.

(** The cell released when the binding of an object allocated on the stack ends. *)
Definition release (init : rt) (v : val) (h : heap) : heap :=
  match scoped, init, v with
  | true, RAlloc LStackStatic _, VPtr a => write h a None
  | _, _, _ => h
  end.

Definition bind_all (ids : list nat) (vs : list val) (e : env) : env := combine ids vs ++ e.

(** What a call returns, given the result of the body. *)
Definition returned (r : res) : option res :=
  match r with
  | RsVal v => Some (RsVal v)
  | RsReturn v => Some (RsVal v)
  | RsPanic s => Some (RsPanic s)
  | RsJump _ _ => None
  end.

(** The environment of the body of a function, given the environment value and the arguments. *)
Definition callee_env (params captured : list nat) (cenv : option val) (args : list val)
  : option env :=
  if Nat.eqb (List.length params) (List.length args) then
    match cenv, captured with
    | None, [] => Some (combine params args)
    | Some (VEnv vs), _ =>
        if Nat.eqb (List.length captured) (List.length vs)
        then Some (combine params args ++ combine captured vs) else None
    | _, _ => None
    end
  else None.

(** ** Evaluation

    [ev h e x h' r]: in the heap [h] and the environment [e], the expression [x] evaluates to the
    result [r] and leaves the heap [h'].  An expression whose evaluation is undefined (reading what
    is not there, reaching [RNever], no clause that matches) evaluates to nothing.  The variables and
    the continuations of a let scope over the ones that follow and over the body. *)
Inductive ev : heap -> env -> rt -> heap -> res -> Prop :=
| ev_var h e id t v : lookup e id = Some v -> ev h e (RVar id t) h (RsVal v)
| ev_operation h e x o es h1 vs h2 r :
    operation x = Some (o, es) ->
    evs h e es h1 (inl vs) -> perform o h1 vs = Some (h2, r) ->
    ev h e x h2 r
| ev_operation_stop h e x o es h1 r :
    operation x = Some (o, es) -> evs h e es h1 (inr r) -> ev h e x h1 r
| ev_call h e f args h1 g cenv vs params captured body e' r h3 r' :
    evs h e (f :: args) h1 (inl (VClos g cenv :: vs)) ->
    funs g = Some (params, captured, body) ->
    callee_env params captured cenv vs = Some e' ->
    ev h1 e' body h3 r -> returned r = Some r' ->
    ev h e (RCall f args) h3 r'
| ev_call_stop h e f args h1 r :
    evs h e (f :: args) h1 (inr r) -> ev h e (RCall f args) h1 r
| ev_seq_nil h e x h' r : ev h e x h' r -> ev h e (RSeq [] x) h' r
| ev_seq_cons h e s ss x h1 v h2 r :
    ev h e s h1 (RsVal v) -> ev h1 e (RSeq ss x) h2 r -> ev h e (RSeq (s :: ss) x) h2 r
| ev_seq_stop h e s ss x h1 r :
    ev h e s h1 r -> abrupt r -> ev h e (RSeq (s :: ss) x) h1 r
| ev_if h e c t f h1 b h2 r :
    ev h e c h1 (RsVal (v_bool b)) -> ev h1 e (if b then t else f) h2 r ->
    ev h e (RIf c t f) h2 r
| ev_if_stop h e c t f h1 r : ev h e c h1 r -> abrupt r -> ev h e (RIf c t f) h1 r
| ev_while_end h e c b h1 :
    ev h e c h1 (RsVal v_false) -> ev h e (RWhile c b) h1 (RsVal VUnit)
| ev_while_next h e c b h1 h2 v h3 r :
    ev h e c h1 (RsVal v_true) -> ev h1 e b h2 (RsVal v) -> ev h2 e (RWhile c b) h3 r ->
    ev h e (RWhile c b) h3 r
| ev_while_stop_cond h e c b h1 r : ev h e c h1 r -> abrupt r -> ev h e (RWhile c b) h1 r
| ev_while_stop h e c b h1 h2 r :
    ev h e c h1 (RsVal v_true) -> ev h1 e b h2 r -> abrupt r -> ev h e (RWhile c b) h2 r
| ev_and_true h e a b h1 h2 r :
    ev h e a h1 (RsVal v_true) -> ev h1 e b h2 r -> ev h e (RAnd a b) h2 r
| ev_and_false h e a b h1 :
    ev h e a h1 (RsVal v_false) -> ev h e (RAnd a b) h1 (RsVal v_false)
| ev_and_stop h e a b h1 r : ev h e a h1 r -> abrupt r -> ev h e (RAnd a b) h1 r
| ev_or_true h e a b h1 :
    ev h e a h1 (RsVal v_true) -> ev h e (ROr a b) h1 (RsVal v_true)
| ev_or_false h e a b h1 h2 r :
    ev h e a h1 (RsVal v_false) -> ev h1 e b h2 r -> ev h e (ROr a b) h2 r
| ev_or_stop h e a b h1 r : ev h e a h1 r -> abrupt r -> ev h e (ROr a b) h1 r
| ev_match h e target clauses h1 v binds body h2 r :
    ev h e target h1 (RsVal v) -> first_match h1 v clauses = Some (binds, body) ->
    ev h1 (binds ++ e) body h2 r ->
    ev h e (RMatch target clauses) h2 r
| ev_match_stop h e target clauses h1 r :
    ev h e target h1 r -> abrupt r -> ev h e (RMatch target clauses) h1 r
| ev_let_nil h e x h' r : ev h e x h' r -> ev h e (RLetVar [] x) h' r
| ev_let_cons h e id t init vars x h1 v h2 r :
    ev h e init h1 (RsVal v) -> ev h1 ((id, v) :: e) (RLetVar vars x) h2 r ->
    ev h e (RLetVar ((id, t, init) :: vars) x) (release init v h2) r
| ev_let_stop h e id t init vars x h1 r :
    ev h e init h1 r -> abrupt r -> ev h e (RLetVar ((id, t, init) :: vars) x) h1 r
| ev_cont_nil h e x h' r : ev h e x h' r -> ev h e (RLetCont [] x) h' r
| ev_cont_jump h e id params body conts x h1 vs h2 r :
    ev h e (RLetCont conts x) h1 (RsJump id vs) -> List.length vs = List.length params ->
    ev h1 (bind_all (map fst params) vs e) body h2 r ->
    ev h e (RLetCont ((id, params, body) :: conts) x) h2 r
| ev_cont_other h e id params body conts x h1 r :
    ev h e (RLetCont conts x) h1 r -> (forall vs, r <> RsJump id vs) ->
    ev h e (RLetCont ((id, params, body) :: conts) x) h1 r
with evs : heap -> env -> list rt -> heap -> list val + res -> Prop :=
| evs_nil h e : evs h e [] h (inl [])
| evs_cons h e x xs h1 v h2 vs :
    ev h e x h1 (RsVal v) -> evs h1 e xs h2 (inl vs) -> evs h e (x :: xs) h2 (inl (v :: vs))
| evs_stop h e x xs h1 r : ev h e x h1 r -> abrupt r -> evs h e (x :: xs) h1 (inr r)
| evs_stop_later h e x xs h1 v h2 r :
    ev h e x h1 (RsVal v) -> evs h1 e xs h2 (inr r) -> evs h e (x :: xs) h2 (inr r).

End Semantics.

(** The expression has no [let] of continuations. *)
Fixpoint cont_free (e : rt) : bool :=
  match e with
  | RVar _ _ | RConst _ | RNullary _ | RNever => true
  | RContCall _ es _ => forallb cont_free es
  | RStaticFun _ _ a => match a with Some a => cont_free a | None => true end
  | RCall f es => cont_free f && forallb cont_free es
  | RCallC _ _ es | RConstructEnv _ es | RConstructData _ _ es | RConstructStruct _ es =>
      forallb cont_free es
  | RCallAddr _ f _ es => cont_free f && forallb cont_free es
  | RUnary _ a | RAlloc _ a | RAllocArray _ _ a | RConstructSyntax _ a | RReturn a => cont_free a
  | RBinary _ a b | RWhile a b | RAnd a b | ROr a b => cont_free a && cont_free b
  | RTernary _ a b c | RIf a b c => cont_free a && cont_free b && cont_free c
  | RSeq es a => forallb cont_free es && cont_free a
  | RMatch a cs => cont_free a && forallb (fun c => cont_free (snd c)) cs
  | RLetVar vs a => forallb (fun v => cont_free (snd v)) vs && cont_free a
  | RLetCont _ _ => false
  end.
