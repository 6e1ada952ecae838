(** * The low-level intermediate representation

    Models llrl0/src/lowering/ir/{ct,rt,def}.rs: the syntax of compile-time expressions (types) and
    of run-time expressions, the smart constructors that merge nested nodes, and the type computed
    for every expression.  [RtId] and [CtId] are natural numbers.  The forms that the normalizer
    erases ([Rt::LocalFun], [Rt::LetLocalFun]) are not modelled. *)
From Coq Require Import List NArith ZArith Bool.
From Verif.Base Require Import Base.
Import ListNotations.

(** ct.rs:29-48 [Ct]. *)
Inductive ct :=
| CtId (id : nat)
| CtGenericInst (f : ct) (args : list ct)
| CtTableGet (t : ct) (id : nat)
| CtPtr (t : ct)
| CtClos (args : list ct) (ret : ct)
| CtS (n : nat)
| CtU (n : nat)
| CtF32
| CtF64
| CtString
| CtChar
| CtArray (t : ct)
| CtCapturedUse
| CtUnit
| CtEnv
| CtSyntax (t : ct).

(** The derived [PartialEq] of [Ct]. *)
Fixpoint ct_eq_dec (a b : ct) {struct a} : {a = b} + {a <> b}.
Proof.
  decide equality; try apply Nat.eq_dec; apply (list_eq_dec ct_eq_dec).
Defined.

(** ct.rs:87 [Ct::BOOL]. *)
Definition ct_bool : ct := CtU 1.

(** ct.rs:89-95 [Ct::clos_ret]. *)
Definition clos_ret (t : ct) : outcome ct := match t with CtClos _ r => Ret r | _ => Panic end.
(** ct.rs:97-103 [Ct::ptr_elem]. *)
Definition ptr_elem (t : ct) : outcome ct := match t with CtPtr r => Ret r | _ => Panic end.
(** ct.rs:105-111 [Ct::array_elem]. *)
Definition array_elem (t : ct) : outcome ct := match t with CtArray r => Ret r | _ => Panic end.
(** ct.rs:113-119 [Ct::syntax_body]. *)
Definition syntax_body (t : ct) : outcome ct := match t with CtSyntax r => Ret r | _ => Panic end.

(** [OrderedFloat<f64>] up to its own equality, which is the only way the passes look at it: one
    NaN, and one number for each class of numerically equal floats (so 0.0 and -0.0 coincide). *)
Inductive fp := FNaN | FNum (z : Z).

Definition fp_eq_dec (a b : fp) : {a = b} + {a <> b}.
Proof. decide equality; apply Z.eq_dec. Defined.

(** rt.rs:567-576 [Const].  The payload of a quoted S-expression is represented by its text. *)
Inductive const :=
| KInteger (ty : ct) (signed : bool) (v : N)
| KFPNumber (ty : ct) (f : fp)
| KString (s : text)
| KChar (c : N)
| KSyntaxSexp (ty : ct) (s : text)
| KUnit.

(** The derived [PartialEq] of [Const]. *)
Definition const_eq_dec (a b : const) : {a = b} + {a <> b}.
Proof.
  decide equality; try apply ct_eq_dec; try apply N.eq_dec; try apply Bool.bool_dec;
    try apply fp_eq_dec; apply (list_eq_dec N.eq_dec).
Defined.

(** rt.rs:579-581 [Const::bool]. *)
Definition const_bool (b : bool) : const := KInteger ct_bool false (if b then 1%N else 0%N).

(** rt.rs:588-597 [Const::ty]. *)
Definition const_ty (c : const) : ct :=
  match c with
  | KInteger ty _ _ => ty
  | KFPNumber ty _ => ty
  | KString _ => CtString
  | KChar _ => CtChar
  | KSyntaxSexp ty _ => CtSyntax ty
  | KUnit => CtUnit
  end.

(** rt.rs:292-299 [Nullary]. *)
Inductive nullary :=
| NUninitialized (t : ct) | NNull (t : ct) | NGenId | NSizeOf (t : ct) | NAlignOf (t : ct).

(** rt.rs:314-349 [Unary]. *)
Inductive unary :=
| UNot | ULoad | UStructElem (t : ct) (i : nat) | UReinterpret (t : ct) | USyntaxBody | UPanic
| UBitCast (t : ct) | UPtrToI | UIToPtr (t : ct) | UIComplement | UITrunc (t : ct) | UIPopCount
| USExt (t : ct) | UUExt (t : ct) | USToF (t : ct) | UUToF (t : ct) | UFToS (t : ct)
| UFToU (t : ct) | UFTrunc (t : ct) | UFExt (t : ct)
| URealCeil | URealFloor | URealTrunc | URealRound
| UMathSqrt | UMathSin | UMathCos | UMathExp | UMathLog
| UStringPtr | UStringLength | UArrayPtr | UArrayLength.

(** rt.rs:376-427 [Binary]. *)
Inductive binary :=
| BStore | BOffset | BPtrEq | BPtrLt | BPtrLe | BPtrGt | BPtrGe
| BIEq | BIShl | BIAShr | BILShr | BIAnd | BIOr | BIXor
| BSLt | BSLe | BSGt | BSGe | BSAdd | BSSub | BSMul | BSDiv | BSRem
| BULt | BULe | BUGt | BUGe | BUAdd | BUSub | BUMul | BUDiv | BURem
| BFEq | BFLt | BFLe | BFGt | BFGe | BFAdd | BFSub | BFMul | BFDiv | BFRem | BMathPow
| BStringConstruct | BStringEq | BStringCmp | BStringConcat | BArrayConstruct | BArrayLoad.

(** rt.rs:449-454 [Ternary]. *)
Inductive ternary := TPtrCopy | TPtrMove | TArrayStore.

(** rt.rs:462-467 [Location]. *)
Inductive location := LHeap | LStackStatic | LStackDynamic.

(** rt.rs:476-487 [RtPat]. *)
Inductive rtpat :=
| PVar (id : nat) (ty : ct) (as_ : option rtpat)
| PWildcard (ty : ct)
| PDeref (p : rtpat)
| PNonNull (p : rtpat)
| PNull (ty : ct)
| PData (ty : ct) (index : nat) (args : list rtpat)
| PStruct (ty : ct) (args : list rtpat)
| PReinterpret (ty : ct) (p : rtpat)
| PSyntax (p : rtpat)
| PConst (c : const).

(** rt.rs:491-504 [RtPat::ty]. *)
Fixpoint pat_ty (p : rtpat) : ct :=
  match p with
  | PVar _ ty _ => ty
  | PWildcard ty => ty
  | PDeref p => CtPtr (pat_ty p)
  | PNonNull p => CtPtr (pat_ty p)
  | PNull ty => CtPtr ty
  | PData ty _ _ => ty
  | PStruct ty _ => ty
  | PReinterpret ty _ => ty
  | PSyntax p => CtSyntax (pat_ty p)
  | PConst c => const_ty c
  end.

(** rt.rs:562-565 [RtParam]. *)
Definition param : Type := nat * ct.

(** rt.rs:34-66 [Rt], with [RtCallee] (rt.rs:251-258) folded into the call forms: a call of a
    closure, a call of a C symbol, and a call through an address ([CIndirect], [MainIndirect] and
    [MacroIndirect], told apart by [kind]). *)
Inductive rt :=
| RVar (id : nat) (ty : ct)
| RStaticFun (f : ct) (ty : ct) (env : option rt)
| RConst (c : const)
| RCall (f : rt) (args : list rt)
| RCallC (label : text) (ret : ct) (args : list rt)
| RCallAddr (kind : nat) (f : rt) (ret : ct) (args : list rt)
| RContCall (cont : nat) (args : list rt) (ret : option ct)
| RNullary (o : nullary)
| RUnary (o : unary) (a : rt)
| RBinary (o : binary) (a b : rt)
| RTernary (o : ternary) (a b c : rt)
| RAlloc (l : location) (a : rt)
| RAllocArray (l : location) (ty : ct) (len : rt)
| RConstructEnv (l : location) (elems : list rt)
| RConstructData (ty : ct) (index : nat) (args : list rt)
| RConstructStruct (ty : ct) (args : list rt)
| RConstructSyntax (meta : nat) (a : rt)
| RSeq (stmts : list rt) (ret : rt)
| RIf (c t e : rt)
| RWhile (c b : rt)
| RAnd (a b : rt)
| ROr (a b : rt)
| RMatch (target : rt) (clauses : list (rtpat * rt))
| RReturn (a : rt)
| RNever
| RLetVar (vars : list (nat * ct * rt)) (body : rt)
| RLetCont (conts : list (nat * list param * rt)) (body : rt).

(** rt.rs:136-146 [Rt::seq]. *)
Definition seq (stmts : list rt) (ret : rt) : rt :=
  match stmts, ret with
  | [], _ => ret
  | _, RSeq inner r => RSeq (stmts ++ inner) r
  | _, _ => RSeq stmts ret
  end.

(** rt.rs:172-182 [Rt::let_var]. *)
Definition let_var (vars : list (nat * ct * rt)) (body : rt) : rt :=
  match vars, body with
  | [], _ => body
  | _, RLetVar inner b => RLetVar (vars ++ inner) b
  | _, _ => RLetVar vars body
  end.

(** rt.rs:192-202 [Rt::let_cont]. *)
Definition let_cont (conts : list (nat * list param * rt)) (body : rt) : rt :=
  match conts, body with
  | [], _ => body
  | _, RLetCont inner b => RLetCont (conts ++ inner) b
  | _, _ => RLetCont conts body
  end.

(** The computed type: [Ret None] is "no value is produced"; [Panic] is a panic of one of the
    element-type extractors. *)
Definition ty_result : Type := outcome (option ct).

(** [x?] on a type followed by [f]. *)
Definition on_ty (x : ty_result) (f : ct -> outcome ct) : ty_result :=
  let* t := x in
  match t with
  | None => Ret None
  | Some t => let* u := f t in Ret (Some u)
  end.

Definition some_ty (t : ct) : ty_result := Ret (Some t).

(** rt.rs:301-311 [Nullary::ty]. *)
Definition nullary_ty (o : nullary) : ct :=
  match o with
  | NUninitialized t => t
  | NNull t => CtPtr t
  | NGenId => CtString
  | NSizeOf _ | NAlignOf _ => CtU 64
  end.

(** rt.rs:351-374 [Unary::ty], given the type of the operand. *)
Definition unary_ty (o : unary) (a : ty_result) : ty_result :=
  match o with
  | UNot => some_ty ct_bool
  | ULoad => on_ty a ptr_elem
  | UStructElem t _ => some_ty t
  | UReinterpret t => some_ty t
  | USyntaxBody => on_ty a syntax_body
  | UPanic => Ret None
  | UBitCast t => some_ty t
  | UPtrToI => some_ty (CtU 64)
  | UIToPtr t => some_ty (CtPtr t)
  | UITrunc t | USExt t | UUExt t | USToF t | UUToF t | UFToS t | UFToU t | UFTrunc t | UFExt t =>
      some_ty t
  | UIComplement | UIPopCount | URealCeil | URealFloor | URealTrunc | URealRound
  | UMathSqrt | UMathSin | UMathCos | UMathExp | UMathLog => a
  | UStringPtr => some_ty (CtPtr (CtU 8))
  | UStringLength => some_ty (CtU 64)
  | UArrayPtr => on_ty a (fun t => let* e := array_elem t in Ret (CtPtr e))
  | UArrayLength => some_ty (CtU 64)
  end.

(** rt.rs:429-447 [Binary::ty], given the types of the operands. *)
Definition binary_ty (o : binary) (a b : ty_result) : ty_result :=
  match o with
  | BStore => some_ty CtUnit
  | BOffset => b
  | BIShl | BIAShr | BILShr | BIAnd | BIOr | BIXor | BSAdd | BSSub | BSMul | BSDiv | BSRem
  | BUAdd | BUSub | BUMul | BUDiv | BURem | BFGe | BFAdd | BFSub | BFMul | BFDiv | BFRem
  | BMathPow => a
  | BPtrEq | BPtrLt | BPtrLe | BPtrGt | BPtrGe | BIEq | BSLt | BSLe | BSGt | BSGe
  | BULt | BULe | BUGt | BUGe | BFEq | BFLt | BFLe | BFGt | BStringEq => some_ty ct_bool
  | BStringConstruct => some_ty CtString
  | BStringCmp => some_ty (CtS 32)
  | BStringConcat => some_ty CtString
  | BArrayConstruct => on_ty a (fun t => let* e := ptr_elem t in Ret (CtArray e))
  | BArrayLoad => on_ty b array_elem
  end.

(** rt.rs:205-234 [Rt::ty] and rt.rs:260-269 [RtCallee::ret_ty]. *)
Fixpoint rt_ty (e : rt) : ty_result :=
  match e with
  | RVar _ ty => some_ty ty
  | RStaticFun _ ty _ => some_ty ty
  | RConst c => some_ty (const_ty c)
  | RCall f _ => on_ty (rt_ty f) clos_ret
  | RCallC _ ret _ => some_ty ret
  | RCallAddr _ _ ret _ => some_ty ret
  | RContCall _ _ ret => Ret ret
  | RNullary o => some_ty (nullary_ty o)
  | RUnary o a => unary_ty o (rt_ty a)
  | RBinary o a b => binary_ty o (rt_ty a) (rt_ty b)
  | RTernary _ _ _ _ => some_ty CtUnit
  | RAlloc _ a => on_ty (rt_ty a) (fun t => Ret (CtPtr t))
  | RAllocArray _ ty _ => some_ty (CtArray ty)
  | RConstructEnv _ _ => some_ty CtEnv
  | RConstructData ty _ _ => some_ty ty
  | RConstructStruct ty _ => some_ty ty
  | RConstructSyntax _ a => on_ty (rt_ty a) (fun t => Ret (CtSyntax t))
  | RSeq _ r => rt_ty r
  | RIf _ t e =>
      let* ty := rt_ty t in
      match ty with Some ty => Ret (Some ty) | None => rt_ty e end
  | RWhile _ _ => some_ty CtUnit
  | RAnd _ _ | ROr _ _ => some_ty (CtU 1)
  | RMatch _ clauses =>
      (fix find (l : list (rtpat * rt)) : ty_result :=
         match l with
         | [] => Ret None
         | (_, b) :: l =>
             let* ty := rt_ty b in
             match ty with Some ty => Ret (Some ty) | None => find l end
         end) clauses
  | RReturn _ => Ret None
  | RNever => Ret None
  | RLetVar _ b => rt_ty b
  | RLetCont _ b => rt_ty b
  end.
