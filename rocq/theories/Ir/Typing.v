(** * The types of the operations and of the values of the IR

    Written from the signatures that the declarations of the operations carry as comments (rt.rs)
    and from the types that the standard library declares for them ([builtin-op]); it does not use
    the functions that compute types (Ir/Model.v [rt_ty] and its helpers). *)
From Verif.Base Require Import Base.
From Verif.Ir Require Import Model Spec.

Section Typing.

(** The components of the structure types, the structures that a union type can hold, and the
    parameters, result and captured variables of the functions of the program. *)
Variable fields : ct -> option (list ct).
Variable member : ct -> ct -> Prop.
Variable sigs : nat -> option (list ct * ct * list ct).

(** Which values are arrays, strings aside: the representation of arrays is left open. *)
Variable array_val : val -> ct -> Prop.

(** ** Operations *)

Definition int_ty (t : ct) : Prop := exists n, t = CtS n \/ t = CtU n.
Definition float_ty (t : ct) : Prop := t = CtF32 \/ t = CtF64.

Inductive const_sig : const -> ct -> Prop :=
| cs_int ty s v : int_ty ty -> const_sig (KInteger ty s v) ty
| cs_fp ty f : float_ty ty -> const_sig (KFPNumber ty f) ty
| cs_string s : const_sig (KString s) CtString
| cs_char c : const_sig (KChar c) CtChar
| cs_sexp ty s : const_sig (KSyntaxSexp ty s) (CtSyntax ty)
| cs_unit : const_sig KUnit CtUnit.

(** rt.rs:292-299 *)
Inductive nullary_sig : nullary -> ct -> Prop :=
| ns_uninit t : nullary_sig (NUninitialized t) t
| ns_null t : nullary_sig (NNull t) (CtPtr t)
| ns_genid : nullary_sig NGenId CtString
| ns_size t : nullary_sig (NSizeOf t) (CtU 64)
| ns_align t : nullary_sig (NAlignOf t) (CtU 64).

(** rt.rs:314-349 *)
Inductive unary_sig : unary -> ct -> ct -> Prop :=
| us_not : unary_sig UNot (CtU 1) (CtU 1)
| us_load t : unary_sig ULoad (CtPtr t) t
| us_elem s ts i t : fields s = Some ts -> nth_error ts i = Some t -> unary_sig (UStructElem t i) s t
| us_rein_to s u : member u s -> unary_sig (UReinterpret u) s u
| us_rein_from s u : member u s -> unary_sig (UReinterpret s) u s
| us_body t : unary_sig USyntaxBody (CtSyntax t) t
| us_bitcast a b : unary_sig (UBitCast b) a b
| us_ptoi t : unary_sig UPtrToI (CtPtr t) (CtU 64)
| us_itop t : unary_sig (UIToPtr t) (CtU 64) (CtPtr t)
| us_compl t : int_ty t -> unary_sig UIComplement t t
| us_trunc a b : int_ty a -> int_ty b -> unary_sig (UITrunc b) a b
| us_popcount t : int_ty t -> unary_sig UIPopCount t t
| us_sext n b : int_ty b -> unary_sig (USExt b) (CtS n) b
| us_uext n b : int_ty b -> unary_sig (UUExt b) (CtU n) b
| us_stof n b : float_ty b -> unary_sig (USToF b) (CtS n) b
| us_utof n b : float_ty b -> unary_sig (UUToF b) (CtU n) b
| us_ftos a n : float_ty a -> unary_sig (UFToS (CtS n)) a (CtS n)
| us_ftou a n : float_ty a -> unary_sig (UFToU (CtU n)) a (CtU n)
| us_ftrunc a b : float_ty a -> float_ty b -> unary_sig (UFTrunc b) a b
| us_fext a b : float_ty a -> float_ty b -> unary_sig (UFExt b) a b
| us_float o t :
    In o [URealCeil; URealFloor; URealTrunc; URealRound; UMathSqrt; UMathSin; UMathCos; UMathExp;
          UMathLog] -> float_ty t -> unary_sig o t t
| us_sptr : unary_sig UStringPtr CtString (CtPtr (CtU 8))
| us_slen : unary_sig UStringLength CtString (CtU 64)
| us_aptr t : unary_sig UArrayPtr (CtArray t) (CtPtr t)
| us_alen t : unary_sig UArrayLength (CtArray t) (CtU 64).

(** rt.rs:376-427 *)
Inductive binary_sig : binary -> ct -> ct -> ct -> Prop :=
| bs_store t : binary_sig BStore t (CtPtr t) CtUnit
| bs_offset n t : int_ty n -> binary_sig BOffset n (CtPtr t) (CtPtr t)
| bs_ptr_cmp o t : In o [BPtrEq; BPtrLt; BPtrLe; BPtrGt; BPtrGe] ->
    binary_sig o (CtPtr t) (CtPtr t) (CtU 1)
| bs_int_eq t : int_ty t \/ t = CtChar -> binary_sig BIEq t t (CtU 1)
| bs_int o t : In o [BIShl; BIAShr; BILShr; BIAnd; BIOr; BIXor] -> int_ty t -> binary_sig o t t t
| bs_signed_cmp o n : In o [BSLt; BSLe; BSGt; BSGe] -> binary_sig o (CtS n) (CtS n) (CtU 1)
| bs_signed o n : In o [BSAdd; BSSub; BSMul; BSDiv; BSRem] -> binary_sig o (CtS n) (CtS n) (CtS n)
| bs_unsigned_cmp o n : In o [BULt; BULe; BUGt; BUGe] -> binary_sig o (CtU n) (CtU n) (CtU 1)
| bs_unsigned o n : In o [BUAdd; BUSub; BUMul; BUDiv; BURem] ->
    binary_sig o (CtU n) (CtU n) (CtU n)
| bs_float_cmp o t : In o [BFEq; BFLt; BFLe; BFGt; BFGe] -> float_ty t -> binary_sig o t t (CtU 1)
| bs_float o t : In o [BFAdd; BFSub; BFMul; BFDiv; BFRem; BMathPow] -> float_ty t ->
    binary_sig o t t t
| bs_sconstruct : binary_sig BStringConstruct (CtPtr (CtU 8)) (CtU 64) CtString
| bs_seq : binary_sig BStringEq CtString CtString (CtU 1)
| bs_scmp : binary_sig BStringCmp CtString CtString (CtS 32)
| bs_sconcat : binary_sig BStringConcat CtString CtString CtString
| bs_aconstruct t : binary_sig BArrayConstruct (CtPtr t) (CtU 64) (CtArray t)
| bs_aload t : binary_sig BArrayLoad (CtU 64) (CtArray t) t.

(** rt.rs:449-454 *)
Inductive ternary_sig : ternary -> ct -> ct -> ct -> Prop :=
| ts_copy t : ternary_sig TPtrCopy (CtPtr t) (CtU 64) (CtPtr t)
| ts_move t : ternary_sig TPtrMove (CtPtr t) (CtU 64) (CtPtr t)
| ts_astore t : ternary_sig TArrayStore (CtU 64) t (CtArray t).

(** ** Values *)

Section All2.
Variable P : val -> ct -> Prop.
Fixpoint all2 (vs : list val) (ts : list ct) : Prop :=
  match vs, ts with
  | [], [] => True
  | v :: vs, t :: ts => P v t /\ all2 vs ts
  | _, _ => False
  end.
End All2.

(** The types of the cells of the heap. *)
Definition store_ty : Type := list ct.

Fixpoint vty (S : store_ty) (v : val) (t : ct) {struct v} : Prop :=
  match t with
  | CtArray _ => array_val v t
  | _ =>
      match v with
      | VInt n => match t with CtS k | CtU k => (n < 2 ^ int_bits k)%N | CtChar => True | _ => False end
      | VFloat _ => float_ty t
      | VString _ => t = CtString
      | VUnit => t = CtUnit
      | VNull => exists u, t = CtPtr u
      | VPtr a => exists u, t = CtPtr u /\ nth_error S a = Some u
      | VStruct s vs => t = s /\ exists ts, fields s = Some ts /\ all2 (vty S) vs ts
      | VRein s vs => member t s /\ exists ts, fields s = Some ts /\ all2 (vty S) vs ts
      | VSyntax w => exists u, t = CtSyntax u /\ vty S w u
      | VEnv _ => False
      | VClos g cenv =>
          exists args ret caps, t = CtClos args ret /\ sigs g = Some (args, ret, caps) /\
          match cenv with
          | None => caps = []
          | Some (VEnv vs) => all2 (vty S) vs caps
          | Some _ => False
          end
      end
  end.

(** Every live cell holds a value of its type. *)
Definition heap_ok (S : store_ty) (h : heap) : Prop :=
  List.length h = List.length S /\
  forall a v t, nth_error h a = Some (Some v) -> nth_error S a = Some t -> vty S v t.

(** Cells keep their types; new cells come after the old ones. *)
Definition extends (S S' : store_ty) : Prop := exists U, S' = S ++ U.

(** ** Patterns: the type of the value, and the types of the variables *)

Inductive pat_sig : rtpat -> ct -> list (nat * ct) -> Prop :=
| ps_var id t : pat_sig (PVar id t None) t [(id, t)]
| ps_as id t p g : pat_sig p t g -> pat_sig (PVar id t (Some p)) t ((id, t) :: g)
| ps_wild t : pat_sig (PWildcard t) t []
| ps_deref p t g : pat_sig p t g -> pat_sig (PDeref p) (CtPtr t) g
| ps_nonnull p t g : pat_sig p t g -> pat_sig (PNonNull p) (CtPtr t) g
| ps_null t : pat_sig (PNull t) (CtPtr t) []
| ps_struct s ts ps g : fields s = Some ts -> pats_sig ps ts g -> pat_sig (PStruct s ps) s g
| ps_rein u s p g : member u s -> pat_sig p s g -> pat_sig (PReinterpret u p) u g
| ps_syntax p t g : pat_sig p t g -> pat_sig (PSyntax p) (CtSyntax t) g
| ps_const c t : const_sig c t -> pat_sig (PConst c) t []
with pats_sig : list rtpat -> list ct -> list (nat * ct) -> Prop :=
| pss_nil ts : pats_sig [] ts []
| pss_cons p ps t ts g gs :
    pat_sig p t g -> pats_sig ps ts gs -> pats_sig (p :: ps) (t :: ts) (g ++ gs).

(** ** Expressions *)

(** The type of an operand: a type of the IR, or the environment of a closure, whose contents the
    types of the IR do not describe. *)
Inductive sty := SCt (t : ct) | SEnv (ts : list ct).

Definition erase (s : sty) : ct := match s with SCt t => t | SEnv _ => CtEnv end.

Definition sval (S : store_ty) (v : val) (s : sty) : Prop :=
  match s with
  | SCt t => vty S v t
  | SEnv ts => match v with VEnv vs => all2 (vty S) vs ts | _ => False end
  end.

Fixpoint assoc {A} (g : list (nat * A)) (i : nat) : option A :=
  match g with [] => None | (j, t) :: g => if (j =? i)%nat then Some t else assoc g i end.

(** The type of a construct with two outcomes, of which one or both may never produce a value. *)
Inductive join : option sty -> option sty -> option sty -> Prop :=
| join_left a : join a None a
| join_right a : join None a a
| join_same a : join a a a.

(** [typed G K R x t]: with variables of the types [G], continuations that take the parameters [K],
    in a function that returns [R], the expression [x] produces values of type [t] ([None]: it
    never produces a value). *)
Inductive typed : list (nat * ct) -> list (nat * list ct) -> ct -> rt -> option sty -> Prop :=
| t_var G K R id t : assoc G id = Some t -> typed G K R (RVar id t) (Some (SCt t))
| t_fun G K R f args ret : sigs f = Some (args, ret, []) ->
    typed G K R (RStaticFun (CtId f) (CtClos args ret) None) (Some (SCt (CtClos args ret)))
| t_clos G K R f args ret caps x : sigs f = Some (args, ret, caps) ->
    typed G K R x (Some (SEnv caps)) ->
    typed G K R (RStaticFun (CtId f) (CtClos args ret) (Some x)) (Some (SCt (CtClos args ret)))
| t_const G K R c t : const_sig c t -> typed G K R (RConst c) (Some (SCt t))
| t_call G K R f xs args ret : typed G K R f (Some (SCt (CtClos args ret))) ->
    typeds G K R xs (map SCt args) -> typed G K R (RCall f xs) (Some (SCt ret))
| t_callc G K R l ret xs ts : typeds G K R xs (map SCt ts) ->
    typed G K R (RCallC l ret xs) (Some (SCt ret))
| t_calladdr G K R k f ret xs ts : typeds G K R (f :: xs) (map SCt ts) ->
    typed G K R (RCallAddr k f ret xs) (Some (SCt ret))
| t_jump G K R k xs ts ret : assoc K k = Some ts -> typeds G K R xs (map SCt ts) ->
    typed G K R (RContCall k xs (option_map erase ret)) ret
| t_nullary G K R o t : nullary_sig o t -> typed G K R (RNullary o) (Some (SCt t))
| t_unary G K R o x a t : typed G K R x (Some (SCt a)) -> unary_sig o a t ->
    typed G K R (RUnary o x) (Some (SCt t))
| t_panic G K R x : typed G K R x (Some (SCt CtString)) -> typed G K R (RUnary UPanic x) None
| t_binary G K R o x y a b t : typed G K R x (Some (SCt a)) -> typed G K R y (Some (SCt b)) ->
    binary_sig o a b t -> typed G K R (RBinary o x y) (Some (SCt t))
| t_ternary G K R o x y z a b c : typed G K R x (Some (SCt a)) -> typed G K R y (Some (SCt b)) ->
    typed G K R z (Some (SCt c)) -> ternary_sig o a b c ->
    typed G K R (RTernary o x y z) (Some (SCt CtUnit))
| t_alloc G K R l x t : typed G K R x (Some (SCt t)) -> typed G K R (RAlloc l x) (Some (SCt (CtPtr t)))
| t_alloc_array G K R l t x : typed G K R x (Some (SCt (CtU 64))) ->
    typed G K R (RAllocArray l t x) (Some (SCt (CtArray t)))
| t_env G K R l xs ts : typeds G K R xs (map SCt ts) ->
    typed G K R (RConstructEnv l xs) (Some (SEnv ts))
| t_struct G K R s xs ts : fields s = Some ts -> typeds G K R xs (map SCt ts) ->
    typed G K R (RConstructStruct s xs) (Some (SCt s))
| t_syntax G K R m x t : typed G K R x (Some (SCt t)) ->
    typed G K R (RConstructSyntax m x) (Some (SCt (CtSyntax t)))
| t_seq_nil G K R x t : typed G K R x t -> typed G K R (RSeq [] x) t
| t_seq_cons G K R s ss x a t : typed G K R s a -> typed G K R (RSeq ss x) t ->
    typed G K R (RSeq (s :: ss) x) t
| t_if G K R c x y a b t : typed G K R c (Some (SCt (CtU 1))) -> typed G K R x a ->
    typed G K R y b -> join a b t -> typed G K R (RIf c x y) t
| t_while G K R c x a : typed G K R c (Some (SCt (CtU 1))) -> typed G K R x a ->
    typed G K R (RWhile c x) (Some (SCt CtUnit))
| t_and G K R x y a : typed G K R x (Some (SCt (CtU 1))) -> typed G K R y a ->
    join (Some (SCt (CtU 1))) a (Some (SCt (CtU 1))) -> typed G K R (RAnd x y) (Some (SCt (CtU 1)))
| t_or G K R x y a : typed G K R x (Some (SCt (CtU 1))) -> typed G K R y a ->
    join (Some (SCt (CtU 1))) a (Some (SCt (CtU 1))) -> typed G K R (ROr x y) (Some (SCt (CtU 1)))
| t_match G K R x cs t r : typed G K R x (Some (SCt t)) -> typed_clauses G K R t cs r ->
    typed G K R (RMatch x cs) r
| t_return G K R x : typed G K R x (Some (SCt R)) -> typed G K R (RReturn x) None
| t_never G K R : typed G K R RNever None
| t_let_nil G K R x t : typed G K R x t -> typed G K R (RLetVar [] x) t
| t_let_cons G K R id u init vars x a t : typed G K R init a -> join (Some (SCt u)) a (Some (SCt u)) ->
    typed ((id, u) :: G) K R (RLetVar vars x) t -> typed G K R (RLetVar ((id, u, init) :: vars) x) t
| t_cont_nil G K R x t : typed G K R x t -> typed G K R (RLetCont [] x) t
| t_cont_cons G K R id params body conts x a t :
    typed G ((id, map snd params) :: K) R (RLetCont conts x) t ->
    typed (params ++ G) K R body a -> join t a t ->
    typed G K R (RLetCont ((id, params, body) :: conts) x) t
with typeds : list (nat * ct) -> list (nat * list ct) -> ct -> list rt -> list sty -> Prop :=
| ts_nil G K R : typeds G K R [] []
| ts_cons G K R x xs s ss : typed G K R x (Some s) -> typeds G K R xs ss ->
    typeds G K R (x :: xs) (s :: ss)
with typed_clauses
  : list (nat * ct) -> list (nat * list ct) -> ct -> ct -> list (rtpat * rt) -> option sty -> Prop :=
| tc_nil G K R t : typed_clauses G K R t [] None
| tc_cons G K R t p g body cs a b r : pat_sig p t g -> typed (g ++ G) K R body a ->
    typed_clauses G K R t cs b -> join a b r -> typed_clauses G K R t ((p, body) :: cs) r.

(** ** Programs *)

(** Arrays, structures and unions are different types. *)
Definition types_ok : Prop :=
  (forall t, fields (CtArray t) = None) /\
  (forall t u, ~ member (CtArray t) u /\ ~ member u (CtArray t)) /\
  (forall u s, member u s -> fields u = None).

(** The opaque operations keep to their signatures. *)
Inductive prim_sig : prim_op -> list ct -> ct -> Prop :=
| q_nullary o t : nullary_sig o t -> prim_sig (QNullary o) [] t
| q_unary o a t : unary_sig o a t -> prim_sig (QUnary o) [a] t
| q_binary o a b t : binary_sig o a b t -> prim_sig (QBinary o) [a; b] t
| q_ternary o a b c : ternary_sig o a b c -> prim_sig (QTernary o) [a; b; c] CtUnit
| q_alloc_array l t : prim_sig (QAllocArray l t) [CtU 64] (CtArray t)
| q_sexp t s : prim_sig (QSexp t s) [] (CtSyntax t)
| q_callc l ret ts : prim_sig (QCallC l ret) ts ret
| q_calladdr k ret ts : prim_sig (QCallAddr k ret) ts ret.

Definition prims_ok (prim : prim_op -> heap -> list val -> option (heap * val)) : Prop :=
  forall S q ts t h vs h' v, prim_sig q ts t -> heap_ok S h -> Forall2 (vty S) vs ts ->
    prim q h vs = Some (h', v) -> exists S', extends S S' /\ heap_ok S' h' /\ vty S' v t.

Definition funs_ok (funs : nat -> option (list nat * list nat * rt)) : Prop :=
  forall f params captured body args ret caps,
    funs f = Some (params, captured, body) -> sigs f = Some (args, ret, caps) ->
    exists a, typed (combine params args ++ combine captured caps) [] ret body a /\
              join (Some (SCt ret)) a (Some (SCt ret)).

Definition env_ok (S : store_ty) (G : list (nat * ct)) (e : env) : Prop :=
  Forall2 (fun g b => fst g = fst b /\ vty S (snd b) (snd g)) G e.

End Typing.

(** No [>=] of floating-point numbers anywhere. *)
Fixpoint no_fge (e : rt) : bool :=
  match e with
  | RBinary BFGe _ _ => false
  | RVar _ _ | RConst _ | RNullary _ | RNever => true
  | RContCall _ es _ => forallb no_fge es
  | RStaticFun _ _ a => match a with Some a => no_fge a | None => true end
  | RCall f es => no_fge f && forallb no_fge es
  | RCallC _ _ es | RConstructEnv _ es | RConstructData _ _ es | RConstructStruct _ es =>
      forallb no_fge es
  | RCallAddr _ f _ es => no_fge f && forallb no_fge es
  | RUnary _ a | RAlloc _ a | RAllocArray _ _ a | RConstructSyntax _ a | RReturn a => no_fge a
  | RBinary _ a b | RWhile a b | RAnd a b | ROr a b => no_fge a && no_fge b
  | RTernary _ a b c | RIf a b c => no_fge a && no_fge b && no_fge c
  | RSeq es a => forallb no_fge es && no_fge a
  | RMatch a cs => no_fge a && forallb (fun c => no_fge (snd c)) cs
  | RLetVar vs a => forallb (fun v => no_fge (snd v)) vs && no_fge a
  | RLetCont ks a => forallb (fun k => no_fge (snd k)) ks && no_fge a
  end.
