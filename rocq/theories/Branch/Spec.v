(** * What the expansion of [match] is judged by

    The meaning of [match] itself ([pmatch], [first_match], [ev]) is in Ir/Spec.v.  Here are the
    conditions under which the pass is used. *)
From Verif.Base Require Import Base.
From Verif.Ir Require Import Model Spec.

(** The variables of a pattern, from left to right. *)
Fixpoint pat_vars (p : rtpat) : list nat :=
  match p with
  | PVar id _ None => [id]
  | PVar id _ (Some p) => id :: pat_vars p
  | PWildcard _ | PNull _ | PConst _ => []
  | PDeref p | PNonNull p | PReinterpret _ p | PSyntax p => pat_vars p
  | PData _ _ ps | PStruct _ ps => flat_map pat_vars ps
  end.

(** The constants of a pattern. *)
Fixpoint pat_consts (p : rtpat) : list const :=
  match p with
  | PVar _ _ None => []
  | PVar _ _ (Some p) => pat_consts p
  | PWildcard _ | PNull _ => []
  | PConst c => [c]
  | PDeref p | PNonNull p | PReinterpret _ p | PSyntax p => pat_consts p
  | PData _ _ ps | PStruct _ ps => flat_map pat_consts ps
  end.

(** A pattern as the earlier passes leave it: an as-pattern has the type of its variable, data
    patterns have been expanded, and there are no quoted S-expressions. *)
Fixpoint pat_ok (p : rtpat) : Prop :=
  match p with
  | PVar _ ty (Some p) => pat_ty p = ty /\ pat_ok p
  | PVar _ _ None | PWildcard _ | PNull _ => True
  | PConst (KSyntaxSexp _ _) => False
  | PConst _ => True
  | PDeref p | PNonNull p | PReinterpret _ p | PSyntax p => pat_ok p
  | PData _ _ _ => False
  | PStruct _ ps => fold_right (fun p q => pat_ok p /\ q) True ps
  end.

(** The continuations that an expression jumps to. *)
Fixpoint jump_targets (e : rt) : list nat :=
  match e with
  | RContCall k es _ => k :: flat_map jump_targets es
  | RVar _ _ | RConst _ | RNullary _ | RNever => []
  | RStaticFun _ _ a => match a with Some a => jump_targets a | None => [] end
  | RCall f es => jump_targets f ++ flat_map jump_targets es
  | RCallC _ _ es | RConstructEnv _ es | RConstructData _ _ es | RConstructStruct _ es =>
      flat_map jump_targets es
  | RCallAddr _ f _ es => jump_targets f ++ flat_map jump_targets es
  | RUnary _ a | RAlloc _ a | RAllocArray _ _ a | RConstructSyntax _ a | RReturn a =>
      jump_targets a
  | RBinary _ a b | RWhile a b | RAnd a b | ROr a b => jump_targets a ++ jump_targets b
  | RTernary _ a b c | RIf a b c => jump_targets a ++ jump_targets b ++ jump_targets c
  | RSeq es a => flat_map jump_targets es ++ jump_targets a
  | RMatch a cs => jump_targets a ++ flat_map (fun c => jump_targets (snd c)) cs
  | RLetVar vs a => flat_map (fun v => jump_targets (snd v)) vs ++ jump_targets a
  | RLetCont ks a => flat_map (fun k => jump_targets (snd k)) ks ++ jump_targets a
  end.

(** Constants that are written differently stand for different values: no value equals two
    different constants (of the same type) of the patterns. *)
Definition constants_differ (round32 : fp -> fp) (ps : list rtpat) : Prop :=
  forall c d v, In c (flat_map pat_consts ps) -> In d (flat_map pat_consts ps) ->
    const_ty c = const_ty d ->
    equals_const round32 c v = Some true -> equals_const round32 d v = Some true -> c = d.

(** The supply of fresh identifiers is beyond every continuation that the expression jumps to, the
    variables of all the patterns are different, every pattern is well formed and has the type of
    the target. *)
Definition match_ok (n : nat) (target : rt) (clauses : list (rtpat * rt)) : Prop :=
  (forall k, In k (jump_targets (RMatch target clauses)) -> k < n)%nat /\
  NoDup (flat_map (fun c => pat_vars (fst c)) clauses) /\
  (forall p body ty, In (p, body) clauses -> rt_ty target = Ret (Some ty) -> pat_ty p = ty) /\
  Forall (fun c => pat_ok (fst c)) clauses.
