(** * What may be said of an object that is never referenced again *)
From Verif.Base Require Import Base.
From Verif.Ir Require Import Model Spec.

(** The addresses that a value mentions. *)
Fixpoint addrs (v : val) : list nat :=
  match v with
  | VInt _ | VFloat _ | VString _ | VUnit | VNull => []
  | VPtr a => [a]
  | VStruct _ vs | VRein _ vs | VEnv vs => flat_map addrs vs
  | VSyntax v => addrs v
  | VClos _ (Some v) => addrs v
  | VClos _ None => []
  end.

(** Every address mentioned by [v] is one of [h], and is not in [S]. *)
Definition val_ok (S : nat -> Prop) (h : heap) (v : val) : Prop :=
  forall a, In a (addrs v) -> ~ S a /\ (a < List.length h)%nat.

Definition heap_ok (S : nat -> Prop) (h : heap) : Prop :=
  forall a v, load h a = Some v -> val_ok S h v.

Definition env_ok (S : nat -> Prop) (h : heap) (e : env) : Prop :=
  forall id v, lookup e id = Some v -> val_ok S h v.

Definition res_ok (S : nat -> Prop) (h : heap) (r : res) : Prop :=
  match r with
  | RsVal v | RsReturn v => val_ok S h v
  | RsJump _ vs => Forall (val_ok S h) vs
  | RsPanic _ => True
  end.

(** The heaps have the same cells, except those in [S]. *)
Definition agree (S : nat -> Prop) (h h' : heap) : Prop :=
  List.length h = List.length h' /\ forall a, ~ S a -> nth_error h a = nth_error h' a.

(** Opaque operations cannot tell the presence of objects they are given no way to reach: whatever
    cells [S] nothing refers to, an operation does the same without them, leaves them alone and makes
    no reference to them. *)
Definition prims_local (prim : prim_op -> heap -> list val -> option (heap * val)) : Prop :=
  forall q S h h' vs h1 v,
  heap_ok S h -> (forall a, S a -> (a < List.length h)%nat) -> agree S h h' -> Forall (val_ok S h) vs ->
  prim q h vs = Some (h1, v) ->
  (List.length h <= List.length h1)%nat /\ heap_ok S h1 /\ val_ok S h1 v /\
  (forall a, S a -> nth_error h1 a = nth_error h a) /\
  exists h1', prim q h' vs = Some (h1', v) /\ agree S h1 h1' /\
    forall a, S a -> nth_error h1' a = nth_error h' a.

(** ** Restrictions on programs *)

Section Lists.
Variable A : Type.
Variable f : rt -> list A.
Definition in_lets (vs : list (nat * ct * rt)) : list A := flat_map (fun v => f (snd v)) vs.
Definition in_conts (ks : list (nat * list param * rt)) : list A := flat_map (fun k => f (snd k)) ks.
Definition in_clauses (cs : list (rtpat * rt)) : list A := flat_map (fun c => f (snd c)) cs.
Definition in_opt (a : option rt) : list A := match a with Some a => f a | None => [] end.
End Lists.
Arguments in_lets {A}. Arguments in_conts {A}. Arguments in_clauses {A}. Arguments in_opt {A}.

(** The variables bound to the result of an allocation, with repetitions. *)
Fixpoint alloc_vars (x : rt) : list nat :=
  match x with
  | RVar _ _ | RConst _ | RNullary _ | RNever => []
  | RStaticFun _ _ a => in_opt alloc_vars a
  | RCall f es => alloc_vars f ++ flat_map alloc_vars es
  | RCallC _ _ es | RContCall _ es _ | RConstructEnv _ es | RConstructData _ _ es
  | RConstructStruct _ es => flat_map alloc_vars es
  | RCallAddr _ f _ es => alloc_vars f ++ flat_map alloc_vars es
  | RUnary _ a | RAlloc _ a | RAllocArray _ _ a | RConstructSyntax _ a | RReturn a => alloc_vars a
  | RBinary _ a b | RWhile a b | RAnd a b | ROr a b => alloc_vars a ++ alloc_vars b
  | RTernary _ a b c | RIf a b c => alloc_vars a ++ alloc_vars b ++ alloc_vars c
  | RSeq es a => flat_map alloc_vars es ++ alloc_vars a
  | RMatch a cs => alloc_vars a ++ in_clauses alloc_vars cs
  | RLetVar vs b =>
      flat_map (fun v => match snd v with RAlloc _ _ => [fst (fst v)] | _ => [] end) vs ++
      in_lets alloc_vars vs ++ alloc_vars b
  | RLetCont ks b => in_conts alloc_vars ks ++ alloc_vars b
  end.

(** The locations of the allocations. *)
Fixpoint locations (x : rt) : list location :=
  match x with
  | RVar _ _ | RConst _ | RNullary _ | RNever => []
  | RStaticFun _ _ a => in_opt locations a
  | RCall f es => locations f ++ flat_map locations es
  | RCallC _ _ es | RContCall _ es _ | RConstructEnv _ es | RConstructData _ _ es
  | RConstructStruct _ es => flat_map locations es
  | RCallAddr _ f _ es => locations f ++ flat_map locations es
  | RAlloc l a => l :: locations a
  | RUnary _ a | RAllocArray _ _ a | RConstructSyntax _ a | RReturn a => locations a
  | RBinary _ a b | RWhile a b | RAnd a b | ROr a b => locations a ++ locations b
  | RTernary _ a b c | RIf a b c => locations a ++ locations b ++ locations c
  | RSeq es a => flat_map locations es ++ locations a
  | RMatch a cs => locations a ++ in_clauses locations cs
  | RLetVar vs b => in_lets locations vs ++ locations b
  | RLetCont ks b => in_conts locations ks ++ locations b
  end.

(** A function or expression as the earlier passes leave it: variables bound to allocations are
    distinct and nothing is on the stack yet. *)
Definition well_formed (x : rt) : Prop :=
  NoDup (alloc_vars x) /\ Forall (fun l => l = LHeap) (locations x).

(** The expression with every allocation on the heap. *)
Fixpoint erase (x : rt) : rt :=
  match x with
  | RVar _ _ | RConst _ | RNullary _ | RNever => x
  | RStaticFun f t a => RStaticFun f t (match a with Some a => Some (erase a) | None => None end)
  | RCall f es => RCall (erase f) (map erase es)
  | RCallC c r es => RCallC c r (map erase es)
  | RCallAddr k f r es => RCallAddr k (erase f) r (map erase es)
  | RContCall k es r => RContCall k (map erase es) r
  | RUnary o a => RUnary o (erase a)
  | RBinary o a b => RBinary o (erase a) (erase b)
  | RTernary o a b c => RTernary o (erase a) (erase b) (erase c)
  | RAlloc _ a => RAlloc LHeap (erase a)
  | RAllocArray l t a => RAllocArray l t (erase a)
  | RConstructEnv l es => RConstructEnv l (map erase es)
  | RConstructData t i es => RConstructData t i (map erase es)
  | RConstructStruct t es => RConstructStruct t (map erase es)
  | RConstructSyntax m a => RConstructSyntax m (erase a)
  | RSeq es a => RSeq (map erase es) (erase a)
  | RIf a b c => RIf (erase a) (erase b) (erase c)
  | RWhile a b => RWhile (erase a) (erase b)
  | RAnd a b => RAnd (erase a) (erase b)
  | ROr a b => ROr (erase a) (erase b)
  | RMatch a cs => RMatch (erase a) (map (fun c => (fst c, erase (snd c))) cs)
  | RReturn a => RReturn (erase a)
  | RLetVar vs b => RLetVar (map (fun v => (fst v, erase (snd v))) vs) (erase b)
  | RLetCont ks b => RLetCont (map (fun k => (fst k, erase (snd k))) ks) (erase b)
  end.

(** No cells at all. *)
Definition none : nat -> Prop := fun _ => False.
