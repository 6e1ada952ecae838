(** * What expressions with local functions mean *)
From Verif.Base Require Import Base.
From Verif.Ir Require Import Model.
From Verif.Closure Require Import Model.

(** Numbers, text and so on are atoms.  A local function as a value is its group of functions, which one it is,
    and the variables at its definition. *)
Inductive atom := AInt (n : N) | AFloat (f : fp) | AText (s : text) | AUnit | ANull.
Inductive value :=
| VAtom (a : atom)
| VPtr (a : nat)
| VData (i : nat) (vs : list value)
| VStruct (t : ct) (vs : list value)
| VSyntax (v : value)
| VEnv (vs : list value)
| VFun (f : nat) (env : option value)
| VLocal (funs : list (nat * list param * ct * expr)) (f : nat) (e : list (nat * value)).

Definition env : Type := list (nat * value).
Definition lookup (e : env) (id : nat) : option value := assoc id e.

Definition v_bool (b : bool) : value := VAtom (AInt (if b then 1 else 0)).

(** The memory; a cell that does not exist (any more) holds nothing. *)
Definition heap : Type := list (option value).

Inductive res :=
| RsVal (v : value)                     (* a value *)
| RsReturn (v : value)                  (* return from the function *)
| RsJump (cont : nat) (vs : list value) (* a jump to a continuation *)
| RsPanic (s : text).                   (* the program panicked *)
Definition abrupt (r : res) : Prop := match r with RsVal _ => False | _ => True end.

Definition returned (r : res) : option res :=
  match r with
  | RsVal v | RsReturn v => Some (RsVal v)
  | RsPanic s => Some (RsPanic s)
  | RsJump _ _ => None
  end.

Section Semantics.

(** The operations on values: arithmetic, memory, structures, calls of C functions, panics, ... *)
Variable prim : strict -> heap -> list value -> option (heap * res).
(** Whether a value is equal to a constant. *)
Variable equals : const -> value -> option bool.
(** The functions of the program. *)
Variable funs : nat -> option function.

(** ** Patterns *)
Inductive matched := MYes (binds : env) | MNo | MUndefined.
Definition and_then (a : matched) (k : env -> matched) : matched :=
  match a with MYes b => k b | MNo => MNo | MUndefined => MUndefined end.

Section Fields.
Variable pmatch : rtpat -> value -> matched.
Fixpoint pmatch_fields (ps : list rtpat) (vs : list value) : matched :=
  match ps, vs with
  | [], _ => MYes []
  | p :: ps, v :: vs => and_then (pmatch p v) (fun b => and_then (pmatch_fields ps vs) (fun bs => MYes (b ++ bs)))
  | _ :: _, [] => MUndefined
  end.
End Fields.

Definition load (h : heap) (a : nat) : option value := match nth_error h a with Some (Some v) => Some v | _ => None end.

Fixpoint pmatch (h : heap) (p : rtpat) (v : value) : matched :=
  match p with
  | PVar id _ None => MYes [(id, v)]
  | PVar id _ (Some p) => and_then (pmatch h p v) (fun b => MYes ((id, v) :: b))
  | PWildcard _ => MYes []
  | PDeref p =>
      match v with VPtr a => match load h a with Some w => pmatch h p w | None => MUndefined end | _ => MUndefined end
  | PNonNull p =>
      match v with
      | VAtom ANull => MNo
      | VPtr a => match load h a with Some w => pmatch h p w | None => MUndefined end
      | _ => MUndefined
      end
  | PNull _ => match v with VAtom ANull => MYes [] | VPtr _ => MNo | _ => MUndefined end
  | PData _ i ps => match v with VData j vs => if Nat.eqb i j then pmatch_fields (pmatch h) ps vs else MNo | _ => MUndefined end
  | PStruct _ ps => match v with VStruct _ vs => pmatch_fields (pmatch h) ps vs | _ => MUndefined end
  | PReinterpret _ _ => MUndefined
  | PSyntax p => match v with VSyntax w => pmatch h p w | _ => MUndefined end
  | PConst c => match equals c v with Some true => MYes [] | Some false => MNo | None => MUndefined end
  end.

Fixpoint first_match (h : heap) (v : value) (clauses : list (rtpat * expr)) : option (env * expr) :=
  match clauses with
  | [] => None
  | (p, body) :: rest =>
      match pmatch h p v with
      | MYes binds => Some (binds, body)
      | MNo => first_match h v rest
      | MUndefined => None
      end
  end.

(** ** Operations *)
Definition perform (o : strict) (h : heap) (vs : list value) : option (heap * res) :=
  match o, vs with
  | SEnv _, vs => Some (h, RsVal (VEnv vs))
  | SFun f _, [] => Some (h, RsVal (VFun f None))
  | SFun f _, [v] => Some (h, RsVal (VFun f (Some v)))
  | SFun _ _, _ => None
  | SReturn, [v] => Some (h, RsReturn v)
  | SReturn, _ => None
  | SJump k _, vs => Some (h, RsJump k vs)
  | o, vs => prim o h vs
  end.

(** ** Calls *)

(** The variables of the body of a function: its parameters and, when it has an environment, the environment and
    its elements. *)
Definition callee (f : function) (cenv : option value) (args : list value) : option env :=
  if Nat.eqb (List.length (f_params f)) (List.length args) then
    match f_env f, cenv with
    | None, None => Some (combine (map fst (f_params f)) args)
    | Some (id, ps), Some (VEnv vs) =>
        if Nat.eqb (List.length ps) (List.length vs)
        then Some (combine (map fst (f_params f)) args ++ (id, VEnv vs) :: combine (map fst ps) vs) else None
    | _, _ => None
    end
  else None.

(** The functions of a group, defined where the variables are [e]. *)
Definition group (fs : list (nat * list param * ct * expr)) (e : env) : env :=
  map (fun f => (fst (fst (fst f)), VLocal fs (fst (fst (fst f))) e)) fs.

Inductive entered : value -> list value -> env -> expr -> Prop :=
| entered_fun g cenv vs f e : funs g = Some f -> callee f cenv vs = Some e -> entered (VFun g cenv) vs e (f_body f)
| entered_local fs id e ps ret body vs : find (fun f => Nat.eqb id (fst (fst (fst f)))) fs = Some (id, ps, ret, body) -> List.length ps = List.length vs ->
    entered (VLocal fs id e) vs (combine (map fst ps) vs ++ group fs e ++ e) body.

(** ** Evaluation *)
Inductive ev : heap -> env -> expr -> heap -> res -> Prop :=
| ev_var h e id t v : lookup e id = Some v -> ev h e (EVar id t) h (RsVal v)
| ev_local h e id t v : lookup e id = Some v -> ev h e (ELocal id t) h (RsVal v)
| ev_op h e o es h1 vs h2 r : evs h e es h1 (inl vs) -> perform o h1 vs = Some (h2, r) -> ev h e (EOp o es) h2 r
| ev_op_stop h e o es h1 r : evs h e es h1 (inr r) -> ev h e (EOp o es) h1 r
| ev_call h e f args h1 v vs e' body h2 r r' :
    evs h e (f :: args) h1 (inl (v :: vs)) -> entered v vs e' body -> ev h1 e' body h2 r -> returned r = Some r' ->
    ev h e (ECall f args) h2 r'
| ev_call_stop h e f args h1 r : evs h e (f :: args) h1 (inr r) -> ev h e (ECall f args) h1 r
| ev_seq h e ss x h1 vs h2 r : evs h e ss h1 (inl vs) -> ev h1 e x h2 r -> ev h e (ESeq ss x) h2 r
| ev_seq_stop h e ss x h1 r : evs h e ss h1 (inr r) -> ev h e (ESeq ss x) h1 r
| ev_if h e c t f h1 b h2 r : ev h e c h1 (RsVal (v_bool b)) -> ev h1 e (if b then t else f) h2 r -> ev h e (EIf c t f) h2 r
| ev_if_stop h e c t f h1 r : ev h e c h1 r -> abrupt r -> ev h e (EIf c t f) h1 r
| ev_while_end h e c b h1 : ev h e c h1 (RsVal (v_bool false)) -> ev h e (EWhile c b) h1 (RsVal (VAtom AUnit))
| ev_while_next h e c b h1 h2 v h3 r :
    ev h e c h1 (RsVal (v_bool true)) -> ev h1 e b h2 (RsVal v) -> ev h2 e (EWhile c b) h3 r -> ev h e (EWhile c b) h3 r
| ev_while_stop_cond h e c b h1 r : ev h e c h1 r -> abrupt r -> ev h e (EWhile c b) h1 r
| ev_while_stop h e c b h1 h2 r :
    ev h e c h1 (RsVal (v_bool true)) -> ev h1 e b h2 r -> abrupt r -> ev h e (EWhile c b) h2 r
| ev_and_true h e a b h1 h2 r : ev h e a h1 (RsVal (v_bool true)) -> ev h1 e b h2 r -> ev h e (EAnd a b) h2 r
| ev_and_false h e a b h1 : ev h e a h1 (RsVal (v_bool false)) -> ev h e (EAnd a b) h1 (RsVal (v_bool false))
| ev_and_stop h e a b h1 r : ev h e a h1 r -> abrupt r -> ev h e (EAnd a b) h1 r
| ev_or_true h e a b h1 : ev h e a h1 (RsVal (v_bool true)) -> ev h e (EOr a b) h1 (RsVal (v_bool true))
| ev_or_false h e a b h1 h2 r : ev h e a h1 (RsVal (v_bool false)) -> ev h1 e b h2 r -> ev h e (EOr a b) h2 r
| ev_or_stop h e a b h1 r : ev h e a h1 r -> abrupt r -> ev h e (EOr a b) h1 r
| ev_match h e target clauses h1 v binds body h2 r :
    ev h e target h1 (RsVal v) -> first_match h1 v clauses = Some (binds, body) -> ev h1 (binds ++ e) body h2 r ->
    ev h e (EMatch target clauses) h2 r
| ev_match_stop h e target clauses h1 r : ev h e target h1 r -> abrupt r -> ev h e (EMatch target clauses) h1 r
| ev_let_nil h e x h' r : ev h e x h' r -> ev h e (ELetVar [] x) h' r
| ev_let h e id t init vars x h1 v h2 r :
    ev h e init h1 (RsVal v) -> ev h1 ((id, v) :: e) (ELetVar vars x) h2 r -> ev h e (ELetVar ((id, t, init) :: vars) x) h2 r
| ev_let_stop h e id t init vars x h1 r : ev h e init h1 r -> abrupt r -> ev h e (ELetVar ((id, t, init) :: vars) x) h1 r
| ev_let_local h e fs x h1 r : ev h (group fs e ++ e) x h1 r -> ev h e (ELetLocal fs x) h1 r
| ev_cont_nil h e x h' r : ev h e x h' r -> ev h e (ELetCont [] x) h' r
| ev_cont_jump h e id params body conts x h1 vs h2 r :
    ev h e (ELetCont conts x) h1 (RsJump id vs) -> List.length vs = List.length params ->
    ev h1 (combine (map fst params) vs ++ e) body h2 r -> ev h e (ELetCont ((id, params, body) :: conts) x) h2 r
| ev_cont_other h e id params body conts x h1 r :
    ev h e (ELetCont conts x) h1 r -> (forall vs, r <> RsJump id vs) -> ev h e (ELetCont ((id, params, body) :: conts) x) h1 r
with evs : heap -> env -> list expr -> heap -> list value + res -> Prop :=
| evs_nil h e : evs h e [] h (inl [])
| evs_cons h e x xs h1 v h2 vs : ev h e x h1 (RsVal v) -> evs h1 e xs h2 (inl vs) -> evs h e (x :: xs) h2 (inl (v :: vs))
| evs_stop h e x xs h1 r : ev h e x h1 r -> abrupt r -> evs h e (x :: xs) h1 (inr r)
| evs_stop_later h e x xs h1 v h2 r : ev h e x h1 (RsVal v) -> evs h1 e xs h2 (inr r) -> evs h e (x :: xs) h2 (inr r).

End Semantics.

(** ** Operations do not look into functions *)

(** Values that differ only in the functions in them, which are related by [C]. *)
Inductive alike (C : value -> value -> Prop) : value -> value -> Prop :=
| alike_atom a : alike C (VAtom a) (VAtom a)
| alike_ptr a : alike C (VPtr a) (VPtr a)
| alike_data i vs vs' : Forall2 (alike C) vs vs' -> alike C (VData i vs) (VData i vs')
| alike_struct t vs vs' : Forall2 (alike C) vs vs' -> alike C (VStruct t vs) (VStruct t vs')
| alike_syntax v v' : alike C v v' -> alike C (VSyntax v) (VSyntax v')
| alike_env vs vs' : Forall2 (alike C) vs vs' -> alike C (VEnv vs) (VEnv vs')
| alike_fun v v' : C v v' -> alike C v v'.

Inductive alike_cell (C : value -> value -> Prop) : option value -> option value -> Prop :=
| alike_none : alike_cell C None None
| alike_some v v' : alike C v v' -> alike_cell C (Some v) (Some v').

Inductive alike_res (C : value -> value -> Prop) : res -> res -> Prop :=
| alike_val v v' : alike C v v' -> alike_res C (RsVal v) (RsVal v')
| alike_return v v' : alike C v v' -> alike_res C (RsReturn v) (RsReturn v')
| alike_jump k vs vs' : Forall2 (alike C) vs vs' -> alike_res C (RsJump k vs) (RsJump k vs')
| alike_panic s : alike_res C (RsPanic s) (RsPanic s).

Definition is_function (v : value) : Prop := match v with VFun _ _ | VLocal _ _ _ => True | _ => False end.

(** Whatever the functions are replaced with, the operations do the same. *)
Definition prims_opaque (prim : strict -> heap -> list value -> option (heap * res)) : Prop :=
  forall C : value -> value -> Prop, (forall v v', C v v' -> is_function v /\ is_function v') ->
  forall o h h' vs vs' h1 r, Forall2 (alike_cell C) h h' -> Forall2 (alike C) vs vs' -> prim o h vs = Some (h1, r) ->
  exists h1' r', prim o h' vs' = Some (h1', r') /\ Forall2 (alike_cell C) h1 h1' /\ alike_res C r r'.
Definition equals_opaque (equals : const -> value -> option bool) : Prop :=
  forall C : value -> value -> Prop, (forall v v', C v v' -> is_function v /\ is_function v') ->
  forall c v v' b, alike C v v' -> equals c v = Some b -> equals c v' = Some b.

(** ** Programs *)

(** Local functions have been done away with. *)
Fixpoint no_locals (x : expr) : Prop :=
  match x with
  | EVar _ _ | ENever => True
  | ELocal _ _ | ELetLocal _ _ => False
  | EOp _ es => fold_right (fun x P => no_locals x /\ P) True es
  | ECall f es => no_locals f /\ fold_right (fun x P => no_locals x /\ P) True es
  | ESeq es x => fold_right (fun x P => no_locals x /\ P) True es /\ no_locals x
  | EIf a b c => no_locals a /\ no_locals b /\ no_locals c
  | EWhile a b | EAnd a b | EOr a b => no_locals a /\ no_locals b
  | EMatch a cs => no_locals a /\ fold_right (fun c P => no_locals (snd c) /\ P) True cs
  | ELetVar vs b => fold_right (fun v P => no_locals (snd v) /\ P) True vs /\ no_locals b
  | ELetCont ks b => fold_right (fun k P => no_locals (snd k) /\ P) True ks /\ no_locals b
  end.

(** The variables and the local functions in scope are used, and nothing else. *)
Inductive scoped : list nat -> list nat -> expr -> Prop :=
| scoped_var vs fs id t : In id vs -> scoped vs fs (EVar id t)
| scoped_local vs fs id t : In id fs -> scoped vs fs (ELocal id t)
| scoped_op vs fs o es : Forall (scoped vs fs) es -> scoped vs fs (EOp o es)
| scoped_call vs fs f es : scoped vs fs f -> Forall (scoped vs fs) es -> scoped vs fs (ECall f es)
| scoped_seq vs fs es x : Forall (scoped vs fs) es -> scoped vs fs x -> scoped vs fs (ESeq es x)
| scoped_if vs fs a b c : scoped vs fs a -> scoped vs fs b -> scoped vs fs c -> scoped vs fs (EIf a b c)
| scoped_while vs fs a b : scoped vs fs a -> scoped vs fs b -> scoped vs fs (EWhile a b)
| scoped_and vs fs a b : scoped vs fs a -> scoped vs fs b -> scoped vs fs (EAnd a b)
| scoped_or vs fs a b : scoped vs fs a -> scoped vs fs b -> scoped vs fs (EOr a b)
| scoped_match vs fs a cs : scoped vs fs a -> Forall (fun c => scoped (pat_defs (fst c) ++ vs) fs (snd c)) cs -> scoped vs fs (EMatch a cs)
| scoped_never vs fs : scoped vs fs ENever
| scoped_let_nil vs fs b : scoped vs fs b -> scoped vs fs (ELetVar [] b)
| scoped_let vs fs id t x l b : scoped vs fs x -> scoped (id :: vs) fs (ELetVar l b) -> scoped vs fs (ELetVar ((id, t, x) :: l) b)
| scoped_let_local vs fs l b :
    Forall (fun f => scoped (map fst (snd (fst (fst f))) ++ vs) (map (fun f => fst (fst (fst f))) l ++ fs) (snd f)) l ->
    scoped vs (map (fun f => fst (fst (fst f))) l ++ fs) b -> scoped vs fs (ELetLocal l b)
| scoped_let_cont vs fs ks b : Forall (fun k => scoped (map fst (snd (fst k)) ++ vs) fs (snd k)) ks -> scoped vs fs b ->
    scoped vs fs (ELetCont ks b).

(** The variables that a function has at its entry. *)
Definition bound (f : function) : list nat :=
  map fst (f_params f) ++ match f_env f with Some (id, ps) => id :: map fst ps | None => [] end.

(** A function as the translator leaves it: every variable is defined once, and before it is used; ids are below those
    that are still free. *)
Definition well_formed (n : nat) (f : function) : Prop :=
  scoped (bound f) [] (f_body f) /\ NoDup (bound f ++ defs (f_body f)) /\ Forall (fun id => id < n)%nat (bound f ++ defs (f_body f)).

Definition table (fs : list (nat * function)) (id : nat) : option function := assoc id fs.

(** Values without local functions. *)
Inductive global : value -> Prop :=
| global_atom a : global (VAtom a)
| global_ptr a : global (VPtr a)
| global_data i vs : Forall global vs -> global (VData i vs)
| global_struct t vs : Forall global vs -> global (VStruct t vs)
| global_syntax v : global v -> global (VSyntax v)
| global_env vs : Forall global vs -> global (VEnv vs)
| global_fun f : global (VFun f None)
| global_closure f v : global v -> global (VFun f (Some v)).
Definition global_cell (c : option value) : Prop := match c with Some v => global v | None => True end.
Definition global_res (r : res) : Prop :=
  match r with RsVal v | RsReturn v => global v | RsJump _ vs => Forall global vs | RsPanic _ => True end.

(** Functions of the two programs that are related do the same when they are called: given memory and arguments that
    are alike, a call that comes to an end leaves alike memory, and gives an alike result. *)
Definition agree (prim : strict -> heap -> list value -> option (heap * res)) (equals : const -> value -> option bool)
  (before after : nat -> option function) (C : value -> value -> Prop) : Prop :=
  forall v v', C v v' ->
  (is_function v /\ is_function v') /\
  forall h h' vs vs' e body h1 r, Forall2 (alike_cell C) h h' -> Forall2 (alike C) vs vs' ->
  entered before v vs e body -> ev prim equals before h e body h1 r ->
  exists e' body' h1' r', entered after v' vs' e' body' /\ ev prim equals after h' e' body' h1' r' /\
  Forall2 (alike_cell C) h1 h1' /\ alike_res C r r'.

(** A program: every function has its own id, below those that are still free. *)
Definition program (n k : nat) (fs : list (nat * function)) : Prop :=
  NoDup (map fst fs) /\ Forall (fun p => (fst p < k)%nat /\ well_formed n (snd p)) fs.
