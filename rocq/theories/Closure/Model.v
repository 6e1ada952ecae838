(** * Closure conversion (llrl0/src/lowering/normalizer.rs)

    Local functions become functions of the program, which get what they capture as an environment.  The other
    work of the normalizer, the evaluation of types, is not modelled: types and functions have been evaluated, and
    local functions have no type parameters. *)
From Verif.Base Require Import Base.
From Verif.Ir Require Import Model.

(** ** Expressions *)

(** The forms of rt.rs:34-66 [Rt] of which all operands are evaluated first, from left to right, and which then
    operate on the values.  [SFun] is [StaticFun]: its operand, if any, is the environment. *)
Inductive strict :=
| SConst (c : const)
| SNullary (o : nullary) | SUnary (o : unary) | SBinary (o : binary) | STernary (o : ternary)
| SAlloc (l : location) | SAllocArray (l : location) (t : ct)
| SEnv (l : location)
| SData (t : ct) (i : nat) | SStruct (t : ct) | SSyntax (meta : nat)
| SCallC (label : text) (ret : ct) | SCallAddr (kind : nat) (ret : ct)
| SReturn | SJump (cont : nat) (ret : option ct)
| SFun (f : nat) (ty : ct).

(** rt.rs:34-66 [Rt], with rt.rs:515-560 [RtLocalFun], [RtVar], [RtCont] as tuples *)
Inductive expr :=
| EVar (id : nat) (ty : ct)
| ELocal (f : nat) (ty : ct)
| EOp (o : strict) (args : list expr)
| ECall (f : expr) (args : list expr)
| ESeq (stmts : list expr) (ret : expr)
| EIf (c t e : expr)
| EWhile (c b : expr)
| EAnd (a b : expr)
| EOr (a b : expr)
| EMatch (target : expr) (clauses : list (rtpat * expr))
| ENever
| ELetVar (vars : list (nat * ct * expr)) (body : expr)
| ELetLocal (funs : list (nat * list param * ct * expr)) (body : expr)
| ELetCont (conts : list (nat * list param * expr)) (body : expr).

(** rt.rs:172-182 [Rt::let_var] *)
Definition let_var (vars : list (nat * ct * expr)) (body : expr) : expr :=
  match vars, body with
  | [], _ => body
  | _, ELetVar inner b => ELetVar (vars ++ inner) b
  | _, _ => ELetVar vars body
  end.

(** def.rs:87-94 [Function], with def.rs:147-151 [FunctionEnv] *)
Record function := Function { f_env : option (nat * list param); f_params : list param; f_ret : ct; f_body : expr }.

(** ** Variables *)

(** traverser.rs: the variables of a pattern *)
Fixpoint pat_defs (p : rtpat) : list nat :=
  match p with
  | PVar id _ None => [id]
  | PVar id _ (Some p) => id :: pat_defs p
  | PWildcard _ | PNull _ | PConst _ => []
  | PDeref p | PNonNull p | PReinterpret _ p | PSyntax p => pat_defs p
  | PData _ _ ps | PStruct _ ps => flat_map pat_defs ps
  end.

(** traverser.rs:545-551: the uses [after_rt_use], and the definitions [after_rt_def], of an expression *)
Fixpoint uses (x : expr) : list nat :=
  match x with
  | EVar id _ => [id]
  | ELocal f _ => [f]
  | EOp _ es => flat_map uses es
  | ECall f es => uses f ++ flat_map uses es
  | ESeq es x => flat_map uses es ++ uses x
  | EIf a b c => uses a ++ uses b ++ uses c
  | EWhile a b | EAnd a b | EOr a b => uses a ++ uses b
  | EMatch a cs => uses a ++ flat_map (fun c => uses (snd c)) cs
  | ENever => []
  | ELetVar vs b => flat_map (fun v => uses (snd v)) vs ++ uses b
  | ELetLocal fs b => flat_map (fun f => uses (snd f)) fs ++ uses b
  | ELetCont ks b => flat_map (fun k => uses (snd k)) ks ++ uses b
  end.
Fixpoint defs (x : expr) : list nat :=
  match x with
  | EVar _ _ | ELocal _ _ | ENever => []
  | EOp _ es => flat_map defs es
  | ECall f es => defs f ++ flat_map defs es
  | ESeq es x => flat_map defs es ++ defs x
  | EIf a b c => defs a ++ defs b ++ defs c
  | EWhile a b | EAnd a b | EOr a b => defs a ++ defs b
  | EMatch a cs => defs a ++ flat_map (fun c => pat_defs (fst c) ++ defs (snd c)) cs
  | ELetVar vs b => flat_map (fun v => fst (fst v) :: defs (snd v)) vs ++ defs b
  | ELetLocal fs b =>
      flat_map (fun f => map fst (snd (fst (fst f))) ++ fst (fst (fst f)) :: defs (snd f)) fs ++ defs b
  | ELetCont ks b => flat_map (fun k => map fst (snd (fst k)) ++ defs (snd k)) ks ++ defs b
  end.

Definition mem (id : nat) (l : list nat) : bool := existsb (Nat.eqb id) l.

(** A [BTreeMap] is sorted. *)
Fixpoint insert (x : nat) (l : list nat) : list nat :=
  match l with
  | [] => [x]
  | y :: t => if (x <? y)%nat then x :: l else if (x =? y)%nat then l else y :: insert x t
  end.

(** traverser.rs:516-530 [captured_vars], as the keys of the [BTreeMap] of normalizer.rs:140-143 *)
Definition captured_vars (funs : list (nat * list param * ct * expr)) : list nat :=
  let us := flat_map (fun f => uses (snd f)) funs in
  let ds := flat_map (fun f => map fst (snd (fst (fst f))) ++ fst (fst (fst f)) :: defs (snd f)) funs in
  fold_right insert [] (filter (fun id => negb (mem id ds)) us).

(** ** The conversion *)

Fixpoint assoc {A} (id : nat) (l : list (nat * A)) : option A :=
  match l with
  | [] => None
  | (k, x) :: l => if (id =? k)%nat then Some x else assoc id l
  end.

(** normalizer.rs:128-133 [ClosureConversion] *)
Record conversion := Conversion { lifted_funs : list (nat * nat); captured : list (nat * nat); captured_env : option nat }.

(** normalizer.rs:204-230 [after_rt], inside rewriter.rs:184-303 *)
Fixpoint rewritten (cc : conversion) (x : expr) : expr :=
  match x with
  | EVar id ty => match assoc id (captured cc) with Some id => EVar id ty | None => x end
  | ELocal f ty =>
      match assoc f (lifted_funs cc) with
      | Some id => EOp (SFun id ty) (match captured_env cc with Some e => [EVar e CtEnv] | None => [] end)
      | None => x
      end
  | EOp o es => EOp o (map (rewritten cc) es)
  | ECall f es => ECall (rewritten cc f) (map (rewritten cc) es)
  | ESeq es x => ESeq (map (rewritten cc) es) (rewritten cc x)
  | EIf a b c => EIf (rewritten cc a) (rewritten cc b) (rewritten cc c)
  | EWhile a b => EWhile (rewritten cc a) (rewritten cc b)
  | EAnd a b => EAnd (rewritten cc a) (rewritten cc b)
  | EOr a b => EOr (rewritten cc a) (rewritten cc b)
  | EMatch a cs => EMatch (rewritten cc a) (map (fun c => (fst c, rewritten cc (snd c))) cs)
  | ENever => ENever
  | ELetVar vs b => ELetVar (map (fun v => (fst v, rewritten cc (snd v))) vs) (rewritten cc b)
  | ELetLocal fs b => ELetLocal (map (fun f => (fst f, rewritten cc (snd f))) fs) (rewritten cc b)
  | ELetCont ks b => ELetCont (map (fun k => (fst k, rewritten cc (snd k))) ks) (rewritten cc b)
  end.

(** The state of the normalizer: the next ids (context.rs:15-16), the functions that are defined and not yet
    normalized, and the types of variables (normalizer.rs:36-40). *)
Record state := State { next_rt : nat; next_ct : nat; pending : list (nat * function); types : list (nat * ct) }.
Definition typed (id : nat) (ty : ct) (s : state) : state :=
  State (next_rt s) (next_ct s) (pending s) ((id, ty) :: types s).

(** [HashMap] indexing, which panics when the key is not there *)
Fixpoint types_of (tys : list (nat * ct)) (ids : list nat) : outcome (list param) :=
  match ids with
  | [] => Ret []
  | id :: ids =>
      match assoc id tys with
      | None => Panic
      | Some ty => let* ps := types_of tys ids in Ret ((id, ty) :: ps)
      end
  end.

(** normalizer.rs:136-157 [new] and :159-201 [run].  Simplification: the new ids are given out in the order of the
    variables, not of a [HashSet]. *)
Definition convert (s : state) (funs : list (nat * list param * ct * expr)) (body : expr) : outcome (state * expr) :=
  let vars := captured_vars funs in
  let n := List.length vars in
  let lifted := combine (map (fun f => fst (fst (fst f))) funs) (List.seq (next_ct s) (List.length funs)) in
  let news := List.seq (next_rt s) n in
  let env := match vars with [] => None | _ => Some (next_rt s + n)%nat end in
  let* ps := types_of (types s) vars in
  let cc := Conversion lifted (combine vars news) env in
  let env_params := combine news (map snd ps) in
  let ds := map (fun f => Function (option_map (fun id => (id, env_params)) env) (snd (fst (fst f))) (snd (fst f)) (rewritten cc (snd f))) funs in
  let s := State (match env with None => next_rt s | Some e => S e end) (next_ct s + List.length funs)
    (pending s ++ combine (map snd lifted) ds) (types s) in
  let body := rewritten (Conversion lifted [] env) body in
  Ret (s, match env with
          | Some e => let_var [(e, CtEnv, EOp (SEnv LHeap) (map (fun p => EVar (fst p) (snd p)) ps))] body
          | None => body
          end).

Section Lists.
Variable norm : state -> expr -> outcome (state * expr).
Fixpoint norms (s : state) (es : list expr) : outcome (state * list expr) :=
  match es with
  | [] => Ret (s, [])
  | e :: es => let* (s, e) := norm s e in let* (s, es) := norms s es in Ret (s, e :: es)
  end.
Fixpoint norm_vars (s : state) (vs : list (nat * ct * expr)) : outcome (state * list (nat * ct * expr)) :=
  match vs with
  | [] => Ret (s, [])
  | (id, ty, e) :: vs =>
      let* (s, e) := norm (typed id ty s) e in
      let* (s, vs) := norm_vars s vs in
      Ret (s, (id, ty, e) :: vs)
  end.
Definition typed_params (ps : list param) (s : state) : state := fold_left (fun s p => typed (fst p) (snd p) s) ps s.
Fixpoint pat_types (p : rtpat) : list param :=
  match p with
  | PVar id ty None => [(id, ty)]
  | PVar id ty (Some p) => (id, ty) :: pat_types p
  | PWildcard _ | PNull _ | PConst _ => []
  | PDeref p | PNonNull p | PReinterpret _ p | PSyntax p => pat_types p
  | PData _ _ ps | PStruct _ ps => flat_map pat_types ps
  end.
Fixpoint norm_clauses (s : state) (cs : list (rtpat * expr)) : outcome (state * list (rtpat * expr)) :=
  match cs with
  | [] => Ret (s, [])
  | (p, e) :: cs =>
      let* (s, e) := norm (typed_params (pat_types p) s) e in
      let* (s, cs) := norm_clauses s cs in
      Ret (s, (p, e) :: cs)
  end.
Fixpoint norm_conts (s : state) (ks : list (nat * list param * expr)) : outcome (state * list (nat * list param * expr)) :=
  match ks with
  | [] => Ret (s, [])
  | (id, ps, e) :: ks =>
      let* (s, e) := norm (typed_params ps s) e in
      let* (s, ks) := norm_conts s ks in
      Ret (s, (id, ps, e) :: ks)
  end.
End Lists.

(** normalizer.rs:88-98 [before_rt] and :119-122 [after_rt_def], inside rewriter.rs:184-303 *)
Fixpoint norm (fuel : nat) (s : state) (x : expr) : outcome (state * expr) :=
  match fuel with
  | O => OutOfFuel
  | S fuel =>
      match x with
      | EVar _ _ | ELocal _ _ | ENever => Ret (s, x)
      | EOp o es => let* (s, es) := norms (norm fuel) s es in Ret (s, EOp o es)
      | ECall f es =>
          let* (s, f) := norm fuel s f in let* (s, es) := norms (norm fuel) s es in Ret (s, ECall f es)
      | ESeq es a =>
          let* (s, es) := norms (norm fuel) s es in let* (s, a) := norm fuel s a in Ret (s, ESeq es a)
      | EIf a b c =>
          let* (s, a) := norm fuel s a in let* (s, b) := norm fuel s b in
          let* (s, c) := norm fuel s c in Ret (s, EIf a b c)
      | EWhile a b => let* (s, a) := norm fuel s a in let* (s, b) := norm fuel s b in Ret (s, EWhile a b)
      | EAnd a b => let* (s, a) := norm fuel s a in let* (s, b) := norm fuel s b in Ret (s, EAnd a b)
      | EOr a b => let* (s, a) := norm fuel s a in let* (s, b) := norm fuel s b in Ret (s, EOr a b)
      | EMatch a cs =>
          let* (s, a) := norm fuel s a in let* (s, cs) := norm_clauses (norm fuel) s cs in Ret (s, EMatch a cs)
      | ELetVar vs b =>
          let* (s, vs) := norm_vars (norm fuel) s vs in let* (s, b) := norm fuel s b in Ret (s, ELetVar vs b)
      | ELetCont ks b =>
          let* (s, ks) := norm_conts (norm fuel) s ks in let* (s, b) := norm fuel s b in Ret (s, ELetCont ks b)
      | ELetLocal funs b => let* (s, x) := convert s funs b in norm fuel s x
      end
  end.

(** rewriter.rs:162-189: [Function] and [FunctionEnv], by a new normalizer (context.rs:139-152) *)
Definition norm_function (fuel : nat) (s : state) (f : function) : outcome (state * function) :=
  let s := State (next_rt s) (next_ct s) (pending s) [] in
  let s := match f_env f with Some (id, ps) => typed_params ps (typed id CtEnv s) | None => s end in
  let* (s, b) := norm fuel (typed_params (f_params f) s) (f_body f) in
  Ret (s, Function (f_env f) (f_params f) (f_ret f) b).

(** context.rs:130-157 [get_processing_def].  Simplification: functions are normalized one after another, those
    that are defined on the way in turn, rather than when they are first used. *)
Fixpoint drain (rounds fuel : nat) (s : state) (done : list (nat * function)) : outcome (list (nat * function)) :=
  match pending s with
  | [] => Ret done
  | (id, f) :: rest =>
      match rounds with
      | O => OutOfFuel
      | S rounds =>
          let* (s, f) := norm_function fuel (State (next_rt s) (next_ct s) rest (types s)) f in
          drain rounds fuel s (done ++ [(id, f)])
      end
  end.

(** The functions of a program, given the first ids that are free. *)
Definition normalize (rounds fuel next_rt next_ct : nat) (fs : list (nat * function)) : outcome (list (nat * function)) :=
  drain rounds fuel (State next_rt next_ct fs []) [].
