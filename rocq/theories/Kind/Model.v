(** Model of llrl0/src/unification/kind.rs and of the kinds of llrl0/src/ast/kind.rs. *)
From Verif.Base Require Import Base Vec.

(** unification.rs:11 [Var]: an index into the pool. Simplification: the [u32] is a natural number
    (the pool is assumed to stay below 2^32 entries). *)
Definition var := nat.

(** unification.rs:68 [Vars]: a range of indices. *)
Definition vars := (nat * nat)%type.

(** unification.rs:70-76 [Vars::from_index_count]. *)
Definition from_index_count (len count : nat) : vars :=
  if Nat.eqb count 0 then (0, 0)%nat else (len, len + count)%nat.

(** unification.rs:78-100 [Vars::iter], [Vars::len]: the indices of the range, and their number. *)
Definition vars_iter (vs : vars) : list var := seq (fst vs) (snd vs - fst vs).
Definition vars_len (vs : vars) : nat := (snd vs - fst vs)%nat.

(** unification/kind.rs:8-17 [Kind]. *)
Inductive kind :=
| KVar (v : var)
| KType
| KConstraint
| KSatisfaction
| KValue
| KMacro
| KFun (args : vars) (ret : var).

(** kind.rs:8, the derived [PartialEq]. *)
Definition kind_eqb (a b : kind) : bool :=
  match a, b with
  | KVar v, KVar w => Nat.eqb v w
  | KType, KType | KConstraint, KConstraint | KSatisfaction, KSatisfaction => true
  | KValue, KValue | KMacro, KMacro => true
  | KFun (s, e) r, KFun (s', e') r' => Nat.eqb s s' && Nat.eqb e e' && Nat.eqb r r'
  | _, _ => false
  end.

(** unification.rs:120-130 [Error]. *)
Inductive error := OccursCheckFailed | Mismatch.
Inductive result (E : Type) := Ok | Err (e : E).
Arguments Ok {E}. Arguments Err {E} e.

(** kind.rs:19-22 [Context]: the pool. *)
Definition context := list kind.

(** kind.rs:26-36 [Context::new]. *)
Definition new_context : context :=
  [KType; KConstraint; KSatisfaction; KValue; KMacro] ++ repeat KType 16.

(** kind.rs:38-42 [alloc_var]. *)
Definition alloc_var (pool : context) : var * context :=
  (List.length pool, pool ++ [KVar (List.length pool)]).

(** kind.rs:44-58 [alloc_bind]. *)
Definition alloc_bind (pool : context) (k : kind) : var * context :=
  match k with
  | KVar v => (v, pool)
  | KType => (0%nat, pool)
  | KConstraint => (1%nat, pool)
  | KSatisfaction => (2%nat, pool)
  | KValue => (3%nat, pool)
  | KMacro => (4%nat, pool)
  | KFun _ _ => (List.length pool, pool ++ [k])
  end.

(** kind.rs:60-70 [alloc_binds]; [Vars::from(Var)] (unification.rs:102-106) is the one-element
    range. *)
Definition alloc_binds (pool : context) (ks : list kind) : vars * context :=
  if Nat.leb (List.length ks) 16 && forallb (fun k => kind_eqb k KType) ks then
    (from_index_count 5 (List.length ks), pool)
  else match ks with
       | [k] => let '(v, pool) := alloc_bind pool k in ((v, S v), pool)
       | _ => (from_index_count (List.length pool) (List.length ks), pool ++ ks)
       end.

(** kind.rs:72-74 [new_var]. *)
Definition new_var (pool : context) : kind * context :=
  let '(v, pool) := alloc_var pool in (KVar v, pool).

(** kind.rs:226-234 [new_fun]. *)
Definition new_fun (pool : context) (args : list kind) (ret : kind) : kind * context :=
  match args with
  | [] => (ret, pool)
  | _ =>
    let '(args, pool) := alloc_binds pool args in
    let '(ret, pool) := alloc_bind pool ret in
    (KFun args ret, pool)
  end.

(** kind.rs:245-256 [Resolve<Var>::resolve]: follows the bindings, shortening the path. *)
Fixpoint resolve_var (fuel : nat) (pool : context) (v : var) : outcome (kind * context) :=
  match fuel with
  | O => OutOfFuel
  | S fuel =>
    let* k := vget pool v in
    match k with
    | KVar w =>
      if Nat.eqb w v then Ret (k, pool)
      else
        let* r := resolve_var fuel pool w in
        let '(k, pool) := r in
        let* pool := vset pool v k in
        Ret (k, pool)
    | _ => Ret (k, pool)
    end
  end.

(** kind.rs:258-265 [Resolve<Kind>::resolve]. *)
Definition resolve (fuel : nat) (pool : context) (k : kind) : outcome (kind * context) :=
  match k with
  | KVar v => resolve_var fuel pool v
  | _ => Ret (k, pool)
  end.

(** A [for] loop with [?] over a list, threading the context. *)
Fixpoint for_each {A C E} (f : C -> A -> outcome (C * result E)) (pool : C) (l : list A)
    : outcome (C * result E) :=
  match l with
  | [] => Ret (pool, Ok)
  | x :: l =>
    let* r := f pool x in
    match r with
    | (pool, Ok) => for_each f pool l
    | (pool, Err e) => Ret (pool, Err e)
    end
  end.

(** kind.rs:105-126 [dfs]. The callers' [FnMut] closures have no state, so a visitor is a function
    from kinds to results. *)
Fixpoint dfs {E} (fuel : nat) (f : kind -> result E) (pool : context) (k : kind)
    : outcome (context * result E) :=
  match fuel with
  | O => OutOfFuel
  | S fuel =>
    let* r := resolve fuel pool k in
    let '(k, pool) := r in
    let* r :=
      match k with
      | KFun args ret =>
        let* r := for_each (fun pool v => dfs fuel f pool (KVar v)) pool (vars_iter args) in
        match r with
        | (pool, Ok) => dfs fuel f pool (KVar ret)
        | (pool, Err e) => Ret (pool, Err e)
        end
      | _ => Ret (pool, Ok)
      end in
    match r with
    | (pool, Ok) => Ret (pool, f k)
    | (pool, Err e) => Ret (pool, Err e)
    end
  end.

(** kind.rs:128-136 [occurs_check]. *)
Definition occurs_check (fuel : nat) (pool : context) (k : kind) (v : var)
    : outcome (context * result unit) :=
  dfs fuel (fun k => match k with
                     | KVar w => if Nat.eqb w v then Err tt else Ok
                     | _ => Ok
                     end) pool k.

(** kind.rs:84-91, the arm of [unify] for an unresolved variable and a kind. *)
Definition bind_var (fuel : nat) (pool : context) (v : var) (k : kind)
    : outcome (context * result error) :=
  let* r := occurs_check fuel pool k v in
  match r with
  | (pool, Err _) => Ret (pool, Err OccursCheckFailed)
  | (pool, Ok) => let* pool := vset pool v k in Ret (pool, Ok)
  end.

(** kind.rs:76-103 [unify]. *)
Fixpoint unify (fuel : nat) (pool : context) (a b : kind) : outcome (context * result error) :=
  match fuel with
  | O => OutOfFuel
  | S fuel =>
    let* r := resolve fuel pool a in
    let '(a, pool) := r in
    let* r := resolve fuel pool b in
    let '(b, pool) := r in
    if kind_eqb a b then Ret (pool, Ok)
    else match a, b with
         | KVar v, k => bind_var fuel pool v k
         | k, KVar v => bind_var fuel pool v k
         | KFun a_args a_ret, KFun b_args b_ret =>
           if negb (Nat.eqb (vars_len a_args) (vars_len b_args)) then Ret (pool, Err Mismatch)
           else
             let* r := for_each (fun pool ab => unify fuel pool (KVar (fst ab)) (KVar (snd ab))) pool
                                (combine (vars_iter a_args) (vars_iter b_args)) in
             match r with
             | (pool, Ok) => unify fuel pool (KVar a_ret) (KVar b_ret)
             | (pool, Err e) => Ret (pool, Err e)
             end
         | _, _ => Ret (pool, Err Mismatch)
         end
  end.

(** kind.rs:138-156 [default_vars]. *)
Fixpoint default_vars (fuel : nat) (pool : context) (k default_kind : kind)
    : outcome (context * result error) :=
  match fuel with
  | O => OutOfFuel
  | S fuel =>
    let* r := resolve fuel pool k in
    let '(k, pool) := r in
    match k with
    | KVar v => unify fuel pool (KVar v) default_kind
    | KFun args ret =>
      let* r := for_each (fun pool v => default_vars fuel pool (KVar v) default_kind) pool
                         (vars_iter args) in
      match r with
      | (pool, Ok) => default_vars fuel pool (KVar ret) default_kind
      | (pool, Err e) => Ret (pool, Err e)
      end
    | _ => Ret (pool, Ok)
    end
  end.

(** ast/kind.rs:14-23 [ast::Kind]. [Use] is left out: [KindUse] has no values
    ([match *use_.get_resolved() {}]), so a resolved use cannot occur. The text of an [Error] made by
    [export] is the variable, kept as its index; any other error text is not modelled. *)
Inductive ast_kind :=
| AType
| AConstraint
| ASatisfaction
| AValue
| AMacro
| AFun (args : list ast_kind) (ret : ast_kind)
| AError (v : var).

(** ast/kind.rs:48-54 [Kind::fun], the [new_fun] of the [Ast] builder. *)
Definition ast_fun (args : list ast_kind) (ret : ast_kind) : ast_kind :=
  match args with [] => ret | _ => AFun args ret end.

(** kind.rs:158-173 [import]. *)
Fixpoint import (pool : context) (k : ast_kind) : outcome (kind * context) :=
  match k with
  | AType => Ret (KType, pool)
  | AConstraint => Ret (KConstraint, pool)
  | ASatisfaction => Ret (KSatisfaction, pool)
  | AValue => Ret (KValue, pool)
  | AMacro => Ret (KMacro, pool)
  | AFun args ret =>
    let* r :=
      (fix go (pool : context) (args : list ast_kind) : outcome (list kind * context) :=
         match args with
         | [] => Ret ([], pool)
         | a :: args =>
           let* r := import pool a in
           let '(k, pool) := r in
           let* r := go pool args in
           let '(ks, pool) := r in
           Ret (k :: ks, pool)
         end) pool args in
    let '(args, pool) := r in
    let* r := import pool ret in
    let '(ret, pool) := r in
    Ret (new_fun pool args ret)
  | AError _ => Panic
  end.

(** [Iterator::map] followed by [collect], threading the context. *)
Fixpoint map_ctx {A B C} (f : C -> A -> outcome (B * C)) (pool : C) (l : list A)
    : outcome (list B * C) :=
  match l with
  | [] => Ret ([], pool)
  | x :: l =>
    let* r := f pool x in
    let '(y, pool) := r in
    let* r := map_ctx f pool l in
    let '(ys, pool) := r in
    Ret (y :: ys, pool)
  end.

(** kind.rs:175-196 [export] into the [Ast] builder. *)
Fixpoint export (fuel : nat) (pool : context) (k : kind) : outcome (ast_kind * context) :=
  match fuel with
  | O => OutOfFuel
  | S fuel =>
    let* r := resolve fuel pool k in
    let '(k, pool) := r in
    match k with
    | KVar v => Ret (AError v, pool)
    | KType => Ret (AType, pool)
    | KConstraint => Ret (AConstraint, pool)
    | KSatisfaction => Ret (ASatisfaction, pool)
    | KValue => Ret (AValue, pool)
    | KMacro => Ret (AMacro, pool)
    | KFun args ret =>
      let* r := map_ctx (fun pool v => export fuel pool (KVar v)) pool (vars_iter args) in
      let '(args, pool) := r in
      let* r := export fuel pool (KVar ret) in
      let '(ret, pool) := r in
      Ret (ast_fun args ret, pool)
    end
  end.
