(** Model of llrl0/src/unification/types.rs. *)
From Verif.Base Require Import Base Vec.
From Verif.Kind Require Export Model.

(** types.rs:7-9 [Kind], [KindId]. Simplification: [KindId] is an interned syntax-tree kind; two ids
    of one table are equal exactly when the kinds are (theorem [interning_is_exact]), so the model
    keeps the kind itself and has no [kind_table]. *)
Definition kind_id := ast_kind.

(** ast/kind.rs:13, the derived [PartialEq]. *)
Fixpoint ast_kind_eqb (a b : ast_kind) : bool :=
  match a, b with
  | AType, AType | AConstraint, AConstraint | ASatisfaction, ASatisfaction => true
  | AValue, AValue | AMacro, AMacro => true
  | AFun args ret, AFun args' ret' =>
    (fix go (l l' : list ast_kind) : bool :=
       match l, l' with
       | [], [] => true
       | x :: l, y :: l' => ast_kind_eqb x y && go l l'
       | _, _ => false
       end) args args' && ast_kind_eqb ret ret'
  | AError v, AError w => Nat.eqb v w
  | _, _ => false
  end.

(** types.rs:23-25 [Con], [Gen]: node ids, compared by equality only. *)
Definition con := N.
Definition gen := N.

(** unification.rs:143-162 [Level]; smaller is closer to the top. *)
Definition level := N.
Definition top : level := 0%N.

(** types.rs:15-21 [Type]. *)
Inductive ty :=
| YVar (v : var) (k : kind_id) (lv : level)
| YCon (c : con)
| YApp (callee : var) (args : vars)
| YGen (g : gen) (lv : level).

(** types.rs:15, the derived [PartialEq]. *)
Definition ty_eqb (a b : ty) : bool :=
  match a, b with
  | YVar v k lv, YVar v' k' lv' => Nat.eqb v v' && ast_kind_eqb k k' && (lv =? lv')%N
  | YCon c, YCon c' => (c =? c')%N
  | YApp c (s, e), YApp c' (s', e') => Nat.eqb c c' && Nat.eqb s s' && Nat.eqb e e'
  | YGen g lv, YGen g' lv' => (g =? g')%N && (lv =? lv')%N
  | _, _ => false
  end.

(** types.rs:27-29 [KindEnvironment], an external collaborator: the kinds of type constructors and
    of type parameters. *)
Record kind_env := { con_kind : con -> ast_kind; gen_kind : gen -> ast_kind }.

(** types.rs:31-53 [Context]: the pool. The two kind caches only remember what [kind_env] answered
    and are left out. *)
Definition context := list ty.
Definition new_context : context := [].

(** types.rs:55-59 [alloc_var]; 82-85 [new_var]. *)
Definition new_var (pool : context) (k : kind_id) (lv : level) : ty * context :=
  let v := List.length pool in (YVar v k lv, pool ++ [YVar v k lv]).

(** types.rs:61-70 [alloc_bind]. *)
Definition alloc_bind (pool : context) (t : ty) : var * context :=
  match t with
  | YVar v _ _ => (v, pool)
  | _ => (List.length pool, pool ++ [t])
  end.

(** types.rs:72-80 [alloc_binds]. *)
Definition alloc_binds (pool : context) (ts : list ty) : vars * context :=
  match ts with
  | [t] => let '(v, pool) := alloc_bind pool t in ((v, S v), pool)
  | _ => (from_index_count (List.length pool) (List.length ts), pool ++ ts)
  end.

(** types.rs:398-406 [new_app]. *)
Definition new_app (pool : context) (callee : ty) (args : list ty) : ty * context :=
  match args with
  | [] => (callee, pool)
  | _ =>
    let '(callee, pool) := alloc_bind pool callee in
    let '(args, pool) := alloc_binds pool args in
    (YApp callee args, pool)
  end.

(** types.rs:421-432 [Resolve<Var>::resolve]. *)
Fixpoint resolve_var (fuel : nat) (pool : context) (v : var) : outcome (ty * context) :=
  match fuel with
  | O => OutOfFuel
  | S fuel =>
    let* t := vget pool v in
    match t with
    | YVar w _ _ =>
      if Nat.eqb w v then Ret (t, pool)
      else
        let* r := resolve_var fuel pool w in
        let '(t, pool) := r in
        let* pool := vset pool v t in
        Ret (t, pool)
    | _ => Ret (t, pool)
    end
  end.

(** types.rs:434-441 [Resolve<Type>::resolve]. *)
Definition resolve (fuel : nat) (pool : context) (t : ty) : outcome (ty * context) :=
  match t with
  | YVar v _ _ => resolve_var fuel pool v
  | _ => Ret (t, pool)
  end.

(** The Rust functions are generic over [Resolve<T>], so that they accept a [Var] (an index) as well
    as a [Type]; both go to [resolve] first. The model passes the index as a variable type, of which
    [resolve] only looks at the index; the kind and level given here are never read. *)
Definition at_ (v : var) : ty := YVar v AType top.

(** types.rs:96-137 [get_kind], [get_kind_id]. *)
Fixpoint get_kind (env : kind_env) (fuel : nat) (pool : context) (t : ty)
    : outcome (kind_id * context) :=
  match fuel with
  | O => OutOfFuel
  | S fuel =>
    let* r := resolve fuel pool t in
    let '(t, pool) := r in
    match t with
    | YVar _ k _ => Ret (k, pool)
    | YCon c => Ret (con_kind env c, pool)
    | YApp callee _ =>
      let* r := get_kind env fuel pool (at_ callee) in
      match r with
      | (AFun _ ret, pool) => Ret (ret, pool)
      | _ => Panic
      end
    | YGen g _ => Ret (gen_kind env g, pool)
    end
  end.

(** types.rs:91-94 [instantiate_gen]. *)
Definition instantiate_gen (env : kind_env) (fuel : nat) (pool : context) (g : gen) (lv : level)
    : outcome (ty * context) :=
  let* r := get_kind env fuel pool (YGen g top) in
  let '(k, pool) := r in
  Ret (new_var pool k lv).

(** types.rs:274-290 [dfs]. The closure's captured state is threaded explicitly. *)
Fixpoint for_each_st {A C S E} (f : C -> A -> S -> outcome (C * S * result E)) (pool : C) (l : list A) (st : S)
    : outcome (C * S * result E) :=
  match l with
  | [] => Ret (pool, st, Ok)
  | x :: l =>
    let* r := f pool x st in
    match r with
    | (pool, st, Ok) => for_each_st f pool l st
    | (pool, st, Err e) => Ret (pool, st, Err e)
    end
  end.

Fixpoint dfs {S E} (fuel : nat) (f : ty -> S -> S * result E) (pool : context) (t : ty) (st : S)
    : outcome (context * S * result E) :=
  match fuel with
  | O => OutOfFuel
  | Datatypes.S fuel =>
    let* r := resolve fuel pool t in
    let '(t, pool) := r in
    let* r :=
      match t with
      | YApp callee args =>
        let* r := dfs fuel f pool (at_ callee) st in
        match r with
        | (pool, st, Ok) => for_each_st (fun pool v st => dfs fuel f pool (at_ v) st) pool (vars_iter args) st
        | (pool, st, Err e) => Ret (pool, st, Err e)
        end
      | _ => Ret (pool, st, Ok)
      end in
    match r with
    | (pool, st, Ok) => let '(st, r) := f t st in Ret (pool, st, r)
    | (pool, st, Err e) => Ret (pool, st, Err e)
    end
  end.

(** types.rs:351-359 [occurs_check]. *)
Definition occurs_check (fuel : nat) (pool : context) (t : ty) (v : var)
    : outcome (context * unit * result unit) :=
  dfs fuel (fun t st => match t with
                        | YVar w _ _ => if Nat.eqb w v then (st, Err tt) else (st, Ok)
                        | _ => (st, Ok)
                        end) pool t tt.

(** types.rs:292-307 [compute_deepest_level]. *)
Definition compute_deepest_level (fuel : nat) (pool : context) (t : ty) : outcome (level * context) :=
  let* r := dfs fuel (fun t lv => match t with
                                  | YVar _ _ lv' => (N.max lv lv', @Ok unit)
                                  | YGen _ lv' => (N.max lv lv', Ok)
                                  | _ => (lv, Ok)
                                  end) pool t top in
  match r with
  | (pool, lv, Ok) => Ret (lv, pool)
  | (_, _, Err _) => Panic
  end.

(** types.rs:309-331 [get_vars], [collect_vars]. The [BTreeSet] is the list of insertions; only
    membership is meant. *)
Definition collect_vars (fuel : nat) (pool : context) (t : ty) (min_level : level) (res : list var)
    : outcome (list var * context) :=
  let* r := dfs fuel (fun t res => match t with
                                   | YVar v _ lv => (if (min_level <=? lv)%N then v :: res else res, @Ok unit)
                                   | _ => (res, Ok)
                                   end) pool t res in
  match r with
  | (pool, res, Ok) => Ret (res, pool)
  | (_, _, Err _) => Panic
  end.
Definition get_vars (fuel : nat) (pool : context) (t : ty) (min_level : level) :=
  collect_vars fuel pool t min_level [].

(** types.rs:372-374, the loop of [adjust_level]. *)
Fixpoint set_levels (pool : context) (targets : list (var * kind_id)) (lv : level) : outcome context :=
  match targets with
  | [] => Ret pool
  | (v, k) :: targets => let* pool := vset pool v (YVar v k lv) in set_levels pool targets lv
  end.

(** types.rs:361-376 [adjust_level]. *)
Definition adjust_level (fuel : nat) (pool : context) (t : ty) (target : level)
    : outcome (context * result error) :=
  let* r := dfs fuel (fun t targets => match t with
                                       | YVar v k lv => (if (target <? lv)%N then targets ++ [(v, k)] else targets, Ok)
                                       | YGen _ lv => (targets, if (target <? lv)%N then Err Mismatch else Ok)
                                       | _ => (targets, Ok)
                                       end) pool t [] in
  match r with
  | (pool, targets, Ok) => let* pool := set_levels pool targets target in Ret (pool, Ok)
  | (pool, _, Err e) => Ret (pool, Err e)
  end.

(** types.rs:378-384 [deny_adjust_required_level]. *)
Definition deny_adjust_required_level (fuel : nat) (pool : context) (t : ty) (target : level)
    : outcome (context * result error) :=
  let* r := dfs fuel (fun t st => match t with
                                  | YVar _ _ lv => (st, if (target <? lv)%N then Err Mismatch else Ok)
                                  | YGen _ lv => (st, if (target <? lv)%N then Err Mismatch else Ok)
                                  | _ => (st, Ok)
                                  end) pool t tt in
  match r with
  | (pool, _, r) => Ret (pool, r)
  end.

(** types.rs:147-157 and 180-192, the arms for an unresolved variable and a type; [levels] is
    [adjust_level] in [unify] and [deny_adjust_required_level] in [match_to_right]. *)
Definition bind_var (env : kind_env) (levels : nat -> context -> ty -> level -> outcome (context * result error))
    (fuel : nat) (pool : context) (v : var) (k : kind_id) (lv : level) (t : ty)
    : outcome (context * result error) :=
  let* r := occurs_check fuel pool t v in
  match r with
  | (pool, _, Err _) => Ret (pool, Err OccursCheckFailed)
  | (pool, _, Ok) =>
    let* r := get_kind env fuel pool t in
    let '(k', pool) := r in
    if negb (ast_kind_eqb k' k) then Ret (pool, Err Mismatch)
    else
      let* pool := vset pool v t in
      levels fuel pool t lv
  end.

(** types.rs:139-170 [unify]. *)
Fixpoint unify (env : kind_env) (fuel : nat) (pool : context) (a b : ty) : outcome (context * result error) :=
  match fuel with
  | O => OutOfFuel
  | S fuel =>
    let* r := resolve fuel pool a in
    let '(a, pool) := r in
    let* r := resolve fuel pool b in
    let '(b, pool) := r in
    if ty_eqb a b then Ret (pool, Ok)
    else match a, b with
         | YVar v k lv, t => bind_var env adjust_level fuel pool v k lv t
         | t, YVar v k lv => bind_var env adjust_level fuel pool v k lv t
         | YApp a_callee a_args, YApp b_callee b_args =>
           if negb (Nat.eqb (vars_len a_args) (vars_len b_args)) then Ret (pool, Err Mismatch)
           else
             let* r := unify env fuel pool (at_ a_callee) (at_ b_callee) in
             match r with
             | (pool, Ok) =>
               for_each (fun pool ab => unify env fuel pool (at_ (fst ab)) (at_ (snd ab))) pool
                        (combine (vars_iter a_args) (vars_iter b_args))
             | (pool, Err e) => Ret (pool, Err e)
             end
         | _, _ => Ret (pool, Err Mismatch)
         end
  end.

(** types.rs:172-205 [match_to_right]. *)
Fixpoint match_to_right (env : kind_env) (fuel : nat) (pool : context) (a b : ty)
    : outcome (context * result error) :=
  match fuel with
  | O => OutOfFuel
  | S fuel =>
    let* r := resolve fuel pool a in
    let '(a, pool) := r in
    let* r := resolve fuel pool b in
    let '(b, pool) := r in
    if ty_eqb a b then Ret (pool, Ok)
    else match a, b with
         | YVar v k lv, t => bind_var env deny_adjust_required_level fuel pool v k lv t
         | YApp a_callee a_args, YApp b_callee b_args =>
           if negb (Nat.eqb (vars_len a_args) (vars_len b_args)) then Ret (pool, Err Mismatch)
           else
             let* r := match_to_right env fuel pool (at_ a_callee) (at_ b_callee) in
             match r with
             | (pool, Ok) =>
               for_each (fun pool ab => match_to_right env fuel pool (at_ (fst ab)) (at_ (snd ab))) pool
                        (combine (vars_iter a_args) (vars_iter b_args))
             | (pool, Err e) => Ret (pool, Err e)
             end
         | _, _ => Ret (pool, Err Mismatch)
         end
  end.

(** types.rs:207-227 [subst]. The [HashMap] is its lookup function. *)
Fixpoint subst (fuel : nat) (pool : context) (map : gen -> option ty) (t : ty) : outcome (ty * context) :=
  match fuel with
  | O => OutOfFuel
  | S fuel =>
    let* r := resolve fuel pool t in
    let '(t, pool) := r in
    match t with
    | YVar _ _ _ => Ret (t, pool)
    | YCon _ => Ret (t, pool)
    | YApp callee args =>
      let* r := subst fuel pool map (at_ callee) in
      let '(callee, pool) := r in
      let* r := map_ctx (fun pool v => subst fuel pool map (at_ v)) pool (vars_iter args) in
      let '(args, pool) := r in
      Ret (new_app pool callee args)
    | YGen g _ => match map g with
                  | Some t' => Ret (t', pool)
                  | None => Ret (t, pool)
                  end
    end
  end.

(** [Iterator::all] over pairs, threading the context. *)
Fixpoint all_ctx {A C} (f : C -> A -> outcome (bool * C)) (pool : C) (l : list A) : outcome (bool * C) :=
  match l with
  | [] => Ret (true, pool)
  | x :: l =>
    let* r := f pool x in
    let '(b, pool) := r in
    if b then all_ctx f pool l else Ret (false, pool)
  end.

(** types.rs:229-249 [equal_on]. *)
Definition equal_on (rec : context -> var * var -> outcome (bool * context)) (pool : context) (a b : ty)
    : outcome (bool * context) :=
  match a, b with
  | YVar v _ _, YVar w _ _ => Ret (Nat.eqb v w, pool)
  | YCon c, YCon c' => Ret ((c =? c')%N, pool)
  | YApp a_callee a_args, YApp b_callee b_args =>
    if negb (Nat.eqb (vars_len a_args) (vars_len b_args)) then Ret (false, pool)
    else
      let* r := rec pool (a_callee, b_callee) in
      let '(b, pool) := r in
      if b then all_ctx rec pool (combine (vars_iter a_args) (vars_iter b_args)) else Ret (false, pool)
  | YGen g _, YGen g' _ => Ret ((g =? g')%N, pool)
  | _, _ => Ret (false, pool)
  end.

(** types.rs:251-258 [equal]. *)
Fixpoint equal (fuel : nat) (pool : context) (a b : ty) : outcome (bool * context) :=
  match fuel with
  | O => OutOfFuel
  | S fuel =>
    let* r := resolve fuel pool a in
    let '(a, pool) := r in
    let* r := resolve fuel pool b in
    let '(b, pool) := r in
    equal_on (fun pool ab => equal fuel pool (at_ (fst ab)) (at_ (snd ab))) pool a b
  end.

(** types.rs:333-349 [default_vars]. *)
Fixpoint default_vars (env : kind_env) (fuel : nat) (pool : context) (t default_type : ty)
    : outcome (context * result error) :=
  match fuel with
  | O => OutOfFuel
  | S fuel =>
    let* r := resolve fuel pool t in
    let '(t, pool) := r in
    match t with
    | YVar v _ _ => unify env fuel pool (at_ v) default_type
    | YApp callee args =>
      let* r := default_vars env fuel pool (at_ callee) default_type in
      match r with
      | (pool, Ok) =>
        for_each (fun pool v => default_vars env fuel pool (at_ v) default_type) pool (vars_iter args)
      | (pool, Err e) => Ret (pool, Err e)
      end
    | _ => Ret (pool, Ok)
    end
  end.

(** ast/types.rs [ast::Type]. [Use] is left out as in [ast_kind]. The text of an [Error] made by
    [export] is the variable, kept as its index. *)
Inductive ast_type :=
| ACon (c : con)
| AApp (callee : ast_type) (args : list ast_type)
| AGen (g : gen)
| ATError (v : var).

(** ast/types.rs [Type::app], the [new_app] of the [Ast] builder. *)
Definition ast_app (callee : ast_type) (args : list ast_type) : ast_type :=
  match args with [] => callee | _ => AApp callee args end.

(** types.rs:567-583 [import]. *)
Fixpoint import (pool : context) (t : ast_type) : outcome (ty * context) :=
  match t with
  | ACon c => Ret (YCon c, pool)
  | AApp callee args =>
    let* r := import pool callee in
    let '(callee, pool) := r in
    let* r :=
      (fix go (pool : context) (args : list ast_type) : outcome (list ty * context) :=
         match args with
         | [] => Ret ([], pool)
         | a :: args =>
           let* r := import pool a in
           let '(t, pool) := r in
           let* r := go pool args in
           let '(ts, pool) := r in
           Ret (t :: ts, pool)
         end) pool args in
    let '(args, pool) := r in
    Ret (new_app pool callee args)
  | AGen g => Ret (YGen g top, pool)
  | ATError _ => Panic
  end.

(** types.rs:585-617 [export]. *)
Fixpoint export (fuel : nat) (pool : context) (t : ty) : outcome (ast_type * context) :=
  match fuel with
  | O => OutOfFuel
  | S fuel =>
    let* r := resolve fuel pool t in
    let '(t, pool) := r in
    match t with
    | YVar v _ _ => Ret (ATError v, pool)
    | YCon c => Ret (ACon c, pool)
    | YApp callee args =>
      let* r := export fuel pool (at_ callee) in
      let '(callee, pool) := r in
      let* r := map_ctx (fun pool v => export fuel pool (at_ v)) pool (vars_iter args) in
      let '(args, pool) := r in
      Ret (ast_app callee args, pool)
    | YGen g _ => Ret (AGen g, pool)
    end
  end.
