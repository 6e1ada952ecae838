(** * Model of the order of initialization (llrl0/src/lowering.rs) *)
From Coq Require Import List Arith.
From Verif.Base Require Import Base.
Import ListNotations.

(** ast/expr.rs:454-458 [InitExpr]: expressions are given by their node id (ast/expr.rs [Expr.id]). *)
Inductive init_expr := Eval (e : nat) | Ensure (m : nat).

(** lowering.rs:87-88: the built modules, of which only [ast_root().init_expressions] matters. *)
Definition modules := list (nat * list init_expr).
(** [map[&mid]], which panics when there is no such module; the latest insertion comes first. *)
Fixpoint lookup (ms : modules) (m : nat) : option (list init_expr) :=
  match ms with
  | [] => None
  | (k, es) :: ms => if m =? k then Some es else lookup ms m
  end.

(** lowering.rs:150-154 [MainStatements]; the set is kept as a list. *)
Record main := Main { visited : list nat; queue : list init_expr }.
Definition new_main : main := Main [] [].
Definition seen (s : main) (m : nat) : bool := existsb (Nat.eqb m) (visited s).
Definition push (s : main) (x : init_expr) : main := Main (visited s) (queue s ++ [x]).

(** lowering.rs:161-172 [enqueue].  Every call that goes on marks one more module, so that the depth
    of the recursion is bounded; the fuel stands for that bound. *)
Fixpoint enqueue (fuel : nat) (ms : modules) (s : main) (m : nat) : outcome main :=
  match fuel with
  | O => OutOfFuel
  | S fuel =>
      if seen s m then Ret s
      else
        match lookup ms m with
        | None => Panic
        | Some es =>
            fold_left (fun acc x =>
                let* s := acc in
                let s := push s x in
                match x with
                | Ensure n => enqueue fuel ms s n
                | Eval _ => Ret s
                end)
              es (Ret (Main (m :: visited s) (queue s)))
        end
  end.
(** lowering.rs:174-176 [dequeue] *)
Definition dequeue (s : main) : option (init_expr * main) :=
  match queue s with
  | [] => None
  | x :: xs => Some (x, Main (visited s) xs)
  end.

(** What happens to [process_requests] (lowering.rs:84-148): a module arrives, a macro is to be executed,
    or no request is there at the moment. *)
Inductive event := Add (m : nat) (es : list init_expr) (entry : bool) | Macro | Idle.
(** The expressions given to [put_main], oldest first. *)
Record state := State { mods : modules; todo : main; out : list nat }.
Definition new_state : state := State [] new_main [].
(** translator.rs:444-457: there is nothing to do for [Ensure]. *)
Definition put_main (x : init_expr) : list nat := match x with Eval e => [e] | Ensure _ => [] end.
(** lowering.rs:115-143; without anything to do, the receiver waits. *)
Definition step (s : state) (ev : event) : outcome state :=
  match ev with
  | Add m es entry =>
      let ms := (m, es) :: mods s in
      if entry then let* t := enqueue (S (List.length ms)) ms (todo s) m in Ret (State ms t (out s))
      else Ret (State ms (todo s) (out s))
  | Macro => Ret s
  | Idle =>
      match dequeue (todo s) with
      | Some (x, t) => Ret (State (mods s) t (out s ++ put_main x))
      | None => Ret s
      end
  end.
Fixpoint steps (s : state) (evs : list event) : outcome state :=
  match evs with
  | [] => Ret s
  | ev :: evs => let* s := step s ev in steps s evs
  end.
(** Once the senders are gone, what is left in the queue is done (lowering.rs:137-143). *)
Definition process (evs : list event) : outcome (list nat) :=
  let* s := steps new_state evs in
  Ret (out s ++ flat_map put_main (queue (todo s))).
