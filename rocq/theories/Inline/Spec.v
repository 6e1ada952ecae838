(** * What is required of calls of transparent functions *)
From Verif.Base Require Import Base.
From Verif.Ir Require Import Model.
From Verif.Closure Require Import Model Spec.

(** Expressions without local functions, continuations, and returns: bodies that have been normalized, and give their
    value at their end. *)
Fixpoint simple (x : expr) : Prop :=
  match x with
  | EVar _ _ | ENever => True
  | ELocal _ _ | ELetLocal _ _ | ELetCont _ _ => False
  | EOp SReturn _ | EOp (SJump _ _) _ => False
  | EOp _ es => fold_right (fun x P => simple x /\ P) True es
  | ECall f es => simple f /\ fold_right (fun x P => simple x /\ P) True es
  | ESeq es x => fold_right (fun x P => simple x /\ P) True es /\ simple x
  | EIf a b c => simple a /\ simple b /\ simple c
  | EWhile a b | EAnd a b | EOr a b => simple a /\ simple b
  | EMatch a cs => simple a /\ fold_right (fun c P => simple (snd c) /\ P) True cs
  | ELetVar vs b => fold_right (fun v P => simple (snd v) /\ P) True vs /\ simple b
  end.

(** A call of the function [g]. *)
Definition call_of (g : nat) (ty : ct) (args : list expr) : expr := ECall (EOp (SFun g ty) []) args.
Definition variables (vars : list (nat * ct)) : list expr := map (fun a => EVar (fst a) (snd a)) vars.

(** Operations that panic or give a value; they do not return or jump. *)
Definition prims_plain (prim : strict -> heap -> list value -> option (heap * res)) : Prop :=
  forall o h vs h1 r, prim o h vs = Some (h1, r) -> match r with RsVal _ | RsPanic _ => True | _ => False end.
