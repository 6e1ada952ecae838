(** * What a stack frame must satisfy *)
From Coq Require Import ZArith Permutation.
From Verif.Base Require Import Base.
From Verif.Ir Require Import Model RtInd.
From Verif.Frame Require Import Model.

(** ** Which variables hold values at the same time *)

(** The continuations in scope, with their parameters. *)
Definition conts : Type := list (nat * list param).
Fixpoint params_of (ks : conts) (k : nat) : list param :=
  match ks with
  | [] => []
  | (i, ps) :: ks => if i =? k then ps else params_of ks k
  end.

(** The children of a form that binds nothing. *)
Definition plain (x : rt) : bool :=
  match x with RLetVar _ _ | RLetCont _ _ | RContCall _ _ _ => false | _ => true end.

Definition let_param (v : nat * ct * rt) : param := fst v.
Definition cont_entry (k : nat * list param * rt) : nat * list param := fst k.

(** [live sc set ks x sc']: while [x] is evaluated, with the variables [sc] in scope, the parameters
    [set] of a continuation already set by the jump [x] is an argument of, and the continuations [ks]
    to jump to, there is a moment when the variables [sc'] hold values that may still be read.

    A variable holds a value once its initializer has been evaluated.  The parameters of a
    continuation are set one by one, while the variables at the jump may still be read by the
    arguments that remain; a jump inside an argument abandons the jump around it.  Continuations can
    be jumped to from the body of the form that introduces them, not from each other. *)
Inductive live : list param -> list param -> conts -> rt -> list param -> Prop :=
| live_here sc set ks x : live sc set ks x (set ++ sc)
| live_child sc set ks x y sc' :
    plain x = true -> In y (children x) -> live sc set ks y sc' -> live sc set ks x sc'
| live_init sc set ks vs id t y vs' b sc' :
    live (sc ++ map let_param vs) set ks y sc' ->
    live sc set ks (RLetVar (vs ++ (id, t, y) :: vs') b) sc'
| live_let sc set ks vs b sc' :
    live (sc ++ map let_param vs) set ks b sc' -> live sc set ks (RLetVar vs b) sc'
| live_jump sc set ks k es y es' r sc' :
    live sc (firstn (List.length es) (params_of ks k)) ks y sc' ->
    live sc set ks (RContCall k (es ++ y :: es') r) sc'
| live_jumped sc set ks k es r : live sc set ks (RContCall k es r) (params_of ks k ++ sc)
| live_scope sc set ks cs b sc' :
    live sc set (map cont_entry cs ++ ks) b sc' -> live sc set ks (RLetCont cs b) sc'
| live_cont sc set ks cs k ps y b sc' :
    In (k, ps, y) cs -> live (sc ++ ps) set ks y sc' -> live sc set ks (RLetCont cs b) sc'.

(** ** Bound variables *)
Section Binders.
Variable binders : rt -> list param.
Fixpoint lets_binders (vs : list (nat * ct * rt)) : list param :=
  match vs with [] => [] | (id, t, y) :: vs => (id, t) :: binders y ++ lets_binders vs end.
Fixpoint conts_binders (ks : list (nat * list param * rt)) : list param :=
  match ks with [] => [] | (_, ps, y) :: ks => ps ++ binders y ++ conts_binders ks end.
Fixpoint clauses_binders (cs : list (rtpat * rt)) : list param :=
  match cs with [] => [] | (_, y) :: cs => binders y ++ clauses_binders cs end.
Fixpoint all_binders (xs : list rt) : list param :=
  match xs with [] => [] | x :: xs => binders x ++ all_binders xs end.
End Binders.

(** The variables and continuation parameters bound anywhere in an expression. *)
Fixpoint binders (x : rt) : list param :=
  match x with
  | RVar _ _ | RConst _ | RNullary _ | RNever | RStaticFun _ _ None => []
  | RStaticFun _ _ (Some a) | RUnary _ a | RConstructSyntax _ a | RReturn a | RAlloc _ a
  | RAllocArray _ _ a => binders a
  | RCall a es | RCallAddr _ a _ es => binders a ++ all_binders binders es
  | RCallC _ _ es | RContCall _ es _ | RConstructData _ _ es | RConstructStruct _ es
  | RConstructEnv _ es => all_binders binders es
  | RBinary _ a b | RWhile a b | RAnd a b | ROr a b => binders a ++ binders b
  | RTernary _ a b c | RIf a b c => binders a ++ binders b ++ binders c
  | RSeq es a => all_binders binders es ++ binders a
  | RMatch a cs => binders a ++ clauses_binders binders cs
  | RLetVar vs b => lets_binders binders vs ++ binders b
  | RLetCont ks b => binders b ++ conts_binders binders ks
  end.

Definition initial (f : function) : list param :=
  match f_env f with Some (id, es) => (id, CtEnv) :: es | None => [] end ++ f_params f.
Definition bound (f : function) : list param := initial f ++ binders (f_body f).

(** ** Places *)
Section Places.
Variable words : ct -> nat.
Variable s : frame.

(** The bytes of the frame from [lo] up to [hi]. *)
Definition region : Type := Z * Z.
Definition apart (a b : region) : Prop := (snd a <= fst b \/ snd b <= fst a)%Z.

Fixpoint lookup (l : list (nat * Z)) (id : nat) : option Z :=
  match l with
  | [] => None
  | (i, o) :: l => if i =? id then Some o else lookup l id
  end.

(** The place of a variable. *)
Definition place (v : param) (r : region) : Prop :=
  exists o, lookup (offsets s) (fst v) = Some o /\ r = (o, o + Z.of_nat (words (snd v)) * 8)%Z.

(** No two of the variables share a byte. *)
Inductive separate : list param -> Prop :=
| separate_nil : separate []
| separate_cons v vs :
    (exists r, place v r) ->
    (forall w r r', In w vs -> place v r -> place w r' -> apart r r') ->
    separate vs -> separate (v :: vs).
End Places.

(** ** Allocations on the stack *)
Definition own_alloc (x : rt) : list ct :=
  match x with
  | RAlloc LStackStatic a => match rt_ty a with Ret (Some t) => [t] | _ => [] end
  | _ => []
  end.
(** [allocs_in x ts]: the allocations of [x] and below it, in some order. *)
Inductive allocs_in : rt -> list ct -> Prop :=
| allocs_node x tss : Forall2 allocs_in (children x) tss -> allocs_in x (own_alloc x ++ List.concat tss).


Fixpoint sum (ns : list nat) : nat := match ns with [] => 0 | n :: ns => n + sum ns end.

(** Areas of the sizes [ns] at the offsets [os], one below the other, from [hi] down to [lo]. *)
Fixpoint stacked (hi lo : Z) (ns : list nat) (os : list Z) : Prop :=
  match ns, os with
  | [], [] => (lo <= hi)%Z
  | n :: ns, o :: os => (o + Z.of_nat n * 8 <= hi)%Z /\ stacked o lo ns os
  | _, _ => False
  end.

(** Variables kept below the frame pointer, and parameters passed by the caller above it. *)
Definition saved (f : function) : list param :=
  match f_env f with Some (id, es) => (id, CtEnv) :: es | None => [] end ++
  match f_kind f with Macro => f_params f | _ => [] end.
Definition locals (f : function) : list param := saved f ++ binders (f_body f).
Definition passed (f : function) : list param := match f_kind f with Macro => [] | _ => f_params f end.

(** ** Expressions the frame is defined for *)
Definition own_supported (x : rt) : Prop :=
  match x with
  | RAlloc LStackStatic a => exists t, rt_ty a = Ret t
  | RAllocArray LStackStatic _ _ | RConstructEnv LStackStatic _ => False
  | _ => True
  end.
Inductive supported : rt -> Prop :=
| supported_node x : own_supported x -> Forall supported (children x) -> supported x.

(** Only a standard function has an environment, the main function returns no structure, and a macro
    has one parameter. *)
Definition convention (in_memory : ct -> bool) (f : function) : Prop :=
  (f_env f <> None -> f_kind f = Standard) /\
  (in_memory (f_ret f) = true -> f_kind f <> Main) /\
  (f_kind f = Macro -> List.length (f_params f) = 1).
