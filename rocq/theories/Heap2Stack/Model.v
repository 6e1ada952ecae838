(** * Promotion of heap allocations (llrl0/src/lowering/heap2stack.rs) *)
From Verif.Base Require Import Base.
From Verif.Ir Require Import Model.

(** heap2stack.rs:10-13: the set of variables only loaded from or stored to so far. *)
Definition vars : Type := list nat.
Definition mem (id : nat) (l : vars) : bool := existsb (Nat.eqb id) l.
Definition drop (id : nat) (l : vars) : vars := filter (fun i => negb (Nat.eqb id i)) l.

(** [matches!(var.init, Rt::Alloc(_))] *)
Definition is_alloc (x : rt) : bool := match x with RAlloc _ _ => true | _ => false end.

(** heap2stack.rs:34-40: the variables of a let initialized by an allocation are added. *)
Fixpoint insert_allocs (vs : list (nat * ct * rt)) (l : vars) : vars :=
  match vs with
  | [] => l
  | (id, _, init) :: vs => insert_allocs vs (if is_alloc init then id :: l else l)
  end.

(** heap2stack.rs:46-56 [after_rt] on one variable. *)
Definition promote (l : vars) (v : nat * ct * rt) : nat * ct * rt :=
  let '(id, t, init) := v in
  match init with
  | RAlloc _ a => if mem id l then (id, t, RAlloc LStackStatic a) else v
  | _ => v
  end.

(** rewriter.rs: lists are rewritten from left to right. *)
Section Lists.
Variable rw : rt -> vars -> rt * vars.
Fixpoint rws (xs : list rt) (l : vars) : list rt * vars :=
  match xs with
  | [] => ([], l)
  | x :: xs => let (x, l) := rw x l in let (xs, l) := rws xs l in (x :: xs, l)
  end.
Fixpoint rw_lets (vs : list (nat * ct * rt)) (l : vars) : list (nat * ct * rt) * vars :=
  match vs with
  | [] => ([], l)
  | (id, t, x) :: vs =>
      let (x, l) := rw x l in let (vs, l) := rw_lets vs l in ((id, t, x) :: vs, l)
  end.
Fixpoint rw_conts (ks : list (nat * list param * rt)) (l : vars) : list (nat * list param * rt) * vars :=
  match ks with
  | [] => ([], l)
  | (id, ps, x) :: ks =>
      let (x, l) := rw x l in let (ks, l) := rw_conts ks l in ((id, ps, x) :: ks, l)
  end.
Fixpoint rw_clauses (cs : list (rtpat * rt)) (l : vars) : list (rtpat * rt) * vars :=
  match cs with
  | [] => ([], l)
  | (p, x) :: cs =>
      let (x, l) := rw x l in let (cs, l) := rw_clauses cs l in ((p, x) :: cs, l)
  end.
End Lists.

(** heap2stack.rs:18-56 inside rewriter.rs:192-303. *)
Fixpoint rw (x : rt) (l : vars) : rt * vars :=
  match x with
  | RVar id _ => (x, drop id l)
  | RStaticFun f t (Some a) => let (a, l) := rw a l in (RStaticFun f t (Some a), l)
  | RStaticFun _ _ None | RConst _ | RNullary _ | RNever => (x, l)
  | RCall f es => let (f, l) := rw f l in let (es, l) := rws rw es l in (RCall f es, l)
  | RCallC c r es => let (es, l) := rws rw es l in (RCallC c r es, l)
  | RCallAddr k f r es =>
      let (f, l) := rw f l in let (es, l) := rws rw es l in (RCallAddr k f r es, l)
  | RContCall k es r => let (es, l) := rws rw es l in (RContCall k es r, l)
  | RUnary o a =>
      match o, a with
      | ULoad, RVar _ _ => (x, l)
      | _, _ => let (a, l) := rw a l in (RUnary o a, l)
      end
  | RBinary o a b =>
      match o, b with
      | BStore, RVar _ _ => let (a, l) := rw a l in (RBinary o a b, l)
      | _, _ => let (a, l) := rw a l in let (b, l) := rw b l in (RBinary o a b, l)
      end
  | RTernary o a b c =>
      let (a, l) := rw a l in let (b, l) := rw b l in let (c, l) := rw c l in (RTernary o a b c, l)
  | RAlloc loc a => let (a, l) := rw a l in (RAlloc loc a, l)
  | RAllocArray loc t a => let (a, l) := rw a l in (RAllocArray loc t a, l)
  | RConstructEnv loc es => let (es, l) := rws rw es l in (RConstructEnv loc es, l)
  | RConstructData t i es => let (es, l) := rws rw es l in (RConstructData t i es, l)
  | RConstructStruct t es => let (es, l) := rws rw es l in (RConstructStruct t es, l)
  | RConstructSyntax m a => let (a, l) := rw a l in (RConstructSyntax m a, l)
  | RSeq es a => let (es, l) := rws rw es l in let (a, l) := rw a l in (RSeq es a, l)
  | RIf a b c =>
      let (a, l) := rw a l in let (b, l) := rw b l in let (c, l) := rw c l in (RIf a b c, l)
  | RWhile a b => let (a, l) := rw a l in let (b, l) := rw b l in (RWhile a b, l)
  | RAnd a b => let (a, l) := rw a l in let (b, l) := rw b l in (RAnd a b, l)
  | ROr a b => let (a, l) := rw a l in let (b, l) := rw b l in (ROr a b, l)
  | RMatch a cs => let (a, l) := rw a l in let (cs, l) := rw_clauses rw cs l in (RMatch a cs, l)
  | RReturn a => let (a, l) := rw a l in (RReturn a, l)
  | RLetVar vs b =>
      let l := insert_allocs vs l in
      let (vs, l) := rw_lets rw vs l in
      let (b, l) := rw b l in
      (RLetVar (map (promote l) vs) b, l)
  | RLetCont ks b => let (ks, l) := rw_conts rw ks l in let (b, l) := rw b l in (RLetCont ks b, l)
  end.

(** heap2stack.rs:6-8 [run]. *)
Definition run (x : rt) : rt := fst (rw x []).
