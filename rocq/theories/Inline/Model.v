(** * Calls of transparent functions (llrl0/src/lowering/normalizer.rs)

    A call of a transparent function is replaced with the body of the function.  The expressions are those of the
    model of closure conversion. *)
From Verif.Base Require Import Base.
From Verif.Ir Require Import Model.
From Verif.Closure Require Import Model.

(** rewriter.rs:529-544 [replace_rt], inside rewriter.rs:192-303: variables are replaced with expressions *)
Fixpoint replaced (m : list (nat * expr)) (x : expr) : expr :=
  match x with
  | EVar id _ => match assoc id m with Some y => y | None => x end
  | ELocal _ _ | ENever => x
  | EOp o es => EOp o (map (replaced m) es)
  | ECall f es => ECall (replaced m f) (map (replaced m) es)
  | ESeq es x => ESeq (map (replaced m) es) (replaced m x)
  | EIf a b c => EIf (replaced m a) (replaced m b) (replaced m c)
  | EWhile a b => EWhile (replaced m a) (replaced m b)
  | EAnd a b => EAnd (replaced m a) (replaced m b)
  | EOr a b => EOr (replaced m a) (replaced m b)
  | EMatch a cs => EMatch (replaced m a) (map (fun c => (fst c, replaced m (snd c))) cs)
  | ELetVar vs b => ELetVar (map (fun v => (fst v, replaced m (snd v))) vs) (replaced m b)
  | ELetLocal fs b => ELetLocal (map (fun f => (fst f, replaced m (snd f))) fs) (replaced m b)
  | ELetCont ks b => ELetCont (map (fun k => (fst k, replaced m (snd k))) ks) (replaced m b)
  end.

(** rewriter.rs:550-552 [ReallocRts]: the next id, and the ids that have been given out *)
Record renaming := Renaming { next_id : nat; given : list (nat * nat) }.

(** rewriter.rs:557-562 [after_rt_def], with its assertion *)
Definition new_id (s : renaming) (id : nat) : outcome (renaming * nat) :=
  match assoc id (given s) with
  | Some _ => Panic
  | None => Ret (Renaming (S (next_id s)) ((id, next_id s) :: given s), next_id s)
  end.
(** rewriter.rs:564-569 [after_rt_use] *)
Definition id_of (s : renaming) (id : nat) : nat := match assoc id (given s) with Some id => id | None => id end.

Section Lists.
Context {A : Type}.
Variable one : renaming -> A -> outcome (renaming * A).
Fixpoint each (s : renaming) (l : list A) : outcome (renaming * list A) :=
  match l with
  | [] => Ret (s, [])
  | x :: l => let* (s, x) := one s x in let* (s, l) := each s l in Ret (s, x :: l)
  end.
End Lists.

Definition new_param (s : renaming) (p : param) : outcome (renaming * param) :=
  let* (s, id) := new_id s (fst p) in Ret (s, (id, snd p)).

(** rewriter.rs:429-472, for patterns *)
Fixpoint new_pat (s : renaming) (p : rtpat) : outcome (renaming * rtpat) :=
  match p with
  | PVar id ty None => let* (s, id) := new_id s id in Ret (s, PVar id ty None)
  | PVar id ty (Some p) => let* (s, id) := new_id s id in let* (s, p) := new_pat s p in Ret (s, PVar id ty (Some p))
  | PWildcard _ | PNull _ | PConst _ => Ret (s, p)
  | PDeref p => let* (s, p) := new_pat s p in Ret (s, PDeref p)
  | PNonNull p => let* (s, p) := new_pat s p in Ret (s, PNonNull p)
  | PReinterpret ty p => let* (s, p) := new_pat s p in Ret (s, PReinterpret ty p)
  | PSyntax p => let* (s, p) := new_pat s p in Ret (s, PSyntax p)
  | PData ty i ps => let* (s, ps) := each new_pat s ps in Ret (s, PData ty i ps)
  | PStruct ty ps => let* (s, ps) := each new_pat s ps in Ret (s, PStruct ty ps)
  end.

(** rewriter.rs:546-548 [realloc_rts], inside rewriter.rs:192-303 and :474-500 *)
Fixpoint realloc (s : renaming) (x : expr) : outcome (renaming * expr) :=
  match x with
  | EVar id ty => Ret (s, EVar (id_of s id) ty)
  | ELocal f ty => Ret (s, ELocal (id_of s f) ty)
  | ENever => Ret (s, ENever)
  | EOp o es => let* (s, es) := each realloc s es in Ret (s, EOp o es)
  | ECall f es => let* (s, f) := realloc s f in let* (s, es) := each realloc s es in Ret (s, ECall f es)
  | ESeq es x => let* (s, es) := each realloc s es in let* (s, x) := realloc s x in Ret (s, ESeq es x)
  | EIf a b c =>
      let* (s, a) := realloc s a in let* (s, b) := realloc s b in let* (s, c) := realloc s c in Ret (s, EIf a b c)
  | EWhile a b => let* (s, a) := realloc s a in let* (s, b) := realloc s b in Ret (s, EWhile a b)
  | EAnd a b => let* (s, a) := realloc s a in let* (s, b) := realloc s b in Ret (s, EAnd a b)
  | EOr a b => let* (s, a) := realloc s a in let* (s, b) := realloc s b in Ret (s, EOr a b)
  | EMatch a cs =>
      let* (s, a) := realloc s a in
      let* (s, cs) := each (fun s c => match c with (p, e) =>
        let* (s, p) := new_pat s p in let* (s, e) := realloc s e in Ret (s, (p, e)) end) s cs in
      Ret (s, EMatch a cs)
  | ELetVar vs b =>
      let* (s, vs) := each (fun s v => match v with (id, ty, e) =>
        let* (s, id) := new_id s id in let* (s, e) := realloc s e in Ret (s, (id, ty, e)) end) s vs in
      let* (s, b) := realloc s b in Ret (s, ELetVar vs b)
  | ELetLocal fs b =>
      let* (s, fs) := each (fun s f => match f with (id, ps, ret, e) =>
        let* (s, ps) := each new_param s ps in let* (s, id) := new_id s id in
        let* (s, e) := realloc s e in Ret (s, (id, ps, ret, e)) end) s fs in
      let* (s, b) := realloc s b in Ret (s, ELetLocal fs b)
  | ELetCont ks b =>
      let* (s, ks) := each (fun s k => match k with (id, ps, e) =>
        let* (s, ps) := each new_param s ps in let* (s, e) := realloc s e in Ret (s, (id, ps, e)) end) s ks in
      let* (s, b) := realloc s b in Ret (s, ELetCont ks b)
  end.

(** normalizer.rs:232-240 [call_transparent], given the next id *)
Definition call_transparent (n : nat) (f : function) (args : list expr) : outcome (nat * expr) :=
  match f_env f with
  | Some _ => Panic
  | None =>
      if (List.length (f_params f) =? List.length args)%nat then
        let* (s, x) := realloc (Renaming n []) (replaced (combine (map fst (f_params f)) args) (f_body f)) in Ret (next_id s, x)
      else Panic
  end.

(** normalizer.rs:100-117 [after_rt], inside rewriter.rs:192-303.  [defs] gives the transparent functions that are
    being normalized.  Simplification: only the forms needed to reach calls in tail position, which are enough for
    what is shown; the other work of the normalizer is left out. *)
Fixpoint inline (defs : nat -> option function) (fuel : nat) (n : nat) (x : expr) : outcome (nat * expr) :=
  match fuel with
  | O => OutOfFuel
  | S fuel =>
      match x with
      | ECall (EOp (SFun g ty) []) args =>
          match defs g with
          | Some f => let* (n, y) := call_transparent n f args in inline defs fuel n y
          | None => Ret (n, x)
          end
      | ESeq es x => let* (n, x) := inline defs fuel n x in Ret (n, ESeq es x)
      | EIf a b c =>
          let* (n, b) := inline defs fuel n b in let* (n, c) := inline defs fuel n c in Ret (n, EIf a b c)
      | x => Ret (n, x)
      end
  end.
