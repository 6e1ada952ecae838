(** * llrl0/src/backend/chibi/codegen/stack_frame.rs

    Where the variables of a function are kept.  Offsets from the frame pointer are [Z] ([i32] in
    the code) and numbers of eightbytes are [nat]; neither overflows here.  [words t] is
    [ctx.layout(t).num_eightbytes()] and [in_memory t] is [ctx.layout(t).class == Class::Memory]. *)
From Coq Require Import ZArith.
From Verif.Base Require Import Base.
From Verif.Ir Require Import Model.

(** stack_frame.rs:15-22 [StackFrame] without the return pointer and the depth, which is 0 while the
    frame is computed, and stack_frame.rs:60-64 [StackFrameBuilder].  [offsets] is the hash map, the
    latest insertion first. *)
Record frame := Frame { offsets : list (nat * Z); vars : nat; allocs : nat; scope : nat }.

Definition offset_of (n : nat) : Z := (Z.of_nat n * -8)%Z.

Section Builder.
Variable words : ct -> nat.

(** stack_frame.rs:110-114 [allocate] *)
Definition allocate (n : nat) (f : frame) : Z * frame :=
  let scope := scope f + n in
  (offset_of scope, Frame (offsets f) (Nat.max (vars f) scope) (allocs f) scope).

(** stack_frame.rs:122-124 [add_parameter] *)
Definition insert (id : nat) (o : Z) (f : frame) : frame :=
  Frame ((id, o) :: offsets f) (vars f) (allocs f) (scope f).

(** stack_frame.rs:116-120 [add_var] *)
Definition add_var (id : nat) (t : ct) (f : frame) : frame :=
  let (o, f) := allocate (words t) f in insert id o f.

Fixpoint add_vars (ps : list param) (f : frame) : frame :=
  match ps with
  | [] => f
  | (id, t) :: ps => add_vars ps (add_var id t f)
  end.

Definition set_scope (n : nat) (f : frame) : frame := Frame (offsets f) (vars f) (allocs f) n.
Definition set_vars (n : nat) (f : frame) : frame := Frame (offsets f) n (allocs f) (scope f).
Definition add_allocs (n : nat) (f : frame) : frame := Frame (offsets f) (vars f) (allocs f + n) (scope f).

(** traverser.rs: lists are visited from left to right. *)
Section Lists.
Variable go : rt -> frame -> outcome frame.
Fixpoint gos (xs : list rt) (f : frame) : outcome frame :=
  match xs with
  | [] => Ret f
  | x :: xs => let* f := go x f in gos xs f
  end.
(** stack_frame.rs:133-136 *)
Fixpoint go_lets (vs : list (nat * ct * rt)) (f : frame) : outcome frame :=
  match vs with
  | [] => Ret f
  | (id, t, init) :: vs => let* f := go init (add_var id t f) in go_lets vs f
  end.
(** stack_frame.rs:150-157 *)
Fixpoint go_conts (ks : list (nat * list param * rt)) (f : frame) : outcome frame :=
  match ks with
  | [] => Ret f
  | (_, ps, body) :: ks =>
      let n := scope f in
      let* f := go body (add_vars ps f) in
      go_conts ks (set_scope n f)
  end.
Fixpoint go_clauses (cs : list (rtpat * rt)) (f : frame) : outcome frame :=
  match cs with
  | [] => Ret f
  | (_, x) :: cs => let* f := go x f in go_clauses cs f
  end.
End Lists.

Definition is_static (l : location) : bool := match l with LStackStatic => true | _ => false end.

(** stack_frame.rs:127-172 [before_rt] inside traverser.rs:160-266.  The forms that the earlier
    passes remove are visited all the same. *)
Fixpoint go (x : rt) (f : frame) : outcome frame :=
  match x with
  | RVar _ _ | RConst _ | RNullary _ | RNever => Ret f
  | RStaticFun _ _ None => Ret f
  | RStaticFun _ _ (Some a) => go a f
  | RCall a es | RCallAddr _ a _ es => let* f := go a f in gos go es f
  | RCallC _ _ es | RContCall _ es _ | RConstructData _ _ es | RConstructStruct _ es => gos go es f
  | RConstructEnv l es => if is_static l then Panic else gos go es f
  | RUnary _ a | RConstructSyntax _ a | RReturn a => go a f
  | RAlloc l a =>
      if is_static l then
        let* t := rt_ty a in
        go a (match t with Some t => add_allocs (words t) f | None => f end)
      else go a f
  | RAllocArray l _ a => if is_static l then Panic else go a f
  | RBinary _ a b | RWhile a b | RAnd a b | ROr a b => let* f := go a f in go b f
  | RTernary _ a b c | RIf a b c => let* f := go a f in let* f := go b f in go c f
  | RSeq es a => let* f := gos go es f in go a f
  | RMatch a cs => let* f := go a f in go_clauses go cs f
  | RLetVar vs b =>
      let n := scope f in
      let* f := go_lets go vs f in
      let* f := go b f in
      Ret (set_scope n f)
  | RLetCont ks b =>
      let stashed := vars f in
      let* f := go b (set_vars (scope f) f) in
      let f := set_scope (vars f) f in
      let f := set_vars (Nat.max (vars f) stashed) f in
      go_conts go ks f
  end.

(** def.rs [Function], [FunctionEnv] and [FunctionKind] *)
Inductive kind := Standard | Main | Macro.
Record function := Function {
  f_env : option (nat * list param); f_params : list param; f_ret : ct; f_body : rt; f_kind : kind }.

(** stack_frame.rs:92-105: the offsets of the parameters passed on the stack. *)
Fixpoint sum_words (ps : list param) : nat :=
  match ps with [] => 0 | (_, t) :: ps => words t + sum_words ps end.
Fixpoint add_params (offset : Z) (ps : list param) (f : frame) : frame :=
  match ps with
  | [] => f
  | (id, t) :: ps =>
      let o := (offset - Z.of_nat (words t) * 8)%Z in
      add_params o ps (insert id o f)
  end.

Variable in_memory : ct -> bool.

Definition check (b : bool) : outcome unit := if b then Ret tt else Panic.

(** stack_frame.rs:25-40 [StackFrame::new] and :67-108 [collect]: the frame and the offset at which
    the pointer to the result is kept. *)
Definition new (f : function) : outcome (frame * option Z) :=
  let s := Frame [] 0 0 0 in
  let* s :=
    match f_env f with
    | None => Ret s
    | Some (id, elems) =>
        let* _ := check (match f_kind f with Standard => true | _ => false end) in
        Ret (add_vars elems (add_var id CtEnv s))
    end in
  let* p :=
    if in_memory (f_ret f) then
      let* _ := check (match f_kind f with Main => false | _ => true end) in
      let (o, s) := allocate 1 s in Ret (Some o, s)
    else Ret (None, s) in
  let (ret_ptr, s) := p in
  let* s :=
    match f_kind f with
    | Macro =>
        match f_params f with
        | [(id, t)] => Ret (add_var id t s)
        | _ => Panic
        end
    | _ => Ret (add_params (16 + Z.of_nat (sum_words (f_params f)) * 8)%Z (f_params f) s)
    end in
  let* s := go (f_body f) s in
  Ret (s, ret_ptr).

End Builder.

(** stack_frame.rs:42-44 [reserved_area]: its size in bytes. *)
Definition reserved (f : frame) : Z := (Z.of_nat (vars f + allocs f) * 8)%Z.

(** stack_frame.rs:46-51 [consume_alloc_area], given the number of eightbytes. *)
Definition consume (n : nat) (f : frame) : outcome (Z * frame) :=
  if n <=? allocs f
  then Ret (offset_of (vars f + n), Frame (offsets f) (vars f + n) (allocs f - n) (scope f))
  else Panic.
Fixpoint consumes (ns : list nat) (f : frame) : outcome (list Z) :=
  match ns with
  | [] => Ret []
  | n :: ns => let* p := consume n f in let (o, f) := p in let* os := consumes ns f in Ret (o :: os)
  end.
