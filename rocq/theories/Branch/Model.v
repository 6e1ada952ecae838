(** * Expansion of [match], [and] and [or]

    Models llrl0/src/lowering/branch_expander.rs.  Closures are functions; [Box], [Rc] and
    ownership are not represented. *)
From Verif.Base Require Import Base.
From Verif.Ir Require Import Model.

(** The environment of the pass is a supply of fresh [RtId]s (branch_expander.rs:7-9): the next
    one.  Computations may panic. *)
Definition M (A : Type) : Type := nat -> outcome (A * nat).

Definition ret {A} (a : A) : M A := fun n => Ret (a, n).
Definition bindM {A B} (m : M A) (f : A -> M B) : M B :=
  fun n => match m n with Ret (a, n) => f a n | Panic => Panic | OutOfFuel => OutOfFuel end.
Definition lift {A} (o : outcome A) : M A := fun n => let* a := o in Ret (a, n).
(** branch_expander.rs:8 [Env::alloc_rt]. *)
Definition alloc_rt : M nat := fun n => Ret (n, S n).

Notation "'do' x <- m ; k" := (bindM m (fun x => k))
  (at level 200, x pattern, m at level 100, k at level 200, right associativity).

(** branch_expander.rs:338-351 [PatPart]. *)
Inductive part :=
| Root (ty : ct)
| Bind (id : nat) (p : part)
| DerefElem (p : part)
| NonNullElem (p : part)
| Null (p : part)
| StructElem (ty : ct) (i : nat) (p : part)
| Reinterpret (ty : ct) (p : part)
| SyntaxBody (p : part)
| Const (c : const) (p : part).

(** The derived [PartialEq] (and [Hash]) of [PatPart]. *)
Definition part_eq_dec (a b : part) : {a = b} + {a <> b}.
Proof. decide equality; try apply ct_eq_dec; try apply Nat.eq_dec; apply const_eq_dec. Defined.

(** branch_expander.rs:386-398 [PatPart::parent]. *)
Definition parent (p : part) : part :=
  match p with
  | Root _ => p
  | Bind _ p | DerefElem p | NonNullElem p | Null p | StructElem _ _ p | Reinterpret _ p
  | SyntaxBody p | Const _ p => p
  end.

(** branch_expander.rs:400-409 [PatPart::ty]. *)
Fixpoint part_ty (p : part) : outcome ct :=
  match p with
  | Root ty | StructElem ty _ _ | Reinterpret ty _ => Ret ty
  | DerefElem p | NonNullElem p => let* t := part_ty p in ptr_elem t
  | Bind _ p | Null p | Const _ p => part_ty p
  | SyntaxBody p => let* t := part_ty p in syntax_body t
  end.

(** branch_expander.rs:411-417 [PatPart::excludes]. *)
Definition excludes (a b : part) : bool :=
  match a, b with
  | NonNullElem a, Null b | Null a, NonNullElem b => if part_eq_dec a b then true else false
  | Const ca a, Const cb b =>
      (if const_eq_dec ca cb then false else true) && (if part_eq_dec a b then true else false)
  | _, _ => false
  end.

(** branch_expander.rs:419-424 [PatPart::to_bind_expr]. *)
Definition to_bind_expr (p : part) (v : nat) : outcome (option rt) :=
  match p with
  | Bind _ p => let* t := part_ty p in Ret (Some (RVar v t))
  | _ => Ret None
  end.

(** branch_expander.rs:426-463 [PatPart::to_test_expr]. *)
Definition to_test_expr (p : part) (v : nat) : outcome (option rt) :=
  match p with
  | NonNullElem p =>
      let* t := part_ty p in
      let* elem := ptr_elem t in
      Ret (Some (RUnary UNot (RBinary BPtrEq (RVar v (CtPtr elem)) (RNullary (NNull elem)))))
  | Null p =>
      let* t := part_ty p in
      let* elem := ptr_elem t in
      Ret (Some (RBinary BPtrEq (RVar v (CtPtr elem)) (RNullary (NNull elem))))
  | Const c _ =>
      match c with
      | KInteger _ _ _ => Ret (Some (RBinary BIEq (RVar v (const_ty c)) (RConst c)))
      | KFPNumber _ _ => Ret (Some (RBinary BFEq (RVar v (const_ty c)) (RConst c)))
      | KString _ => Ret (Some (RBinary BStringEq (RVar v (const_ty c)) (RConst c)))
      | KChar _ => Ret (Some (RBinary BIEq (RVar v (const_ty c)) (RConst c)))
      | KSyntaxSexp _ _ => Panic
      | KUnit => Ret None
      end
  | _ => Ret None
  end.

(** branch_expander.rs:465-490 [PatPart::to_get_expr]. *)
Definition to_get_expr (p : part) (v : nat) : outcome (option rt) :=
  match p with
  | DerefElem p | NonNullElem p =>
      let* t := part_ty p in Ret (Some (RUnary ULoad (RVar v t)))
  | StructElem elem i p =>
      let* t := part_ty p in Ret (Some (RUnary (UStructElem elem i) (RVar v t)))
  | Reinterpret to p =>
      let* t := part_ty p in Ret (Some (RUnary (UReinterpret to) (RVar v t)))
  | SyntaxBody p =>
      let* t := part_ty p in Ret (Some (RUnary USyntaxBody (RVar v t)))
  | _ => Ret None
  end.

Section Fields.
Variable collect : rtpat -> part -> list part * list param -> outcome (list part * list param * bool).
(** branch_expander.rs:311-320: the arguments of a struct pattern, numbered from [i]. *)
Fixpoint collect_fields (args : list rtpat) (i : nat) (par : part) (acc : list part * list param)
  : outcome (list part * list param * bool) :=
  match args with
  | [] => Ret (acc, false)
  | arg :: args =>
      let* (acc, a) := collect arg (StructElem (pat_ty arg) i par) acc in
      let* (acc, b) := collect_fields args (S i) par acc in
      Ret (acc, a || b)
  end.
End Fields.

(** branch_expander.rs:276-328 [FlattenPat::collect]: the accumulator holds the [PatPart]s and the
    parameters collected so far. *)
Fixpoint collect (p : rtpat) (par : part) (acc : list part * list param)
  : outcome (list part * list param * bool) :=
  match p with
  | PVar id ty as_ =>
      let acc := (fst acc ++ [Bind id par], snd acc ++ [(id, ty)]) in
      match as_ with
      | Some p => let* (acc, _) := collect p par acc in Ret (acc, true)
      | None => Ret (acc, true)
      end
  | PWildcard _ => Ret (acc, false)
  | PDeref p => collect p (DerefElem par) acc
  | PNonNull p =>
      let* (acc, b) := collect p (NonNullElem par) acc in
      if b then Ret (acc, true) else Ret ((fst acc ++ [NonNullElem par], snd acc), true)
  | PNull _ => Ret ((fst acc ++ [Null par], snd acc), true)
  | PData _ _ _ => Panic
  | PStruct _ args => collect_fields collect args 0 par acc
  | PReinterpret _ p => collect p (Reinterpret (pat_ty p) par) acc
  | PSyntax p => collect p (SyntaxBody par) acc
  | PConst c => Ret ((fst acc ++ [Const c par], snd acc), true)
  end.

(** branch_expander.rs:330-336 [FlattenPat::from]. *)
Definition flatten (p : rtpat) : outcome (list part * list param) :=
  let* (acc, _) := collect p (Root (pat_ty p)) ([], []) in Ret acc.

(** A [HashMap<PatPart, V>]. *)
Fixpoint pget {V} (m : list (part * V)) (p : part) : option V :=
  match m with
  | [] => None
  | (q, v) :: m => if part_eq_dec q p then Some v else pget m p
  end.
Definition pinsert {V} (m : list (part * V)) (p : part) (v : V) : list (part * V) := (p, v) :: m.

(** branch_expander.rs:198-204 [MatchProgress].  A determined part is [Some var] when it is
    satisfied ([Ok(var)]) and [None] when it is not ([Err(())]). *)
Record progress := Progress {
  determined : list (part * option (option nat));
  determined_range : list (part * list part);
  bind_args : list rt
}.

(** branch_expander.rs:207-215 [MatchProgress::new]. *)
Definition new_progress (root : nat) (ty : ct) : progress :=
  Progress [(Root ty, Some (Some root))] [] [].

(** branch_expander.rs:244-249 [MatchPartProgress]. *)
Inductive part_progress := NotKnown | Unsatisfied | Satisfied (v : option nat).

(** branch_expander.rs:217-226 [MatchProgress::part]. *)
Definition part_status (pr : progress) (p : part) : part_progress :=
  match pget (determined pr) p with
  | Some (Some v) => Satisfied v
  | Some None => Unsatisfied
  | None =>
      match pget (determined_range pr) (parent p) with
      | Some ps => if existsb (fun q => excludes q p) ps then Unsatisfied else NotKnown
      | None => NotKnown
      end
  end.

(** branch_expander.rs:228-234 [MatchProgress::mark_as_passed]. *)
Definition mark_as_passed (pr : progress) (p : part) : outcome progress :=
  let old := match pget (determined_range pr) (parent p) with Some ps => ps | None => [] end in
  match pget (determined pr) p with
  | None =>
      Ret (Progress (pinsert (determined pr) p (Some None))
                    (pinsert (determined_range pr) (parent p) (old ++ [p])) (bind_args pr))
  | Some _ => Panic
  end.

(** branch_expander.rs:236-238 [MatchProgress::mark_as_failed]. *)
Definition mark_as_failed (pr : progress) (p : part) : outcome progress :=
  match pget (determined pr) p with
  | None => Ret (Progress (pinsert (determined pr) p None) (determined_range pr) (bind_args pr))
  | Some _ => Panic
  end.

(** branch_expander.rs:240-242 [MatchProgress::set_passed_var]. *)
Definition set_passed_var (pr : progress) (p : part) (v : nat) : outcome progress :=
  match pget (determined pr) p with
  | Some (Some None) =>
      Ret (Progress (pinsert (determined pr) p (Some (Some v))) (determined_range pr)
                    (bind_args pr))
  | _ => Panic
  end.

(** [progress.bind_args.push(..)] when there is an expression to push. *)
Definition push_bind (pr : progress) (e : option rt) : progress :=
  match e with
  | Some e => Progress (determined pr) (determined_range pr) (bind_args pr ++ [e])
  | None => pr
  end.

(** [progress.bind_args.clear()] (branch_expander.rs:83). *)
Definition clear_binds (pr : progress) : progress :=
  Progress (determined pr) (determined_range pr) [].

(** branch_expander.rs:256-261 [MatchPartProgress::var], then [unwrap]. *)
Definition var_unwrap (s : part_progress) : outcome nat :=
  match s with Satisfied (Some v) => Ret v | _ => Panic end.

(** [Option::unwrap]. *)
Definition unwrap {A} (o : option A) : outcome A := match o with Some a => Ret a | None => Panic end.

(** branch_expander.rs:108-165 [expand_pat_part].  [succ] and [fail] are the two halves of the
    [MatchCont]; extending [succ] (branch_expander.rs:186-195) keeps [fail].  The Rust function
    recurses without a structural measure; the fuel is shown to suffice. *)
Fixpoint expand_pat_part (fuel : nat) (pr : progress) (p : part) (succ fail : progress -> M rt)
  : M rt :=
  match fuel with
  | O => fun _ => OutOfFuel
  | S fuel =>
      match part_status pr p with
      | Satisfied _ => succ pr
      | Unsatisfied => fail pr
      | NotKnown =>
          match part_status pr (parent p) with
          | Satisfied (Some v) =>
              do test <- lift (to_test_expr p v);
              match test with
              | Some test =>
                  do b <- lift (to_bind_expr p v);
                  do passed <- lift (mark_as_passed (push_bind pr b) p);
                  do success <- succ passed;
                  do failed <- lift (mark_as_failed pr p);
                  do failure <- fail failed;
                  ret (RIf test success failure)
              | None =>
                  do b <- lift (to_bind_expr p v);
                  do passed <- lift (mark_as_passed (push_bind pr b) p);
                  succ passed
              end
          | Satisfied None =>
              do g <- lift (var_unwrap (part_status pr (parent (parent p))));
              do v <- alloc_rt;
              do ty <- lift (part_ty (parent p));
              do get <- lift (to_get_expr (parent p) g);
              do get <- lift (unwrap get);
              do pr <- lift (set_passed_var pr (parent p) v);
              do body <- expand_pat_part fuel pr p succ fail;
              ret (let_var [(v, ty, get)] body)
          | Unsatisfied => fail pr
          | NotKnown =>
              expand_pat_part fuel pr (parent p)
                (fun pr => expand_pat_part fuel pr p succ fail) fail
          end
      end
  end.

(** The number of steps from a part to the root. *)
Fixpoint depth (p : part) : nat :=
  match p with
  | Root _ => O
  | Bind _ p | DerefElem p | NonNullElem p | Null p | StructElem _ _ p | Reinterpret _ p
  | SyntaxBody p | Const _ p => S (depth p)
  end.

(** branch_expander.rs:92-106 [expand_pat_parts]. *)
Fixpoint expand_pat_parts (pr : progress) (parts : list part) (succ fail : progress -> M rt) : M rt :=
  match parts with
  | [] => succ pr
  | p :: parts =>
      expand_pat_part (2 + depth p) pr p (fun pr => expand_pat_parts pr parts succ fail) fail
  end.

(** branch_expander.rs:73-90 [expand_matches]. *)
Fixpoint expand_matches (pr : progress) (matches : list (list part * nat * option ct)) : M rt :=
  match matches with
  | [] => ret RNever
  | (parts, id, ty) :: matches =>
      expand_pat_parts pr parts
        (fun pr => ret (RContCall id (bind_args pr) ty))
        (fun pr => expand_matches (clear_binds pr) matches)
  end.

(** branch_expander.rs:53-59: the continuation and the parts of every clause. *)
Fixpoint expand_clauses (clauses : list (rtpat * rt))
  : M (list (nat * list param * rt) * list (list part * nat * option ct)) :=
  match clauses with
  | [] => ret ([], [])
  | (p, body) :: clauses =>
      do (parts, binds) <- lift (flatten p);
      do id <- alloc_rt;
      do ty <- lift (rt_ty body);
      do (conts, matches) <- expand_clauses clauses;
      ret ((id, binds, body) :: conts, (parts, id, ty) :: matches)
  end.

(** branch_expander.rs:47-71 [expand]. *)
Definition expand (target : rt) (clauses : list (rtpat * rt)) : M rt :=
  do ty <- lift (rt_ty target);
  match ty with
  | Some ty =>
      do (conts, matches) <- expand_clauses clauses;
      do root <- alloc_rt;
      do body <- expand_matches (new_progress root ty) matches;
      ret (let_cont conts (let_var [(root, ty, target)] body))
  | None => ret target
  end.

(** branch_expander.rs:23-43 [after_rt]. *)
Definition after_rt (e : rt) : M rt :=
  match e with
  | RAnd a b => ret (RIf a b (RConst (const_bool false)))
  | ROr a b => ret (RIf a (RConst (const_bool true)) b)
  | RMatch target clauses => expand target clauses
  | _ => ret e
  end.
