(** Model of llrl0/src/pattern_matching.rs and pattern_matching/{matrix,pattern,row}.rs, and of
    module/sema/validator.rs:41-66. *)
From Verif.Base Require Import Base.

(** pattern.rs:99-103 [FiniteCon]: a constructor and its number of fields. The [ValueCon] is an id
    compared by equality. *)
Record finite_con := { use_ : N; arity_ : nat }.

(** pattern.rs:56-60 [Tag]. Simplification: an [ast::Const] is an id compared by equality (the
    derived [Eq] of ast/consts.rs:6). *)
Inductive tag :=
| Const (c : N)
| Finite (con : finite_con) (sibs : list finite_con).

(** pattern.rs:9-13 [Pattern]; row.rs:5-8 [Row]; matrix.rs:4-7 [Matrix]. *)
Inductive pattern :=
| PCon (t : tag) (ps : list pattern)
| PWild.
Definition row := list pattern.
Definition matrix := list row.

(** pattern.rs:56 and 99, the derived [PartialEq]s. *)
Definition con_eqb (a b : finite_con) : bool := (use_ a =? use_ b)%N && Nat.eqb (arity_ a) (arity_ b).
Fixpoint cons_eqb (a b : list finite_con) : bool :=
  match a, b with
  | [], [] => true
  | x :: a, y :: b => con_eqb x y && cons_eqb a b
  | _, _ => false
  end.
Definition tag_eqb (a b : tag) : bool :=
  match a, b with
  | Const c, Const d => (c =? d)%N
  | Finite c cs, Finite d ds => con_eqb c d && cons_eqb cs ds
  | _, _ => false
  end.

(** pattern.rs:63-68 [arity]. *)
Definition arity (t : tag) : nat := match t with Const _ => 0%nat | Finite con _ => arity_ con end.

(** pattern.rs:70-75 [sibling_count]; 77-82 [siblings]; 105-111 [FiniteCon::tags]. *)
Definition sibling_count (t : tag) : option nat :=
  match t with Const _ => None | Finite _ sibs => Some (List.length sibs) end.
Definition tags_of (sibs : list finite_con) : list tag := map (fun con => Finite con sibs) sibs.
Definition siblings (t : tag) : option (list tag) :=
  match t with Const _ => None | Finite _ sibs => Some (tags_of sibs) end.

(** A [BTreeSet<&Tag>]. Simplification: a list without duplicates, in the order of insertion, not in
    the order of tags: only the order of the rows reported as missing depends on it. *)
Definition contains (t : tag) (set : list tag) : bool := existsb (tag_eqb t) set.
Definition insert (t : tag) (set : list tag) : list tag := if contains t set then set else set ++ [t].

(** pattern.rs:84-89 [is_complete]. *)
Definition is_complete (tags : list tag) : bool :=
  match tags with
  | [] => false
  | t :: _ => match sibling_count t with Some n => Nat.eqb n (List.length tags) | None => false end
  end.

(** pattern.rs:23-34 [Pattern::is_incompatible_with]; row.rs:31-37 [Row::is_incompatible_with]. *)
Fixpoint is_incompatible_with (a b : pattern) : bool :=
  match a, b with
  | PCon a_tag a_ps, PCon b_tag b_ps =>
    negb (tag_eqb a_tag b_tag) ||
    (fix go (l l' : list pattern) : bool :=
       match l, l' with
       | a :: l, b :: l' => is_incompatible_with a b || go l l'
       | _, _ => false
       end) a_ps b_ps
  | _, _ => false
  end.
Fixpoint row_incompatible (a b : row) : bool :=
  match a, b with
  | x :: a, y :: b => is_incompatible_with x y || row_incompatible a b
  | _, _ => false
  end.

(** pattern.rs:36-43 and row.rs:39-43, matrix.rs:56-61 [collect_head_tags]. *)
Definition collect_head_tags (m : matrix) : list tag :=
  fold_left (fun set r => match r with PCon t _ :: _ => insert t set | _ => set end) m [].

(** row.rs:68-84 [Row::specialize]; matrix.rs:171-177 [Matrix::specialize]. *)
Definition specialize_row (t : tag) (r : row) : option row :=
  match r with
  | [] => None
  | PCon t' ps :: r => if tag_eqb t' t then Some (ps ++ r) else None
  | PWild :: r => Some (repeat PWild (arity t) ++ r)
  end.
Fixpoint filter_map {A B} (f : A -> option B) (l : list A) : list B :=
  match l with
  | [] => []
  | x :: l => match f x with Some y => y :: filter_map f l | None => filter_map f l end
  end.
Definition specialize (t : tag) (m : matrix) : matrix := filter_map (specialize_row t) m.

(** row.rs:91-101 and matrix.rs:185-191 [defaults]. *)
Definition defaults_row (r : row) : option row :=
  match r with PWild :: r => Some r | _ => None end.
Definition defaults (m : matrix) : matrix := filter_map defaults_row m.

(** row.rs:86-89 and 49-52, matrix.rs:179-183 [restore_specialized]; [split_off] panics when the row is
    too short. *)
Definition restore_row (t : tag) (r : row) : outcome row :=
  if Nat.leb (arity t) (List.length r) then Ret (PCon t (firstn (arity t) r) :: skipn (arity t) r) else Panic.
Fixpoint map_out {A B} (f : A -> outcome B) (l : list A) : outcome (list B) :=
  match l with
  | [] => Ret []
  | x :: l => let* y := f x in let* l := map_out f l in Ret (y :: l)
  end.
Definition restore_specialized (t : tag) (m : matrix) : outcome matrix := map_out (restore_row t) m.

(** [Iterator::any]. *)
Fixpoint any_out {A} (f : A -> outcome bool) (l : list A) : outcome bool :=
  match l with
  | [] => Ret false
  | x :: l => let* b := f x in if b then Ret true else any_out f l
  end.

(** matrix.rs:49-54 [column_len] and the [debug_assert_eq!]s against it (86, 123). *)
Definition assert_columns (m : matrix) (n : nat) : outcome unit :=
  match m with r :: _ => if Nat.eqb (List.length r) n then Ret tt else Panic | [] => Panic end.

(** matrix.rs:81-115 [compute_usefulness]. *)
Fixpoint compute_usefulness (fuel : nat) (m : matrix) (r : row) : outcome bool :=
  match fuel with
  | O => OutOfFuel
  | S fuel =>
    match m with
    | [] => Ret true
    | _ =>
      let* _ := assert_columns m (List.length r) in
      match r with
      | PCon t ps :: r => compute_usefulness fuel (specialize t m) (ps ++ r)
      | PWild :: r =>
        let tags := collect_head_tags m in
        if is_complete tags then
          any_out (fun t => compute_usefulness fuel (specialize t m) (repeat PWild (arity t) ++ r)) tags
        else compute_usefulness fuel (defaults m) r
      | [] => Ret false
      end
    end
  end.

(** matrix.rs:130-136, the fold over the tags. *)
Fixpoint concat_out {A B} (f : A -> outcome (list B)) (l : list A) (acc : list B) : outcome (list B) :=
  match l with
  | [] => Ret acc
  | x :: l => let* y := f x in concat_out f l (acc ++ y)
  end.

(** matrix.rs:139-152, the heads of the missing rows. *)
Definition missing_heads (tags : list tag) : list pattern :=
  match tags with
  | [] => [PWild]
  | t :: _ =>
    match siblings t with
    | None => [PWild]
    | Some siblings =>
      map (fun t => PCon t (repeat PWild (arity t))) (filter (fun t => negb (contains t tags)) siblings)
    end
  end.

(** matrix.rs:117-169 [compute_missing]. *)
Fixpoint compute_missing (fuel : nat) (m : matrix) (column_len : nat) : outcome matrix :=
  match fuel with
  | O => OutOfFuel
  | S fuel =>
    match m with
    | [] => Ret [repeat PWild column_len]
    | r0 :: _ =>
      let* _ := assert_columns m column_len in
      match r0 with
      | [] => Ret []
      | _ =>
        let tags := collect_head_tags m in
        if is_complete tags then
          concat_out (fun t =>
            let* m := compute_missing fuel (specialize t m) (column_len + arity t - 1) in
            restore_specialized t m) tags []
        else
          let heads := missing_heads tags in
          let* tails := compute_missing fuel (defaults m) (column_len - 1) in
          Ret (flat_map (fun tail => map (fun head => head :: tail) heads) tails)
      end
    end
  end.

(** pattern_matching.rs:16-20 [Error]. *)
Inductive check_result :=
| CheckOk
| Useless (r : row)
| NonExhaustive (m : matrix).

(** matrix.rs:197-203 [drain_filter], with a predicate that may run out of fuel. *)
Fixpoint filter_out {A} (f : A -> outcome bool) (l : list A) : outcome (list A) :=
  match l with
  | [] => Ret []
  | x :: l => let* b := f x in let* l := filter_out f l in Ret (if b then x :: l else l)
  end.

(** pattern_matching.rs:33-41 [useless_check]; [None] is [Err(row)]. *)
Definition useless_check (fuel : nat) (m : matrix) (r : row) : outcome (option matrix) :=
  let related := filter (fun r' => negb (row_incompatible r' r)) m in
  let* b := compute_usefulness fuel related r in
  if b then
    let* m := filter_out (fun r' => compute_usefulness fuel [r] r') m in
    Ret (Some (m ++ [r]))
  else Ret None.

(** pattern_matching.rs:43-46 [exhaustiveness_check]. *)
Definition exhaustiveness_check (fuel : nat) (m : matrix) : outcome matrix :=
  compute_missing fuel m (match m with [] => 0%nat | r :: _ => List.length r end).

(** pattern_matching.rs:22-31 [check]. *)
Fixpoint check_loop (fuel : nat) (m : matrix) (rows : list row) : outcome check_result :=
  match rows with
  | [] =>
    let* missing := exhaustiveness_check fuel m in
    Ret (match missing with [] => CheckOk | _ => NonExhaustive missing end)
  | r :: rows =>
    let* m' := useless_check fuel m r in
    match m' with
    | Some m => check_loop fuel m rows
    | None => Ret (Useless r)
    end
  end.
Definition check (fuel : nat) (rows : list row) : outcome check_result := check_loop fuel [] rows.

(** module/error.rs: the two pattern errors. *)
Inductive match_result :=
| MatchOk
| UselessPattern (p : pattern)
| NonExhaustivePattern (ps : list pattern).

Definition take_head (r : row) : outcome pattern := match r with p :: _ => Ret p | [] => Panic end.

(** validator.rs:41-66 [validate_match], from the simplified patterns of the clauses on. *)
Definition validate_match (fuel : nat) (clauses : list pattern) : outcome match_result :=
  match clauses with
  | [] => Ret (NonExhaustivePattern [PWild])
  | _ =>
    let* r := check fuel (map (fun p => [p]) clauses) in
    match r with
    | CheckOk => Ret MatchOk
    | Useless r => let* p := take_head r in Ret (UselessPattern p)
    | NonExhaustive m => let* ps := map_out take_head m in Ret (NonExhaustivePattern ps)
    end
  end.
