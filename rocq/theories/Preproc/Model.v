(** Model of llrl0/src/preprocess.rs. *)
From Verif.Base Require Import Base.
From Verif.Lexer Require Import Model.
From Verif.Sexp Require Import Model.

(** preprocess.rs:346-374 [Directive] and its [TryFrom<&str>]. *)
Inductive directive := DSymbol | DLet | DLet1 | DFor | DFor1 | DWhen | DNot | DFeature.
Definition directive_of (s : text) : option directive :=
  if text_eqb s (t_ "$symbol") then Some DSymbol
  else if text_eqb s (t_ "$let") then Some DLet
  else if text_eqb s (t_ "$let1") then Some DLet1
  else if text_eqb s (t_ "$for") then Some DFor
  else if text_eqb s (t_ "$for1") then Some DFor1
  else if text_eqb s (t_ "$when") then Some DWhen
  else if text_eqb s (t_ "$not") then Some DNot
  else if text_eqb s (t_ "$feature") then Some DFeature
  else None.

(** preprocess/error.rs:5-11 [Error]. Simplification: the message of a syntax error is the directive
    it describes, the place of a disallowed expansion is the directive or the tail of a list. *)
Inductive place := PLet | PLet1 | PFor | PFor1 | PWhen | PNot | PFeature | PCdr.
Inductive perror :=
| UndefinedMetaVariable (l : srcloc) (name : text)
| ExpansionDisallowed (l : srcloc) (p : place)
| DirectiveSyntax (l : srcloc) (d : directive)
| EmptySymbol (l : srcloc).

Inductive result A := Ok (a : A) | Err (e : perror).
Arguments Ok {A} a.
Arguments Err {A} e.

(** preprocess.rs:55 [State::vars], a [HashMap<String, Sexp>]: an association list without repeated
    keys. *)
Definition vars : Type := list (text * sexp).
Fixpoint vars_get (x : text) (v : vars) : option sexp :=
  match v with
  | [] => None
  | (y, s) :: v => if text_eqb x y then Some s else vars_get x v
  end.
Definition vars_remove (x : text) (v : vars) : vars := filter (fun p => negb (text_eqb x (fst p))) v.
Definition vars_insert (x : text) (s : sexp) (v : vars) : vars := (x, s) :: vars_remove x v.

(** A method with [&mut self] returning a [Result]; [?] is [bind_m]. *)
Definition M (A : Type) : Type := vars -> vars * result A.
Definition ret_m {A} (a : A) : M A := fun v => (v, Ok a).
Definition fail_m {A} (e : perror) : M A := fun v => (v, Err e).
Definition bind_m {A B} (m : M A) (f : A -> M B) : M B :=
  fun v => match m v with (v, Ok a) => f a v | (v, Err e) => (v, Err e) end.
Notation "'let!' x ':=' m 'in' k" := (bind_m m (fun x => k))
  (at level 200, x pattern, m at level 100, k at level 200, right associativity).

(** preprocess.rs:15 [META_PREFIX] and 376-378 [metavar]. *)
Definition is_meta (s : text) : bool := starts_with (t_ "$") s.
Definition metavar (s : text) : bool := is_meta s || text_eqb s (t_ "_").

(** preprocess.rs:321-343 [with_binds]: the earlier values are restored in the order of the binds. *)
Fixpoint bind_all (binds : list (text * sexp)) (v : vars) : vars * list (text * option sexp) :=
  match binds with
  | [] => (v, [])
  | (name, expr) :: binds =>
    if text_eqb name (t_ "_") then bind_all binds v
    else
      let prev := vars_get name v in
      let (v, prevs) := bind_all binds (vars_insert name expr v) in
      (v, (name, prev) :: prevs)
  end.
Fixpoint restore_all (prevs : list (text * option sexp)) (v : vars) : vars :=
  match prevs with
  | [] => v
  | (name, Some prev) :: prevs => restore_all prevs (vars_insert name prev v)
  | (name, None) :: prevs => restore_all prevs (vars_remove name v)
  end.
Definition with_binds {A} (binds : list (text * sexp)) (m : M A) : M A :=
  fun v =>
    let (v, prevs) := bind_all binds v in
    let (v, r) := m v in
    (restore_all prevs v, r).

(** preprocess.rs:231-239 and 257-265, the loops over the elements. *)
Fixpoint for_each (bindss : list (list (text * sexp))) (m : M (list sexp)) : M (list sexp) :=
  match bindss with
  | [] => ret_m []
  | binds :: bindss => let! x := with_binds binds m in let! xs := for_each bindss m in ret_m (x ++ xs)
  end.

(** preprocess.rs:69-77 [expand_one], given the expansion of the expression. *)
Definition one (m : M (list sexp)) (l : srcloc) (p : place) : M sexp :=
  let! x := m in match x with [x] => ret_m x | _ => fail_m (ExpansionDisallowed l p) end.

(** preprocess.rs:135-151, the name built by [$symbol]; [None] is the syntax error, at the location of
    the offending element. *)
Fixpoint symbol_name (ss : list sexp) : text + srcloc :=
  match ss with
  | [] => inl []
  | Sexp l r :: ss =>
    match (match r with RSymbol s | RString s => Some s | RChar c => Some [c] | _ => None end) with
    | None => inr l
    | Some t => match symbol_name ss with inl n => inl (t ++ n) | inr l => inr l end
    end
  end.

(** preprocess.rs:212-218 and 219-225, the variables and the rows of [$for]. *)
Fixpoint for_names (ss : list sexp) : option (list text) :=
  match ss with
  | [] => Some []
  | Sexp _ (RSymbol s) :: ss => if metavar s then option_map (cons s) (for_names ss) else None
  | _ => None
  end.
Fixpoint for_rows (n : nat) (ss : list sexp) : option (list (list sexp)) :=
  match ss with
  | [] => Some []
  | Sexp _ (RList elems) :: ss => if Nat.eqb (List.length elems) n then option_map (cons elems) (for_rows n ss) else None
  | _ => None
  end.

Definition head_directive (s : sexp) : option directive :=
  match s with Sexp _ (RSymbol s) => directive_of s | _ => None end.

Section Expand.
(** preprocess.rs:20-22 [Preprocessor::features]. *)
Variable features : list text.

(** preprocess.rs:59-319 [expand_seq], [expand], [handle_directive] and the directives. *)
Fixpoint expand (s : sexp) : M (list sexp) :=
  let fix expand_seq (ss : list sexp) : M (list sexp) :=
    match ss with
    | [] => ret_m []
    | s :: ss => let! x := expand s in let! xs := expand_seq ss in ret_m (x ++ xs)
    end in
  let fix expand_binds (ss : list sexp) : M (option (list (text * sexp))) :=
    match ss with
    | [] => ret_m (Some [])
    | Sexp _ (RList [Sexp _ (RSymbol name); e]) :: ss =>
      if metavar name then
        let! x := one (expand e) (sloc e) PLet in
        let! r := expand_binds ss in
        ret_m (option_map (cons (name, x)) r)
      else ret_m None
    | _ => ret_m None
    end in
  let 'Sexp l r := s in
  match r with
  | RSymbol sym =>
    if is_meta sym then
      fun v => match vars_get sym v with Some x => (v, Ok [x]) | None => (v, Err (UndefinedMetaVariable l sym)) end
    else ret_m [s]
  | RList (s0 :: args) =>
    match head_directive s0 with
    | None => let! ss := expand_seq (s0 :: args) in ret_m [Sexp l (RList ss)]
    | Some DSymbol =>
      let! ss := expand_seq args in
      match symbol_name ss with
      | inr l' => fail_m (DirectiveSyntax l' DSymbol)
      | inl [] => fail_m (EmptySymbol l)
      | inl name => ret_m [Sexp l (RSymbol name)]
      end
    | Some DLet =>
      match args with
      | Sexp _ (RList binds) :: body =>
        let! binds := expand_binds binds in
        match binds with
        | Some binds => with_binds binds (expand_seq body)
        | None => fail_m (DirectiveSyntax l DLet)
        end
      | _ => fail_m (DirectiveSyntax l DLet)
      end
    | Some DLet1 =>
      match args with
      | Sexp _ (RSymbol name) :: e :: body =>
        if metavar name then
          let! x := one (expand e) (sloc e) PLet1 in
          with_binds [(name, x)] (expand_seq body)
        else fail_m (DirectiveSyntax l DLet1)
      | _ => fail_m (DirectiveSyntax l DLet1)
      end
    | Some DFor =>
      match args with
      | Sexp _ (RList names) :: e :: body =>
        let! x := one (expand e) (sloc e) PFor in
        match rep x with
        | RList elemss =>
          match for_names names with
          | Some names =>
            match for_rows (List.length names) elemss with
            | Some rows => for_each (map (combine names) rows) (expand_seq body)
            | None => fail_m (DirectiveSyntax l DFor)
            end
          | None => fail_m (DirectiveSyntax l DFor)
          end
        | _ => fail_m (DirectiveSyntax l DFor)
        end
      | _ => fail_m (DirectiveSyntax l DFor)
      end
    | Some DFor1 =>
      match args with
      | Sexp _ (RSymbol name) :: e :: body =>
        if metavar name then
          let! x := one (expand e) (sloc e) PFor1 in
          match rep x with
          | RList elems => for_each (map (fun elem => [(name, elem)]) elems) (expand_seq body)
          | _ => fail_m (DirectiveSyntax l DFor1)
          end
        else fail_m (DirectiveSyntax l DFor1)
      | _ => fail_m (DirectiveSyntax l DFor1)
      end
    | Some DWhen =>
      match args with
      | e :: body =>
        let! x := one (expand e) (sloc e) PWhen in
        match rep x with
        | RBool b => if b then expand_seq body else ret_m []
        | _ => fail_m (DirectiveSyntax l DWhen)
        end
      | [] => fail_m (DirectiveSyntax l DWhen)
      end
    | Some DNot =>
      match args with
      | [e] =>
        let! x := one (expand e) (sloc e) PNot in
        match rep x with
        | RBool b => ret_m [Sexp l (RBool (negb b))]
        | _ => fail_m (DirectiveSyntax l DNot)
        end
      | _ => fail_m (DirectiveSyntax l DNot)
      end
    | Some DFeature =>
      match args with
      | [e] =>
        let! x := one (expand e) (sloc e) PFeature in
        match rep x with
        | RString s => ret_m [Sexp l (RBool (existsb (text_eqb s) features))]
        | _ => fail_m (DirectiveSyntax l DFeature)
        end
      | _ => fail_m (DirectiveSyntax l DFeature)
      end
    end
  | RListLike h init tail =>
    let! x := expand h in
    let! xs := expand_seq init in
    let! t := one (expand tail) (sloc tail) PCdr in
    ret_m [fold_right (fun b a => Sexp l (rep_cons b a)) t (x ++ xs)]
  | _ => ret_m [s]
  end.

(** preprocess.rs:59-67 [expand_seq]. *)
Fixpoint expand_seq (ss : list sexp) : M (list sexp) :=
  match ss with
  | [] => ret_m []
  | s :: ss => let! x := expand s in let! xs := expand_seq ss in ret_m (x ++ xs)
  end.

(** preprocess.rs:162-174, the binds of [$let]. *)
Fixpoint expand_binds (ss : list sexp) : M (option (list (text * sexp))) :=
  match ss with
  | [] => ret_m (Some [])
  | Sexp _ (RList [Sexp _ (RSymbol name); e]) :: ss =>
    if metavar name then
      let! x := one (expand e) (sloc e) PLet in
      let! r := expand_binds ss in
      ret_m (option_map (cons (name, x)) r)
    else ret_m None
  | _ => ret_m None
  end.

(** preprocess.rs:35-43 [Preprocessor::run]. *)
Definition run (ss : list sexp) : result (list sexp) := snd (expand_seq ss []).
End Expand.
