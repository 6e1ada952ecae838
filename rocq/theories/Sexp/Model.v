(** Model of llrl0/src/sexp.rs: S-expressions, their constructors and their printed form. *)
From Verif.Base Require Import Base.
From Verif.Str Require Import Model.
From Verif.Lexer Require Import Model.

(** source_loc.rs:14-18 [SourceLocation]. Simplification: an issued source location is represented
    by the range it was issued for ([SourceLocator::issue] interns the range, source_loc.rs:71-77;
    interning is modelled separately in Verif.Intern). *)
Definition srcloc : Type := location * location.

(** sexp.rs:38-43 [Sexp] and sexp.rs:174-185 [SexpRep]. Simplifications: the value of a floating
    point number is represented by the text of its literal; a native value by its printed text. *)
Inductive sexp := Sexp (l : srcloc) (r : srep)
with srep :=
| RInteger (signed : bool) (v : N)
| RFPNumber (s : text)
| RSymbol (s : text)
| RString (s : text)
| RChar (c : char)
| RList (l : list sexp)
| RListLike (h : sexp) (init : list sexp) (last : sexp)
| RBool (b : bool)
| RNative (shown : text).

Definition rep (s : sexp) : srep := let 'Sexp _ r := s in r.
Definition sloc (s : sexp) : srcloc := let 'Sexp l _ := s in l.

(** sexp.rs:164-172 *)
Definition QUOTE := t_ "quote".
Definition QUASIQUOTE := t_ "quasiquote".
Definition UNQUOTE := t_ "unquote".
Definition UNQUOTE_SPLICING := t_ "unquote-splicing".
Definition LOAD := t_ "load".
Definition CAPTURE := t_ "capture".
Definition TRY_QUESTION := t_ "try?".
Definition TRY_EXCLAMATION := t_ "try!".
Definition ANNOTATE := t_ "annotate".

(** sexp.rs:188-194 [signed] (value as u64) and [unsigned]. *)
Definition rep_signed (z : Z) : srep := RInteger true (Z.to_N (z mod 2 ^ 64)).
Definition rep_unsigned (n : N) : srep := RInteger false n.

(** sexp.rs:208-225 *)
Definition rep_list_like (head : sexp) (init : list sexp) (last : sexp) : srep :=
  match rep last with
  | RList l => RList (head :: init ++ l)
  | RListLike prev_head prev_init tail => RListLike head (init ++ prev_head :: prev_init) tail
  | _ => RListLike head init last
  end.

(** sexp.rs:227-240 *)
Definition rep_cons (car cdr : sexp) : srep :=
  match rep cdr with
  | RList l => RList (car :: l)
  | RListLike prev_head init tail => RListLike car (prev_head :: init) tail
  | _ => rep_list_like car [] cdr
  end.

(** sexp.rs:270-282 with sexp.rs:129-139 *)
Definition try_question (l : srcloc) (s : sexp) : sexp := Sexp l (RList [Sexp l (RSymbol TRY_QUESTION); s]).
Definition try_exclamation (l : srcloc) (s : sexp) : sexp :=
  Sexp l (RList [Sexp l (RSymbol TRY_EXCLAMATION); s]).
Definition annotate (l : srcloc) (s : sexp) (ss : list sexp) : sexp :=
  Sexp l (RList ([Sexp l (RSymbol ANNOTATE); s] ++ ss)).

(** Rust [Display] for unsigned and signed integers. *)
Fixpoint show_loop (fuel : nat) (n : N) : text :=
  match fuel with
  | O => []
  | S fuel => if n <? 10 then [48 + n] else show_loop fuel (n / 10) ++ [48 + n mod 10]
  end%N.
Definition show_u64 (n : N) : text := show_loop (S (N.size_nat n)) n.
Definition show_i64 (z : Z) : text :=
  if (z <? 0)%Z then c_ "-" :: show_u64 (Z.to_N (- z)) else show_u64 (Z.to_N z).

(** [v as i64] *)
Definition as_i64 (v : N) : Z := if (v <? 2 ^ 63)%N then Z.of_N v else (Z.of_N v - 2 ^ 64)%Z.

Definition is_list (r : srep) : bool := match r with RList _ => true | _ => false end.

(** sexp.rs:298-320, the sugared forms: what to print before the operand, what after, or annotate. *)
Inductive sugar := Prefix (t : text) (s : sexp) | Postfix (s : sexp) (t : text)
| Annotated (s : sexp) (ss : list sexp) | NoSugar.

Definition sugar_of (sym : text) (args : list sexp) : sugar :=
  match args with
  | [s] =>
    if text_eqb sym QUOTE then Prefix (t_ "'") s
    else if text_eqb sym QUASIQUOTE then Prefix (t_ "`") s
    else if text_eqb sym UNQUOTE then Prefix (t_ ",") s
    else if text_eqb sym UNQUOTE_SPLICING then Prefix (t_ ",@") s
    else if text_eqb sym LOAD then Prefix (t_ "~") s
    else if text_eqb sym CAPTURE then Prefix (t_ "\") s
    else if text_eqb sym TRY_QUESTION && is_list (rep s) then Postfix s (t_ "?")
    else if text_eqb sym TRY_EXCLAMATION && is_list (rep s) then Postfix s (t_ "!")
    else if text_eqb sym ANNOTATE then Annotated s []
    else NoSugar
  | s :: ss => if text_eqb sym ANNOTATE then Annotated s ss else NoSugar
  | [] => NoSugar
  end.

Definition sugar_rep (l : list sexp) : sugar :=
  match l with
  | Sexp _ (RSymbol sym) :: args => sugar_of sym args
  | _ => NoSugar
  end.

Section Print.
(** Rust [Display] for f64: not modelled. *)
Variable show_f64 : text -> text.

(** sexp.rs:308-316, 331-341: elements separated by one space. *)
Definition join (l : list text) : text :=
  match l with
  | [] => []
  | t :: l => t ++ flat_map (fun t => t_ " " ++ t) l
  end.

(** sexp.rs:291-354 [Display for SexpRep] (and 146-150 for [Sexp]). The operands of the sugared forms
    are elements of the list, so the printed texts of all elements are computed first and the sugar
    picks them by position. *)
Fixpoint print (s : sexp) : outcome text :=
  let 'Sexp _ r := s in
  let fix print_all (l : list sexp) : outcome (list text) :=
    match l with
    | [] => Ret []
    | s :: l => let* t := print s in let* ts := print_all l in Ret (t :: ts)
    end in
  match r with
  | RInteger true v => Ret (show_i64 (as_i64 v))
  | RInteger false v => Ret (show_u64 v)
  | RFPNumber s => Ret (show_f64 s)
  | RSymbol s => Ret s
  | RString s => let* e := escape s in Ret (t_ """" ++ e ++ t_ """")
  | RChar c => let* e := escape [c] in Ret (t_ "#\" ++ e)
  | RList l =>
    let* ts := print_all l in
    match sugar_rep l, ts with
    | Prefix t _, [_; x] => Ret (t ++ x)
    | Postfix _ t, [_; x] => Ret (x ++ t)
    | Annotated _ _, _ :: x :: xs => Ret (x ++ t_ " {" ++ join xs ++ t_ "}")
    | _, _ => Ret (t_ "(" ++ join ts ++ t_ ")")
    end
  | RListLike h init last =>
    let* th := print h in
    let* ti := print_all init in
    let* tl := print last in
    Ret (t_ "(" ++ th ++ flat_map (fun t => t_ " " ++ t) ti ++ t_ " . " ++ tl ++ t_ ")")
  | RBool true => Ret (t_ "#t")
  | RBool false => Ret (t_ "#f")
  | RNative shown => Ret shown
  end.

(** sexp.rs:26-36 [Display for Ss]: one S-expression per line. *)
Fixpoint print_ss (ss : list sexp) : outcome text :=
  match ss with
  | [] => Ret []
  | [s] => print s
  | s :: ss => let* t := print s in let* ts := print_ss ss in Ret (t ++ [c_lf] ++ ts)
  end.
End Print.
