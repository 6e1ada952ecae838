(** Model of llrl0/src/parser.rs, parser/primitive.rs, parser/grammar.rs and parser/result.rs. *)
From Verif.Base Require Import Base.
From Verif.Lexer Require Import Model.
From Verif.Sexp Require Import Model.

(** parser/error.rs:3-11 *)
Record perror := { unexpected : token; expected : text }.

(** parser/result.rs:4 *)
Inductive presult (A : Type) := POk (a : A) | PErr (e : perror).
Arguments POk {A} a.
Arguments PErr {A} e.

(** parser.rs:26-35 [Parser]. The source locator is not part of the state: see [srcloc]. The
    [Peekable] iterator is the list of remaining tokens. *)
Record pstate := { toks : list token; latest_token_end : location; inner_errors : list perror }.

Definition P (A : Type) := pstate -> outcome (presult A * pstate).

(** The [?] operator. *)
Definition pbind {A B} (m : P A) (k : A -> P B) : P B := fun p =>
  let* (r, p) := m p in
  match r with
  | POk a => k a p
  | PErr e => Ret (PErr e, p)
  end.
Definition pret {A} (a : A) : P A := fun p => Ret (POk a, p).
Notation "x <- m ;; k" := (pbind m (fun x => k)) (at level 100, m at level 99, right associativity).

(** parser.rs:54-63 [peek_token]: ambient tokens are dropped, the next token stays. *)
Fixpoint drop_ambient (l : list token) : list token :=
  match l with
  | t :: l' => if is_ambient (trep t) then drop_ambient l' else l
  | [] => []
  end.

Definition with_toks (l : list token) (p : pstate) : pstate :=
  {| toks := l; latest_token_end := latest_token_end p; inner_errors := inner_errors p |}.

Definition peek_token (p : pstate) : option token * pstate :=
  let l := drop_ambient (toks p) in (hd_error l, with_toks l p).

(** parser.rs:66-77 [next_token] *)
Fixpoint next_token (l : list token) (p : pstate) : option token * pstate :=
  match l with
  | t :: l' =>
    if is_ambient (trep t) then next_token l' p
    else (Some t, {| toks := l'; latest_token_end := tend t; inner_errors := inner_errors p |})
  | [] => (None, with_toks [] p)
  end.

(** parser.rs:80-84 *)
Definition next_token_start (p : pstate) : location * pstate :=
  let '(t, p) := peek_token p in
  match t with
  | Some t => (tstart t, p)
  | None => (latest_token_end p, p)
  end.

(** parser.rs:96-108 [capture_source_location] with constructor [mk]. *)
Definition capture {A B} (body : P A) (mk : srcloc -> A -> B) : P B := fun p =>
  let '(start, p) := next_token_start p in
  (x <- body ;; fun p => pret (mk (start, latest_token_end p) x) p) p.

(** parser.rs:165-171 *)
Definition error_expected {A} (msg : text) : P A := fun p =>
  let '(t, p) := peek_token p in
  let t := match t with
           | Some t => t
           | None => {| tstart := latest_token_end p; tend := latest_token_end p; trep := TEof |}
           end in
  Ret (PErr {| unexpected := t; expected := msg |}, p).

(** parser.rs:115-120 *)
Definition should_parse (leading : tokenrep -> bool) (p : pstate) : bool * pstate :=
  let '(t, p) := peek_token p in
  (match t with Some t => leading (trep t) | None => false end, p).

(** parser.rs:122-128 *)
Definition try_parse {A} (leading : tokenrep -> bool) (m : P A) : P (option A) := fun p =>
  let '(b, p) := should_parse leading p in
  if b then (x <- m ;; pret (Some x)) p else pret None p.

(** primitive.rs:125-152, the nonterminal of one kind of token: [f] gives the value of the token. *)
Definition leading_of {A} (f : tokenrep -> option A) (r : tokenrep) : bool :=
  match f r with Some _ => true | None => false end.

Definition prim {A} (f : tokenrep -> option A) (msg : text) : P A := fun p =>
  let '(t, p) := peek_token p in
  match t with
  | Some t =>
    match f (trep t) with
    | Some _ =>
      let '(t, p) := next_token (toks p) p in
      match t with
      | Some t => match f (trep t) with Some a => pret a p | None => Panic end
      | None => Panic
      end
    | None => error_expected msg p
    end
  | None => error_expected msg p
  end.

Definition try_prim {A} (f : tokenrep -> option A) (msg : text) : P (option A) :=
  try_parse (leading_of f) (prim f msg).

(** primitive.rs:154-179 *)
Definition f_signed r := match r with TSigned z => Some z | _ => None end.
Definition f_unsigned r := match r with TUnsigned n => Some n | _ => None end.
Definition f_fpnumber r := match r with TFPNumber s => Some s | _ => None end.
Definition f_symbol r := match r with TSymbol s => Some s | _ => None end.
Definition f_string r := match r with TString s => Some s | _ => None end.
Definition f_char r := match r with TChar c => Some c | _ => None end.
Definition f_dot r := match r with TDot => Some tt | _ => None end.
Definition f_question r := match r with TQuestion => Some tt | _ => None end.
Definition f_exclamation r := match r with TExclamation => Some tt | _ => None end.
Definition f_lparen r := match r with TLParen => Some tt | _ => None end.
Definition f_rparen r := match r with TRParen => Some tt | _ => None end.
Definition f_lbrack r := match r with TLBrack => Some tt | _ => None end.
Definition f_rbrack r := match r with TRBrack => Some tt | _ => None end.
Definition f_lbrace r := match r with TLBrace => Some tt | _ => None end.
Definition f_rbrace r := match r with TRBrace => Some tt | _ => None end.
Definition f_quote r := match r with TQuote => Some tt | _ => None end.
Definition f_backquote r := match r with TBackquote => Some tt | _ => None end.
Definition f_backslash r := match r with TBackslash => Some tt | _ => None end.
Definition f_tilde r := match r with TTilde => Some tt | _ => None end.
Definition f_comma r := match r with TComma => Some tt | _ => None end.
Definition f_comma_at r := match r with TCommaAt => Some tt | _ => None end.
Definition f_at r := match r with TAt => Some tt | _ => None end.
Definition f_true r := match r with TTrue => Some tt | _ => None end.
Definition f_false r := match r with TFalse => Some tt | _ => None end.

(** primitive.rs:5-16 [Eof] *)
Definition parse_eof : P unit := fun p =>
  let '(t, p) := peek_token p in
  match t with
  | None => pret tt p
  | Some _ => error_expected (t_ "eof") p
  end.

(** grammar.rs:88-101 *)
Definition sexp_leading (r : tokenrep) : bool :=
  negb match r with
       | TDot | TAt | TQuestion | TExclamation | TRParen | TRBrack | TRBrace => true
       | _ => false
       end.

(** grammar.rs:103-112 *)
Definition sexp_following (r : tokenrep) : bool :=
  negb (is_ambient r) && negb (is_error r) &&
  negb match r with TLBrace | TQuestion | TExclamation => true | _ => false end.

(** grammar.rs:114-202, 270-290: the atoms. *)
Definition sexp_integer : P srep :=
  o <- try_prim f_signed (t_ "signed integer") ;;
  match o with
  | Some v => pret (rep_signed v)
  | None =>
    o <- try_prim f_unsigned (t_ "unsigned integer") ;;
    match o with
    | Some v => pret (rep_unsigned v)
    | None => error_expected (t_ "integer")
    end
  end.
Definition integer_leading r := leading_of f_signed r || leading_of f_unsigned r.
Definition sexp_fpnumber : P srep := v <- prim f_fpnumber (t_ "number") ;; pret (RFPNumber v).
Definition sexp_symbol : P srep := v <- prim f_symbol (t_ "symbol") ;; pret (RSymbol v).
Definition sexp_string : P srep := v <- prim f_string (t_ "string") ;; pret (RString v).
Definition sexp_char : P srep := v <- prim f_char (t_ "char") ;; pret (RChar v).
Definition sexp_bool : P srep :=
  o <- try_prim f_true (t_ "#t") ;;
  match o with
  | Some _ => pret (RBool true)
  | None =>
    o <- try_prim f_false (t_ "#f") ;;
    match o with
    | Some _ => pret (RBool false)
    | None => error_expected (t_ "boolean")
    end
  end.
Definition bool_leading r := leading_of f_true r || leading_of f_false r.

(** parser.rs:139-144, the recovery loop: skip tokens that cannot follow. *)
Fixpoint skip (l : list token) (p : pstate) : pstate :=
  match l with
  | t :: l' =>
    if is_ambient (trep t) then skip l' (with_toks l' p)
    else if sexp_following (trep t) then with_toks l p
    else skip l' {| toks := l'; latest_token_end := tend t; inner_errors := inner_errors p |}
  | [] => with_toks [] p
  end.

(** parser.rs:134-148 [parse_with_error_swallowed] *)
Definition swallow {A} (m : P A) : pstate -> outcome (option A * pstate) := fun p =>
  let* (r, p) := m p in
  match r with
  | POk a => Ret (Some a, p)
  | PErr e =>
    let p := {| toks := toks p; latest_token_end := latest_token_end p;
                inner_errors := inner_errors p ++ [e] |} in
    Ret (None, skip (toks p) p)
  end.

(** grammar.rs:204-224 [SexpListLike<L, R>] with body [body]. *)
Definition list_between (body : P srep) (l r : tokenrep -> option unit) (ml mr : text) : P srep :=
  _ <- prim l ml ;; result <- body ;; _ <- prim r mr ;; pret result.

(** grammar.rs:250-268, 292-392 [SexpQuoted<Q>]. *)
Definition quoted (sexp : P sexp) (f : tokenrep -> option unit) (m : text) (sym : text) : P srep :=
  q <- capture (_ <- prim f m ;; pret (RSymbol sym)) Sexp ;;
  s <- sexp ;;
  pret (RList [q; s]).

(** grammar.rs:28-60: the chain of alternatives. *)
Fixpoint choose {A} (alts : list ((tokenrep -> bool) * P A)) (otherwise : P A) : P A :=
  match alts with
  | (leading, m) :: alts =>
    o <- try_parse leading m ;;
    match o with
    | Some x => pret x
    | None => choose alts otherwise
    end
  | [] => otherwise
  end.

Definition sexp_alternatives (body : P srep) (sexp : P sexp) : list ((tokenrep -> bool) * P srep) :=
  [ (integer_leading, sexp_integer);
    (leading_of f_fpnumber, sexp_fpnumber);
    (leading_of f_symbol, sexp_symbol);
    (leading_of f_string, sexp_string);
    (leading_of f_char, sexp_char);
    (leading_of f_lparen, list_between body f_lparen f_rparen (t_ "(") (t_ ")"));
    (leading_of f_lbrack, list_between body f_lbrack f_rbrack (t_ "[") (t_ "]"));
    (leading_of f_quote, quoted sexp f_quote (t_ "'") QUOTE);
    (leading_of f_backquote, quoted sexp f_backquote (t_ "`") QUASIQUOTE);
    (leading_of f_comma, quoted sexp f_comma (t_ ",") UNQUOTE);
    (leading_of f_comma_at, quoted sexp f_comma_at (t_ ",@") UNQUOTE_SPLICING);
    (leading_of f_backslash, quoted sexp f_backslash (t_ "\") CAPTURE);
    (leading_of f_tilde, quoted sexp f_tilde (t_ "~") LOAD);
    (bool_leading, sexp_bool) ].

(** The mutually recursive nonterminals; [fuel] bounds the depth of the recursion. *)
Fixpoint parse_sexp (fuel : nat) : P sexp := fun p =>
  (** grammar.rs:24-85 *)
  match fuel with
  | O => OutOfFuel
  | S fuel =>
    let '(start, p) := next_token_start p in
    (s <- capture (choose (sexp_alternatives (parse_body fuel) (parse_sexp fuel))
                          (error_expected (t_ "S-expression"))) Sexp ;;
     parse_postfix fuel start s) p
  end

with parse_postfix (fuel : nat) (start : location) (s : sexp) : P sexp := fun p =>
  (** grammar.rs:64-82, the postfix loop *)
  match fuel with
  | O => OutOfFuel
  | S fuel =>
    (o <- try_prim f_question (t_ "?") ;;
     match o with
     | Some _ => fun p => parse_postfix fuel start (try_question (start, latest_token_end p) s) p
     | None =>
       o <- try_prim f_exclamation (t_ "!") ;;
       match o with
       | Some _ => fun p => parse_postfix fuel start (try_exclamation (start, latest_token_end p) s) p
       | None =>
         o <- try_prim f_lbrace (t_ "{") ;;
         match o with
         | Some _ =>
           ss <- parse_seq fuel [] ;;
           _ <- prim f_rbrace (t_ "}") ;;
           fun p => parse_postfix fuel start (annotate (start, latest_token_end p) s ss) p
         | None => pret s
         end
       end
     end) p
  end

with parse_seq (fuel : nat) (r : list sexp) : P (list sexp) := fun p =>
  (** primitive.rs:105-123 [RecoverableSeq<Sexp>]; the separator [()] parses nothing, and is
      leading for every token (primitive.rs:18-30). *)
  match fuel with
  | O => OutOfFuel
  | S fuel =>
    let '(b, p) := should_parse sexp_leading p in
    if b then
      let* (o, p) := swallow (parse_sexp fuel) p in
      let r := match o with Some a => r ++ [a] | None => r end in
      (o <- try_parse (fun _ => true) (pret tt) ;;
       match o with
       | Some _ => parse_seq fuel r
       | None => pret r
       end) p
    else pret r p
  end

with parse_body (fuel : nat) : P srep := fun p =>
  (** grammar.rs:231-247 [SexpListLikeBody] *)
  match fuel with
  | O => OutOfFuel
  | S fuel =>
    (items <- parse_seq fuel [] ;;
     o <- try_prim f_at (t_ "@") ;;
     match o with
     | Some _ =>
       last <- capture (parse_body fuel) Sexp ;;
       pret (RList (items ++ [last]))
     | None =>
       o <- try_prim f_dot (t_ ".") ;;
       match o with
       | Some _ =>
         last <- parse_sexp fuel ;;
         match items with
         | [] => pret (rep last)
         | head :: items => pret (rep_list_like head items last)
         end
       | None => pret (RList items)
       end
     end) p
  end.

(** grammar.rs:6-19: the nonterminal [Ss]. *)
Definition parse_ss (fuel : nat) : P (srcloc * list sexp) :=
  capture (ss <- parse_seq fuel [] ;; _ <- parse_eof ;; pret ss) (fun l ss => (l, ss)).

(** parser.rs:17-24 [parse::<Ss>]: final result and collected errors. The fuel is enough for any
    token sequence (see the theorems). *)
Definition parse (tokens : list token) : outcome (presult (srcloc * list sexp) * list perror) :=
  let p := {| toks := tokens; latest_token_end := location_new; inner_errors := [] |} in
  let* (r, p) := parse_ss (3 * List.length tokens + 3) p in
  Ret (r, inner_errors p).

(** parser/result.rs:14-23 [aggregate_errors] *)
Definition aggregate_errors {A} (r : presult A * list perror) : presult A :=
  match r with
  | (POk v, []) => POk v
  | (POk _, e :: _) => PErr e
  | (PErr e, _) => PErr e
  end.
