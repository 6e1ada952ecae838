(** Model of llrl0/src/lexer.rs, token.rs and source_loc/location.rs. *)
From Verif.Base Require Import Base.
From Verif.Str Require Import Model.

(** source_loc/location.rs:3-11. Simplification: [u32] fields are unbounded. *)
Record location := { offset : N; line : N; character : N }.

(** location.rs:14-16 *)
Definition location_new : location := {| offset := 0; line := 0; character := 0 |}.

(** Rust [str::rsplit('\n')] collected (location.rs:27): the pieces between newlines, last piece
    first. [split_newline] gives them first piece first; it is never empty. *)
Fixpoint split_newline (t : text) : text * list text :=
  match t with
  | [] => ([], [])
  | c :: t' =>
    let '(p, ps) := split_newline t' in
    if (c =? c_lf)%N then ([], p :: ps) else (c :: p, ps)
  end.

Definition rsplit_newline (t : text) : list text :=
  let '(p, ps) := split_newline t in rev (p :: ps).

(** location.rs:24-38 [Location::eat]; [lines.next().unwrap()] panics on an empty split. *)
Definition location_eat (l : location) (sub : text) : outcome location :=
  match rsplit_newline sub with
  | [] => Panic
  | last_line :: lines =>
    match List.length lines with
    | O => Ret {| offset := offset l + blen sub; line := line l;
                  character := character l + blen last_line |}
    | n => Ret {| offset := offset l + blen sub; line := line l + N.of_nat n;
                  character := blen last_line |}
    end
  end%N.

(** token.rs:19-55 [TokenRep]. Simplification: the value of a floating point literal is represented
    by its text (the [f64] it denotes is not modelled). *)
Inductive tokenrep :=
| TSigned (z : Z)
| TUnsigned (n : N)
| TFPNumber (s : text)
| TSymbol (s : text)
| TString (s : text)
| TChar (c : char)
| TDot | TQuestion | TExclamation
| TLParen | TRParen | TLBrack | TRBrack | TLBrace | TRBrace
| TQuote | TBackquote | TBackslash | TTilde | TComma | TCommaAt | TAt | TTrue | TFalse
| TWhitespaces | TLineComment
| TUnterminatedString | TUnterminatedChar | TUnknownCharacter
| TEof.

(** token.rs:6-10 [Token] with source_loc/location_range.rs:5-11 [LocationRange]. *)
Record token := { tstart : location; tend : location; trep : tokenrep }.

(** token.rs:58-60 *)
Definition is_ambient (r : tokenrep) : bool :=
  match r with TWhitespaces | TLineComment => true | _ => false end.

(** token.rs:62-67 *)
Definition is_error (r : tokenrep) : bool :=
  match r with TUnterminatedString | TUnterminatedChar | TUnknownCharacter => true | _ => false end.

(** ** Number syntax: Rust [str::parse] for u64, i64, f64 (used at lexer.rs:38-43). *)

Definition is_digit (c : char) : bool := ((48 <=? c) && (c <=? 57))%N.

(** Value of a non-empty text of decimal digits. *)
Fixpoint digits_value (acc : N) (t : text) : option N :=
  match t with
  | [] => Some acc
  | c :: t => if is_digit c then digits_value (10 * acc + (c - 48)) t else None
  end%N.

Definition parse_digits (t : text) : option N :=
  match t with [] => None | _ => digits_value 0 t end.

(** [u64::from_str]: optional [+], decimal digits, no overflow. *)
Definition parse_u64 (t : text) : option N :=
  let body := match t with c :: t' => if (c =? c_ "+")%N then t' else t | [] => t end in
  match parse_digits body with
  | Some n => if (n <? 2 ^ 64)%N then Some n else None
  | None => None
  end.

(** [i64::from_str]: optional [+] or [-], decimal digits, no overflow. *)
Definition parse_i64 (t : text) : option Z :=
  let '(neg, body) :=
    match t with
    | c :: t' =>
      if (c =? c_ "+")%N then (false, t') else if (c =? c_ "-")%N then (true, t') else (false, t)
    | [] => (false, t)
    end in
  match parse_digits body with
  | Some n =>
    let z := if neg then (- Z.of_N n)%Z else Z.of_N n in
    if ((- 2 ^ 63 <=? z) && (z <? 2 ^ 63))%Z then Some z else None
  | None => None
  end.

Definition lower (c : char) : char := (if (65 <=? c) && (c <=? 90) then c + 32 else c)%N.

Fixpoint span (f : char -> bool) (t : text) : text * text :=
  match t with
  | [] => ([], [])
  | c :: t' => if f c then let '(a, b) := span f t' in (c :: a, b) else ([], t)
  end.

(** Exponent part of [f64::from_str]: empty, or [e]/[E], optional sign, digits. *)
Definition is_exponent (t : text) : bool :=
  match t with
  | [] => true
  | c :: t' =>
    if ((c =? c_ "e") || (c =? c_ "E"))%N then
      let t'' := match t' with
                 | s :: r => if ((s =? c_ "+") || (s =? c_ "-"))%N then r else t'
                 | [] => t'
                 end in
      match t'' with [] => false | _ => forallb is_digit t'' end
    else false
  end.

(** Whether [f64::from_str] accepts the text (grammar documented for [f64::from_str]): optional
    sign, then inf / infinity / nan (any case) or digits with an optional fraction and exponent;
    the mantissa needs at least one digit. *)
Definition accepts_f64 (t : text) : bool :=
  let body := match t with
              | c :: t' => if ((c =? c_ "+") || (c =? c_ "-"))%N then t' else t
              | [] => t
              end in
  let l := map lower body in
  if text_eqb l (t_ "inf") || text_eqb l (t_ "infinity") || text_eqb l (t_ "nan") then true
  else
    let '(ds, r) := span is_digit body in
    match r with
    | c :: r' =>
      if (c =? c_ ".")%N then
        let '(fs, r'') := span is_digit r' in
        negb (match ds, fs with [], [] => true | _, _ => false end) && is_exponent r''
      else negb (match ds with [] => true | _ => false end) && is_exponent r
    | [] => negb (match ds with [] => true | _ => false end)
    end.

(** ** The scanner. *)

(** lexer.rs:111-125 [Eat]: remaining text and number of consumed bytes (the reference to the
    lexer is kept by [next]). *)
Record eat := { current : text; consumed_len : N }.

Definition M (A : Type) := eat -> outcome (A * eat).

(** lexer.rs:143-151 [Eat::eat]; slicing [&self.current[len..]] panics off a character boundary. *)
Definition eat_len (len : N) : M bool := fun e =>
  if (negb (len =? 0) && (len <=? blen (current e)))%N then
    match split_at_byte len (current e) with
    | Some (_, rest) => Ret (true, {| current := rest; consumed_len := consumed_len e + len |}%N)
    | None => Panic
    end
  else Ret (false, e).

(** lexer.rs:153-159 *)
Definition eat_exact (s : text) : M bool := fun e =>
  if starts_with s (current e) then eat_len (blen s) e else Ret (false, e).

(** lexer.rs:161-166 *)
Definition eat_if (f : char -> bool) : M bool := fun e =>
  match current e with
  | c :: _ => if f c then eat_len (len_utf8 c) e else Ret (false, e)
  | [] => Ret (false, e)
  end.

(** lexer.rs:168-179: [next_start] accumulates the byte length of the matching prefix. *)
Fixpoint while_len (f : char -> bool) (t : text) : N :=
  match t with
  | c :: t' => if f c then (len_utf8 c + while_len f t')%N else 0%N
  | [] => 0%N
  end.

Definition eat_while (f : char -> bool) : M bool := fun e =>
  eat_len (while_len f (current e)) e.

(** lexer.rs:181-183 *)
Definition is_space (c : char) : bool :=
  ((c =? c_space) || (c =? c_tab) || (c =? c_cr) || (c =? c_lf))%N.
Definition eat_whitespaces : M bool := eat_while is_space.

(** lexer.rs:185-193 *)
Definition eat_line_comment : M bool := fun e =>
  let* (b, e) := eat_exact (t_ ";") e in
  if b then
    let* (_, e) := eat_while (fun c => negb (c =? c_lf)%N) e in
    let* (_, e) := eat_exact [c_lf] e in
    Ret (true, e)
  else Ret (false, e).

(** lexer.rs:195-203, the character class of identifiers. *)
Definition is_id_char (c : char) : bool :=
  (existsb (fun d => (c =? d)%N) (t_ "!$%&*+-./:<=>?^_|")
   || is_digit c
   || ((65 <=? c) && (c <=? 90))
   || ((97 <=? c) && (c <=? 122)))%N.
Definition eat_id : M bool := eat_while is_id_char.

Definition can_unescape (c : char) : bool :=
  match unescape_char c with Some _ => true | None => false end.

(** lexer.rs:207-214, the loop of [eat_string]; [true] is [return Some(true)], [false] the end of the
    loop. *)
Fixpoint eat_string_loop (fuel : nat) : M bool := fun e =>
  match fuel with
  | O => OutOfFuel
  | S fuel =>
    let* (_, e) := eat_while (fun c => negb ((c =? c_quote) || (c =? c_backslash))%N) e in
    let* (b, e) := eat_exact [c_quote] e in
    if b then Ret (true, e)
    else
      let* (b, e) := eat_len (len_utf8 c_backslash) e in
      if b then
        let* (b, e) := eat_if can_unescape e in
        if b then eat_string_loop fuel e else Ret (false, e)
      else Ret (false, e)
  end.

(** lexer.rs:205-218 *)
Definition eat_string : M (option bool) := fun e =>
  let* (b, e) := eat_exact [c_quote] e in
  if b then
    let* (b, e) := eat_string_loop (S (List.length (current e))) e in
    Ret (Some b, e)
  else Ret (None, e).

(** lexer.rs:220-230 *)
Definition eat_char : M (option bool) := fun e =>
  let* (b, e) := eat_exact (t_ "#\") e in
  if b then
    let* (b, e) := eat_if (fun c => negb (c =? c_backslash)%N) e in
    if b then Ret (Some true, e)
    else
      let* (b, e) := eat_len (len_utf8 c_backslash) e in
      if b then
        let* (b, e) := eat_if can_unescape e in
        Ret (Some b, e)
      else Ret (Some false, e)
  else Ret (None, e).

(** lexer.rs:10-14 [Lexer]. *)
Record lexer := { input : text; loc : location }.

(** lexer.rs:131-137 [produce_with]: the closure receives the consumed text. *)
Definition produce_with (l : lexer) (e : eat) (f : text -> outcome tokenrep)
  : outcome (token * lexer) :=
  match split_at_byte (consumed_len e) (input l) with
  | None => Panic
  | Some (consumed, rest) =>
    let* loc' := location_eat (loc l) consumed in
    let* rep := f consumed in
    Ret ({| tstart := loc l; tend := loc'; trep := rep |}, {| input := rest; loc := loc' |})
  end.

(** lexer.rs:127-129 [produce] *)
Definition produce (l : lexer) (e : eat) (r : tokenrep) : outcome (token * lexer) :=
  produce_with l e (fun _ => Ret r).

(** lexer.rs:37-53, classification of an identifier-like text. *)
Definition classify_id (s : text) : tokenrep :=
  match parse_u64 s with
  | Some n => TUnsigned n
  | None =>
    match parse_i64 s with
    | Some z => TSigned z
    | None =>
      if accepts_f64 s then TFPNumber s
      else if text_eqb s (t_ ".") then TDot
      else if text_eqb s (t_ "?") then TQuestion
      else if text_eqb s (t_ "!") then TExclamation
      else TSymbol s
    end
  end.

(** lexer.rs:55-63: slice off the quotes and unescape; [unwrap] panics on [None]; the slice
    [&s[qlen..s.len() - qlen]] panics when the bounds are off a boundary or crossing. *)
Definition string_token (terminated : bool) (s : text) : outcome tokenrep :=
  if terminated then
    let qlen := len_utf8 c_quote in
    if (blen s <? qlen + qlen)%N then Panic
    else
      match split_at_byte (blen s - qlen) s with
      | None => Panic
      | Some (front, _) =>
        match split_at_byte qlen front with
        | None => Panic
        | Some (_, body) =>
          let* r := unescape body in
          match r with
          | Some b => Ret (TString b)
          | None => Panic
          end
        end
      end
  else Ret TUnterminatedString.

(** lexer.rs:65-72: skip [#\], unescape, take the first character ([expect] panics if none). *)
Definition char_token (terminated : bool) (s : text) : outcome tokenrep :=
  if terminated then
    match split_at_byte (blen (t_ "#\")) s with
    | None => Panic
    | Some (_, body) =>
      let* r := unescape body in
      match r with
      | None => Panic
      | Some [] => Panic
      | Some (c :: _) => Ret (TChar c)
      end
    end
  else Ret TUnterminatedChar.

(** lexer.rs:73-102, the fixed tokens in the order they are tried. *)
Definition fixed_tokens : list (text * tokenrep) :=
  [ (t_ "(", TLParen); (t_ ")", TRParen); (t_ "[", TLBrack); (t_ "]", TRBrack);
    (t_ "{", TLBrace); (t_ "}", TRBrace); (t_ "'", TQuote); (t_ "`", TBackquote);
    (t_ "\", TBackslash); (t_ "~", TTilde); (t_ ",@", TCommaAt); (t_ ",", TComma);
    (t_ "@", TAt); (t_ "#t", TTrue); (t_ "#f", TFalse) ].

(** lexer.rs:73-107: the rest of the [else if] chain; the final [else] panics. *)
Fixpoint next_fixed (ts : list (text * tokenrep)) (l : lexer) (e : eat) : outcome (token * lexer) :=
  match ts with
  | (s, r) :: ts =>
    let* (b, e) := eat_exact s e in
    if b then produce l e r else next_fixed ts l e
  | [] =>
    let* (b, e) := eat_if (fun _ => true) e in
    if b then produce l e TUnknownCharacter else Panic
  end.

(** lexer.rs:28-108 [Iterator::next]. *)
Definition next (l : lexer) : outcome (option (token * lexer)) :=
  let e := {| current := input l; consumed_len := 0 |} in
  match current e with
  | [] => Ret None
  | _ =>
    let* (b, e) := eat_whitespaces e in
    if b then let* r := produce l e TWhitespaces in Ret (Some r) else
    let* (b, e) := eat_line_comment e in
    if b then let* r := produce l e TLineComment in Ret (Some r) else
    let* (b, e) := eat_id e in
    if b then let* r := produce_with l e (fun s => Ret (classify_id s)) in Ret (Some r) else
    let* (b, e) := eat_string e in
    match b with
    | Some terminated =>
      let* r := produce_with l e (string_token terminated) in Ret (Some r)
    | None =>
      let* (b, e) := eat_char e in
      match b with
      | Some terminated =>
        let* r := produce_with l e (char_token terminated) in Ret (Some r)
      | None =>
        let* r := next_fixed fixed_tokens l e in Ret (Some r)
      end
    end
  end.

(** lexer.rs:6-8 [lex]: collect the iterator. *)
Fixpoint lex_loop (fuel : nat) (l : lexer) : outcome (list token) :=
  match fuel with
  | O => OutOfFuel
  | S fuel =>
    let* r := next l in
    match r with
    | None => Ret []
    | Some (t, l) => let* ts := lex_loop fuel l in Ret (t :: ts)
    end
  end.

Definition lex (t : text) : outcome (list token) :=
  lex_loop (S (List.length t)) {| input := t; loc := location_new |}.
