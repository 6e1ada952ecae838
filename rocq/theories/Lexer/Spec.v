(** Specification of tokenisation, independent of the scanner's control flow. *)
From Verif.Base Require Import Base.
From Verif.Str Require Import Spec.
From Verif.Lexer Require Import Model.

(** Position reached after reading a text from the start: byte offset, number of newlines, and
    number of bytes after the last newline. *)
Fixpoint count_newlines (t : text) : N :=
  match t with [] => 0 | c :: t => (if c =? c_lf then 1 else 0) + count_newlines t end%N.

Fixpoint after_last_newline (acc t : text) : text :=
  match t with
  | [] => acc
  | c :: t => if (c =? c_lf)%N then after_last_newline [] t else after_last_newline (acc ++ [c]) t
  end.

Definition position (t : text) : location :=
  {| offset := blen t; line := count_newlines t; character := blen (after_last_newline [] t) |}.

(** Decimal numerals. *)
Definition digit (c : char) : Prop := (48 <= c <= 57)%N.
Inductive decimal : text -> N -> Prop :=
| dec_one c : digit c -> decimal [c] (c - 48)%N
| dec_snoc t n c : decimal t n -> digit c -> decimal (t ++ [c]) (10 * n + (c - 48))%N.

Definition plus : char := 43%N.
Definition minus : char := 45%N.

(** Texts of unsigned and signed 64-bit integer literals. *)
Inductive unsigned_literal : text -> N -> Prop :=
| ul_plain t n : decimal t n -> (n < 2 ^ 64)%N -> unsigned_literal t n
| ul_plus t n : decimal t n -> (n < 2 ^ 64)%N -> unsigned_literal (plus :: t) n.

Inductive negative_literal : text -> Z -> Prop :=
| nl_minus t n : decimal t n -> (n <= 2 ^ 63)%N -> negative_literal (minus :: t) (- Z.of_N n)%Z.

(** Texts of floating point literals (the grammar documented for Rust's [f64::from_str]); integer
    literals are a special case and are classified before. *)
Inductive digits0 : text -> Prop :=
| d0_nil : digits0 []
| d0_cons c t : digit c -> digits0 t -> digits0 (c :: t).

Inductive exponent : text -> Prop :=
| ex_none : exponent []
| ex_some e sign t :
    e = c_ "e" \/ e = c_ "E" -> sign = [] \/ sign = [plus] \/ sign = [minus] ->
    t <> [] -> digits0 t -> exponent (e :: sign ++ t).

(** Case-insensitive comparison with a lower-case word. *)
Definition same_letter (c d : char) : Prop :=
  c = d \/ ((65 <= c <= 90)%N /\ d = (c + 32)%N).

Inductive float_literal : text -> Prop :=
| fl_word sign w t :
    sign = [] \/ sign = [plus] \/ sign = [minus] ->
    In w [t_ "inf"; t_ "infinity"; t_ "nan"] -> Forall2 same_letter t w -> float_literal (sign ++ t)
| fl_int sign ds ex :
    sign = [] \/ sign = [plus] \/ sign = [minus] ->
    digits0 ds -> ds <> [] -> exponent ex -> float_literal (sign ++ ds ++ ex)
| fl_frac sign ds fs ex :
    sign = [] \/ sign = [plus] \/ sign = [minus] ->
    digits0 ds -> digits0 fs -> (ds <> [] \/ fs <> []) -> exponent ex ->
    float_literal (sign ++ ds ++ c_ "." :: fs ++ ex).

(** Character classes. *)
Definition space_char (c : char) : Prop := In c [32; 9; 13; 10]%N.
Definition id_char (c : char) : Prop :=
  In c (t_ "!$%&*+-./0123456789:<=>?ABCDEFGHIJKLMNOPQRSTUVWXYZ^_abcdefghijklmnopqrstuvwxyz|").

(** An identifier-like word and the token it stands for. *)
Inductive word_token (s : text) : tokenrep -> Prop :=
| wt_unsigned n : unsigned_literal s n -> word_token s (TUnsigned n)
| wt_signed z : (forall n, ~ unsigned_literal s n) -> negative_literal s z -> word_token s (TSigned z)
| wt_float : (forall n, ~ unsigned_literal s n) -> (forall z, ~ negative_literal s z) ->
    float_literal s -> word_token s (TFPNumber s)
| wt_dot : s = t_ "." -> word_token s TDot
| wt_question : s = t_ "?" -> word_token s TQuestion
| wt_exclamation : s = t_ "!" -> word_token s TExclamation
| wt_symbol : (forall n, ~ unsigned_literal s n) -> (forall z, ~ negative_literal s z) ->
    ~ float_literal s -> s <> t_ "." -> s <> t_ "?" -> s <> t_ "!" -> word_token s (TSymbol s).

(** First character of the rest of the input, when there is one, satisfies [P]. *)
Definition next_char (P : char -> Prop) (rest : text) : Prop :=
  match rest with [] => True | c :: _ => P c end.

(** [token_text rep s rest]: the source text [s], followed by [rest], is a token of kind [rep]. *)
Inductive token_text : tokenrep -> text -> text -> Prop :=
| tt_space s rest :
    s <> [] -> Forall space_char s -> next_char (fun c => ~ space_char c) rest ->
    token_text TWhitespaces s rest
| tt_comment_line body rest :
    ~ In c_lf body -> token_text TLineComment (t_ ";" ++ body ++ [c_lf]) rest
| tt_comment_eof body :
    ~ In c_lf body -> token_text TLineComment (t_ ";" ++ body) []
| tt_word s r rest :
    s <> [] -> Forall id_char s -> next_char (fun c => ~ id_char c) rest -> word_token s r ->
    token_text r s rest
| tt_string body s rest :
    denotes body s -> ~ raw_quote body -> token_text (TString s) (c_quote :: body ++ [c_quote]) rest
| tt_bad_string_eof body s :       (* no closing quote before the end of the input *)
    denotes body s -> ~ raw_quote body -> token_text TUnterminatedString (c_quote :: body) []
| tt_bad_string_escape body s rest :   (* a backslash that starts no escape *)
    denotes body s -> ~ raw_quote body ->
    next_char (fun c => forall x, ~ In (c, x) escape_table) rest ->
    token_text TUnterminatedString (c_quote :: body ++ [c_backslash]) rest
| tt_char c rest :
    c <> c_backslash -> token_text (TChar c) (t_ "#\" ++ [c]) rest
| tt_char_escape l c rest :
    In (l, c) escape_table -> token_text (TChar c) (t_ "#\" ++ [c_backslash; l]) rest
| tt_bad_char_eof : token_text TUnterminatedChar (t_ "#\") []
| tt_bad_char_escape rest :
    next_char (fun c => forall x, ~ In (c, x) escape_table) rest ->
    token_text TUnterminatedChar (t_ "#\" ++ [c_backslash]) rest
| tt_lparen rest : token_text TLParen (t_ "(") rest
| tt_rparen rest : token_text TRParen (t_ ")") rest
| tt_lbrack rest : token_text TLBrack (t_ "[") rest
| tt_rbrack rest : token_text TRBrack (t_ "]") rest
| tt_lbrace rest : token_text TLBrace (t_ "{") rest
| tt_rbrace rest : token_text TRBrace (t_ "}") rest
| tt_quote rest : token_text TQuote (t_ "'") rest
| tt_backquote rest : token_text TBackquote (t_ "`") rest
| tt_backslash rest : token_text TBackslash (t_ "\") rest
| tt_tilde rest : token_text TTilde (t_ "~") rest
| tt_comma_at rest : token_text TCommaAt (t_ ",@") rest
| tt_comma rest : next_char (fun c => c <> c_ "@") rest -> token_text TComma (t_ ",") rest
| tt_at rest : token_text TAt (t_ "@") rest
| tt_true rest : token_text TTrue (t_ "#t") rest
| tt_false rest : token_text TFalse (t_ "#f") rest
| tt_unknown c rest :
    ~ space_char c -> ~ id_char c ->
    ~ In c (t_ ";()[]{}'`\~,@") -> c <> c_quote ->
    (c = c_ "#" -> next_char (fun d => d <> c_ "t" /\ d <> c_ "f" /\ d <> c_backslash) rest) ->
    token_text TUnknownCharacter [c] rest.

(** [tokenised before t toks]: [toks] is a decomposition of [t] into consecutive tokens, where [t]
    is preceded in the source by the text [before]. *)
Inductive tokenised (before : text) : text -> list token -> Prop :=
| tz_nil : tokenised before [] []
| tz_cons s rest r toks :
    s <> [] -> token_text r s rest -> tokenised (before ++ s) rest toks ->
    tokenised before (s ++ rest)
      ({| tstart := position before; tend := position (before ++ s); trep := r |} :: toks).
