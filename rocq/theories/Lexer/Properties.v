(** C02, C03: lexing. *)
From Verif.Base Require Import Base.
From Verif.Str Require Import Model Spec.
From Verif.Lexer Require Import Model Spec Proofs.

(** Lexing any text finishes without panicking; the tokens partition the text into non-empty
    consecutive pieces, and each token's locations are the positions of its piece. *)
Theorem lex_total_and_tiles :
  forall t : text, exists toks (ps : list text),
    lex t = Ret toks /\ List.concat ps = t /\ Forall (fun p => p <> []) ps /\
    List.length ps = List.length toks /\
    forall i p tok, nth_error ps i = Some p -> nth_error toks i = Some tok ->
      tstart tok = position (List.concat (firstn i ps)) /\
      tend tok = position (List.concat (firstn i ps) ++ p).
Proof. exact lex_tiles. Qed.
Print Assumptions lex_total_and_tiles.

(** The tokens are exactly those of the lexical grammar. *)
Theorem lex_exact :
  forall (t : text) (toks : list token), lex t = Ret toks <-> tokenised [] t toks.
Proof. exact lex_iff. Qed.
Print Assumptions lex_exact.

(** A string literal written with escapes lexes to that string, as a single token. *)
Theorem lex_string_literal :
  forall s : text, exists t, escape s = Ret t /\
    lex (c_quote :: t ++ [c_quote]) =
    Ret [{| tstart := position []; tend := position (c_quote :: t ++ [c_quote]); trep := TString s |}].
Proof. exact lex_string_ok. Qed.
Print Assumptions lex_string_literal.

(** A character literal written with escapes lexes to that character, as a single token. *)
Theorem lex_char_literal :
  forall c : char, exists t, escape [c] = Ret t /\
    lex (t_ "#\" ++ t) =
    Ret [{| tstart := position []; tend := position (t_ "#\" ++ t); trep := TChar c |}].
Proof. exact lex_char_ok. Qed.
Print Assumptions lex_char_literal.

(** Non-vacuity. *)
Example lex_mixed :
  option_map (map (fun t => (offset (tstart t), line (tend t), character (tend t), trep t)))
    (match lex (t_ "(a -6" ++ [c_lf] ++ t_ "#t,@""x\n""") with Ret ts => Some ts | _ => None end) =
  Some [ (0, 0, 1, TLParen); (1, 0, 2, TSymbol (t_ "a")); (2, 0, 3, TWhitespaces);
         (3, 0, 5, TSigned (-6)); (5, 1, 0, TWhitespaces); (6, 1, 2, TTrue); (8, 1, 4, TCommaAt);
         (10, 1, 9, TString [120; 10]) ]%N.
Proof. vm_compute. reflexivity. Qed.
Example lex_malformed :
  option_map (map trep) (match lex (t_ """ab\q #\") with Ret ts => Some ts | _ => None end) =
  Some [TUnterminatedString; TSymbol (t_ "q"); TWhitespaces; TUnterminatedChar].
Proof. vm_compute. reflexivity. Qed.
Example tokenised_nontrivial :
  tokenised [] (t_ "ab")
    [{| tstart := position []; tend := position (t_ "ab"); trep := TSymbol (t_ "ab") |}].
Proof. apply lex_exact. vm_compute. reflexivity. Qed.
