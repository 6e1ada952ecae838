(** The grammar of S-expressions, independent of the parser's control flow. *)
From Verif.Base Require Import Base.
From Verif.Lexer Require Import Model.
From Verif.Sexp Require Import Model.

(** Source range of a non-empty token sequence: start of the first, end of the last. *)
Definition range (ts : list token) : srcloc :=
  match ts with
  | [] => (location_new, location_new)
  | t :: _ => (tstart t, tend (last ts t))
  end.

(** Tokens that are an S-expression by themselves. *)
Inductive atom : tokenrep -> srep -> Prop :=
| at_signed z : atom (TSigned z) (RInteger true (Z.to_N (z mod 2 ^ 64)))
| at_unsigned n : atom (TUnsigned n) (RInteger false n)
| at_fpnumber s : atom (TFPNumber s) (RFPNumber s)
| at_symbol s : atom (TSymbol s) (RSymbol s)
| at_string s : atom (TString s) (RString s)
| at_char c : atom (TChar c) (RChar c)
| at_true : atom TTrue (RBool true)
| at_false : atom TFalse (RBool false).

Inductive brackets : tokenrep -> tokenrep -> Prop :=
| br_paren : brackets TLParen TRParen
| br_brack : brackets TLBrack TRBrack.

(** Prefix operators and the symbol they abbreviate. *)
Inductive prefix_op : tokenrep -> text -> Prop :=
| po_quote : prefix_op TQuote (t_ "quote")
| po_quasiquote : prefix_op TBackquote (t_ "quasiquote")
| po_unquote : prefix_op TComma (t_ "unquote")
| po_splicing : prefix_op TCommaAt (t_ "unquote-splicing")
| po_capture : prefix_op TBackslash (t_ "capture")
| po_load : prefix_op TTilde (t_ "load").

Inductive postfix_op : tokenrep -> text -> Prop :=
| po_question : postfix_op TQuestion (t_ "try?")
| po_exclamation : postfix_op TExclamation (t_ "try!").

(** A dotted form [(h xs . last)]: when [last] is a list or a dotted form it is spliced. *)
Inductive dotted (h : sexp) (xs : list sexp) : sexp -> srep -> Prop :=
| do_list l ys : dotted h xs (Sexp l (RList ys)) (RList (h :: xs ++ ys))
| do_listlike l h' ys z :
    dotted h xs (Sexp l (RListLike h' ys z)) (RListLike h (xs ++ h' :: ys) z)
| do_other l r :
    (forall ys, r <> RList ys) -> (forall h' ys z, r <> RListLike h' ys z) ->
    dotted h xs (Sexp l r) (RListLike h xs (Sexp l r)).

(** [g_sexp ts s]: the tokens [ts] (without spaces and comments) are the S-expression [s].
    A prefix operator applies to everything after it, including postfix operators. *)
Inductive g_sexp : list token -> sexp -> Prop :=
| g_postfixed ts s : g_operand ts s -> g_sexp ts s
| g_prefix q ts sym s :
    prefix_op (trep q) sym -> g_sexp ts s ->
    g_sexp (q :: ts)
      (Sexp (range (q :: ts)) (RList [Sexp (range [q]) (RSymbol sym); s]))

(** An atom or a bracketed form, with its postfix operators. *)
with g_operand : list token -> sexp -> Prop :=
| g_atom t r : atom (trep t) r -> g_operand [t] (Sexp (range [t]) r)
| g_brackets l ts r body :
    brackets (trep l) (trep r) -> g_body (tstart r) ts body ->
    g_operand (l :: ts ++ [r]) (Sexp (range (l :: ts ++ [r])) body)
| g_postfix ts s op sym :
    g_operand ts s -> postfix_op (trep op) sym ->
    let loc := range (ts ++ [op]) in
    g_operand (ts ++ [op]) (Sexp loc (RList [Sexp loc (RSymbol sym); s]))
| g_annotate ts s l tss ss r :
    g_operand ts s -> trep l = TLBrace -> g_seq tss ss -> trep r = TRBrace ->
    let loc := range (ts ++ l :: tss ++ [r]) in
    g_operand (ts ++ l :: tss ++ [r])
      (Sexp loc (RList ([Sexp loc (RSymbol (t_ "annotate")); s] ++ ss)))

(** The inside of a bracketed form. [next] is where the token after the body starts; it locates an
    empty body. *)
with g_body : location -> list token -> srep -> Prop :=
| g_items next ts ss : g_seq ts ss -> g_body next ts (RList ss)
| g_spread next ts ss at_ bts body :
    g_seq ts ss -> trep at_ = TAt -> g_body next bts body ->
    g_body next (ts ++ at_ :: bts)
      (RList (ss ++ [Sexp (match bts with [] => (next, tend at_) | _ => range bts end) body]))
| g_dot next dot ts s :
    trep dot = TDot -> g_sexp ts s -> g_body next (dot :: ts) (rep s)
| g_dotted next ts h ss dot lts last r :
    g_seq ts (h :: ss) -> trep dot = TDot -> g_sexp lts last -> dotted h ss last r ->
    g_body next (ts ++ dot :: lts) r

with g_seq : list token -> list sexp -> Prop :=
| g_nil : g_seq [] []
| g_cons ts s tss ss : g_sexp ts s -> g_seq tss ss -> g_seq (ts ++ tss) (s :: ss).

(** Tokens that are not spaces or comments. *)
Definition significant (ts : list token) : list token :=
  filter (fun t => negb (is_ambient (trep t))) ts.

(** A source file is a sequence of S-expressions. *)
Definition g_file (ts : list token) (f : srcloc * list sexp) : Prop :=
  g_seq (significant ts) (snd f) /\ fst f = range (significant ts).

(** No token is the end-of-file marker. The lexer never produces one; it only occurs inside error
    messages. *)
Definition no_eof (ts : list token) : Prop := Forall (fun t => trep t <> TEof) ts.
