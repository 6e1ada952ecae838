(** C04: parsing. *)
From Verif.Base Require Import Base.
From Verif.Lexer Require Import Model.
From Verif.Sexp Require Import Model Spec.
From Verif.Parser Require Import Model Spec Proofs.

(** Parsing the tokens of any text finishes, and it succeeds without errors with exactly the
    S-expressions the grammar derives. *)
Theorem parse_text_total_and_exact :
  forall t : text, exists toks r errs, lex t = Ret toks /\ parse toks = Ret (r, errs) /\
    (forall f, (r = POk f /\ errs = []) <-> g_file toks f).
Proof. exact parse_text_total. Qed.
Print Assumptions parse_text_total_and_exact.

(** The same for any token sequence, whether or not a text lexes to it. *)
Theorem parse_exact :
  forall (toks : list token) (f : srcloc * list sexp), no_eof toks ->
    (parse toks = Ret (POk f, []) <-> g_file toks f).
Proof. exact parse_exact_ok. Qed.
Print Assumptions parse_exact.

(** A file outside the grammar is reported as an error, one inside never is. *)
Theorem parse_reports_every_error :
  forall toks : list token, no_eof toks ->
    exists r errs, parse toks = Ret (r, errs) /\
      ((exists e, aggregate_errors (r, errs) = PErr e) <-> ~ exists f, g_file toks f).
Proof. exact parse_errors. Qed.
Print Assumptions parse_reports_every_error.

(** The grammar is unambiguous, source ranges included. *)
Theorem grammar_unambiguous :
  forall toks f1 f2, g_file toks f1 -> g_file toks f2 -> f1 = f2.
Proof. exact g_file_functional. Qed.
Print Assumptions grammar_unambiguous.

(** Without [no_eof] termination fails: on an end-of-file token the loop never ends. *)
Theorem parse_total_any_tokens_refuted :
  exists toks : list token, forall fuel,
    parse_ss fuel {| toks := toks; latest_token_end := location_new; inner_errors := [] |} = OutOfFuel.
Proof.
  exists [{| tstart := location_new; tend := location_new; trep := TEof |}].
  intros fuel. exact (eof_diverges fuel {| tstart := location_new; tend := location_new; trep := TEof |} eq_refl).
Qed.
Print Assumptions parse_total_any_tokens_refuted.

(** Non-vacuity. *)
Definition parsed (t : text) : option (option (list sexp) * nat) :=
  match lex t with
  | Ret toks =>
    match parse toks with
    | Ret (POk (_, ss), errs) => Some (Some (map strip ss), List.length errs)
    | Ret (PErr _, errs) => Some (None, List.length errs)
    | _ => None
    end
  | _ => None
  end.
Notation "# r" := (Sexp nowhere r) (at level 5).
Example parse_dotted :
  parsed (t_ "(a . (b)) ; note") = Some (Some [ # (RList [ # (RSymbol (t_ "a")); # (RSymbol (t_ "b"))])], 0%nat).
Proof. vm_compute. reflexivity. Qed.
Example parse_prefix_binds_last :
  parsed (t_ "'x ?") =
    Some (Some [ # (RList [ # (RSymbol (t_ "quote"));
                            # (RList [ # (RSymbol (t_ "try?")); # (RSymbol (t_ "x"))])])], 0%nat).
Proof. vm_compute. reflexivity. Qed.
Example parse_spread :
  parsed (t_ "(f @ g 1)") =
    Some (Some [ # (RList [ # (RSymbol (t_ "f"));
                            # (RList [ # (RSymbol (t_ "g")); # (RInteger false 1)])])], 0%nat).
Proof. vm_compute. reflexivity. Qed.
Example parse_fails : parsed (t_ "(a b") = Some (Some [], 1%nat) /\ parsed (t_ "a ) b") = Some (None, 0%nat).
Proof. split; vm_compute; reflexivity. Qed.
Example grammar_inhabited : exists toks f, no_eof toks /\ g_file toks f /\ List.length (snd f) = 2%nat.
Proof.
  set (lx := match lex (t_ "(a {b})! 'c") with Ret ts => ts | _ => [] end).
  set (f := match parse lx with Ret (POk f, _) => f | _ => (nowhere, []) end).
  exists lx, f.
  assert (H : no_eof lx) by (unfold no_eof; vm_compute; repeat constructor; discriminate).
  split; [exact H|]. split; [|vm_compute; reflexivity]. apply (parse_exact lx f H). vm_compute. reflexivity.
Qed.
