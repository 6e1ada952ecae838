(** C05: printing an S-expression and reading it back. *)
From Verif.Base Require Import Base.
From Verif.Str Require Import Model.
From Verif.Lexer Require Import Model Spec ProofsNum.
From Verif.Sexp Require Import Model Spec Proofs.
From Verif.Parser Require Import Model.

(** Any sequence of printable S-expressions prints (one per line) to a text that parses without
    errors to the same S-expressions, up to source locations. *)
Theorem print_then_parse :
  forall (show_f64 : text -> text) (ss : list sexp), Forall (printable show_f64) ss ->
    exists t toks loc ss', print_ss show_f64 ss = Ret t /\ lex t = Ret toks /\
      parse toks = Ret (POk (loc, ss'), []) /\ map strip ss' = map strip ss.
Proof. exact print_parse. Qed.
Print Assumptions print_then_parse.

(** Reads a text that must hold exactly one S-expression, prints it, and reads it again. *)
Definition read1 (t : text) : option sexp :=
  match lex t with
  | Ret toks => match parse toks with Ret (POk (_, [s]), []) => Some (strip s) | _ => None end
  | _ => None
  end.
Definition reprint (show_f64 : text -> text) (t : text) : option text :=
  match read1 t with
  | Some s => match print show_f64 s with Ret t => Some t | _ => None end
  | None => None
  end.

(** Not every S-expression the parser produces can be read back: the two postfix operators are
    printed without a space between them. *)
Theorem print_nested_try_refuted :
  exists t s t', read1 t = Some s /\ print (fun t => t) s = Ret t' /\ read1 t' <> Some s.
Proof.
  exists (t_ "(a)? ?"). eexists _, _. split; [vm_compute; reflexivity|].
  split; [vm_compute; reflexivity|]. vm_compute. discriminate.
Qed.
Print Assumptions print_nested_try_refuted.

(** A postfix operator applied to a quoted form is printed so that it moves inside the quote. *)
Theorem print_try_quote_refuted :
  exists t s t', read1 t = Some s /\ print (fun t => t) s = Ret t' /\
    exists s', read1 t' = Some s' /\ s' <> s.
Proof.
  exists (t_ "(try? (quote (a)))"). eexists _, _. split; [vm_compute; reflexivity|].
  split; [vm_compute; reflexivity|]. eexists; split; [vm_compute; reflexivity|]. discriminate.
Qed.
Print Assumptions print_try_quote_refuted.

(** A non-negative integer token written as signed ("-0") reads back as unsigned. *)
Theorem print_signed_zero_refuted :
  exists t s t', read1 t = Some s /\ print (fun t => t) s = Ret t' /\
    exists s', read1 t' = Some s' /\ s' <> s.
Proof.
  exists (t_ "-0"). eexists _, _. split; [vm_compute; reflexivity|].
  split; [vm_compute; reflexivity|]. eexists; split; [vm_compute; reflexivity|]. discriminate.
Qed.
Print Assumptions print_signed_zero_refuted.

(** Non-vacuity: a printable S-expression with every kind of node. *)
Notation "# r" := (Sexp nowhere r) (at level 5).
Example printable_rich :
  let sym (s : string) := # (RSymbol (t_ s)) in
  let s := # (RList [sym "f"%string; # (RInteger false 12); # (RInteger true (2 ^ 64 - 5));
              # (RFPNumber (t_ "1.5")); # (RString [34; 10; 92]%N); # (RChar 92); # (RBool true);
              # (RList [sym "quote"%string; # (RList [sym "try?"%string; # (RList [sym "a"%string])])]);
              # (RList [sym "annotate"%string; sym "x"%string; sym "y"%string]);
              # (RList []);
              # (RListLike (sym "a"%string) [sym "b"%string] (sym "c"%string))]) in
  printable (fun t => t) s /\
  print (fun t => t) s = Ret (t_ "(f 12 -5 1.5 ""\""\n\\"" #\\\ #t '(a)? x {y} () (a b . c))").
Proof.
  split; [|vm_compute; reflexivity].
  assert (W : forall s r, s <> [] -> forallb is_id_char s = true -> classify_id s = r -> word s r).
  { intros s r Hn Hf Hc. split; [assumption|]. split; [|apply classify_spec; assumption].
    apply forallb_forall in Hf || (rewrite forallb_forall in Hf). apply Forall_forall.
    intros c Hin. apply Proofs.is_id_char_spec, Hf, Hin. }
  cbn [printable].
  repeat match goal with
  | |- True => exact I
  | |- word _ _ => apply W; [discriminate|vm_compute; reflexivity|vm_compute; reflexivity]
  | |- (_ < _)%N => vm_compute; reflexivity
  | |- (_ <= _)%N => vm_compute; discriminate
  | |- _ /\ _ => split
  | |- (_ <= _ < _)%N => split
  | |- forall _, _ => cbn [rep]; intros; discriminate
  | |- match _ with _ => _ end => exact I
  | |- _ = _ => reflexivity
  end.
Qed.
Example reprint_normalises : reprint (fun t => t) (t_ "[quote  (a . (b))]") = Some (t_ "'(a b)").
Proof. vm_compute. reflexivity. Qed.
