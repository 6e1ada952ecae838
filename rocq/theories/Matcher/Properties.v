(** C38: matching S-expressions. *)
From Verif.Base Require Import Base.
From Verif.Lexer Require Import Model.
From Verif.Sexp Require Import Model.
From Verif.Matcher Require Import Model Spec Proofs.

(** A match succeeds exactly when the expression has the form the matcher stands for, with its parts
    as the result. Otherwise the error names a part of the expression, by its location, and a form
    that this part does not have. *)
Theorem match_sexp_exact : forall m s, match match_sexp m s with
  | inl v => forall w, forms m s w <-> w = v
  | inr e => (forall w, ~ forms m s w) /\
    exists s', within s' s /\ sloc s' = e_loc e /\ forall w, ~ forms (e_expect e) s' w
  end.
Proof. exact match_exact. Qed.
Print Assumptions match_sexp_exact.

(** [list_like] and [cons] build the expression that reads as the list asked for, and never put a list
    after a dot. *)
Theorem list_like_exact : forall l h init last,
  view (Sexp l (rep_list_like h init last)) = (h :: init ++ fst (view last), snd (view last)) /\
  (proper (rep last) -> proper (rep_list_like h init last)).
Proof. exact list_like_view. Qed.
Print Assumptions list_like_exact.
Theorem cons_exact : forall l car cdr,
  view (Sexp l (rep_cons car cdr)) = (car :: fst (view cdr), snd (view cdr)) /\
  (proper (rep cdr) -> proper (rep_cons car cdr)).
Proof. exact cons_view. Qed.
Print Assumptions cons_exact.

(** Non-vacuity: [(f "a" (x y))] against [(<symbol> <<string> or _> ...)] and two refusals. *)
Example match_example :
  let l := (location_new, location_new) in
  let sym s := Sexp l (RSymbol (t_ s)) in
  let xy := Sexp l (RList [sym "x"%string; sym "y"%string]) in
  let s := Sexp l (RList [sym "f"%string; Sexp l (RString (t_ "a")); xy]) in
  match_sexp (MTupleRest [MSymbol] (MEither MString MAny)) s = inl (VTupleRest [VText (t_ "f")] (VVec [VLeft (VText (t_ "a")); VRight (VSexp xy)])) /\
  match_sexp (MTuple [MSymbol; MAny]) s = inr {| e_loc := l; e_expect := MTuple [MSymbol; MAny] |} /\
  match_sexp (MTupleRest [MSymbol] (MEither MString (MList MString))) s = inr {| e_loc := l; e_expect := MEither MString (MList MString) |}.
Proof. repeat split. Qed.
