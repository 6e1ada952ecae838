(** Equality of S-expressions up to source locations. *)
From Verif.Base Require Import Base.
From Verif.Lexer Require Import Model Spec.
From Verif.Sexp Require Import Model.

Definition nowhere : srcloc := (location_new, location_new).

(** The same S-expression with every source location forgotten. *)
Fixpoint strip (s : sexp) : sexp :=
  let 'Sexp _ r := s in
  Sexp nowhere
    match r with
    | RList l => RList (map strip l)
    | RListLike h init last => RListLike (strip h) (map strip init) (strip last)
    | r => r
    end.

(** S-expressions whose printed form can be read back. [show_f64] is how floating point numbers are
    printed. *)
Section Printable.
Variable show_f64 : text -> text.

Definition word (s : text) (r : tokenrep) : Prop := s <> [] /\ Forall id_char s /\ word_token s r.

(** Not printed with a prefix operator: a prefix operator would also apply to what follows. *)
Definition no_prefix (s : sexp) : Prop :=
  match rep s with
  | RList l => match sugar_rep l with Prefix _ _ => False | _ => True end
  | _ => True
  end.

(** Printed with a closing bracket at the end. *)
Definition closed (s : sexp) : Prop :=
  match rep s with
  | RList l => match sugar_rep l with NoSugar | Annotated _ _ => True | _ => False end
  | _ => False
  end.

Fixpoint printable (s : sexp) : Prop :=
  let 'Sexp _ r := s in
  let fix all (l : list sexp) : Prop := match l with [] => True | s :: l => printable s /\ all l end in
  match r with
  | RInteger false v => v < 2 ^ 64
  | RInteger true v => 2 ^ 63 <= v < 2 ^ 64   (* negative *)
  | RFPNumber t => show_f64 t = t /\ word t (TFPNumber t)
  | RSymbol t => word t (TSymbol t)
  | RString _ | RChar _ | RBool _ => True
  | RList l =>
    all l /\
    match sugar_rep l with
    | Postfix x _ => closed x
    | Annotated x _ => no_prefix x
    | _ => True
    end
  | RListLike h init last =>
    printable h /\ all init /\ printable last /\
    (forall ys, rep last <> RList ys) /\ (forall h' ys z, rep last <> RListLike h' ys z)
  | RNative _ => False
  end%N.
End Printable.
