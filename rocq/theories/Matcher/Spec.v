(** The forms a matcher stands for. *)
From Verif.Base Require Import Base.
From Verif.Lexer Require Import Model.
From Verif.Sexp Require Import Model.
From Verif.Matcher Require Import Model.

Section Parts.
Variable forms : matcher -> sexp -> value -> Prop.
(** All of the expressions [ss] have the form [t]; [_ ...] keeps them as they are. *)
Definition forms_slice (t : matcher) (ss : list sexp) (v : value) : Prop :=
  match t with MAny => v = VSlice ss | _ => exists vs, v = VVec vs /\ Forall2 (forms t) ss vs end.
(** The expressions [ss] have the forms [ms], one by one. *)
Fixpoint forms_each (ms : list matcher) (ss : list sexp) (vs : list value) : Prop :=
  match ms, ss, vs with
  | [], [], [] => True
  | m :: ms, s :: ss, v :: vs => forms m s v /\ forms_each ms ss vs
  | _, _, _ => False
  end.
End Parts.

(** [forms m s v]: the expression [s] has the form [m], with the parts [v]. *)
Fixpoint forms (m : matcher) (s : sexp) (v : value) {struct m} : Prop :=
  match m with
  | MAny => v = VSexp s
  | MSymbol => exists t, rep s = RSymbol t /\ v = VText t
  | MString => exists t, rep s = RString t /\ v = VText t
  | MNative => exists n, rep s = RNative n /\ v = VNative n
  | MName => exists t, rep s = RSymbol t /\ v = VName (sloc s) t
  | MUnit => rep s = RList [] /\ v = VUnit
  | MList t => exists ss, rep s = RList ss /\ forms_slice forms t ss v
  | MTuple ms => exists ss vs, rep s = RList ss /\ v = VTuple vs /\ forms_each forms ms ss vs
  | MTupleRest ms t => exists ss ss' vs w, rep s = RList (ss ++ ss') /\ v = VTupleRest vs w /\ forms_each forms ms ss vs /\ forms_slice forms t ss' w
  | MEither l r =>
    (exists w, v = VLeft w /\ forms l s w) \/
    ((forall w, ~ forms l s w) /\ exists w, v = VRight w /\ forms r s w)
  | MAnnotatable t a =>
    (exists l body ann w x, rep s = RList (Sexp l (RSymbol ANNOTATE) :: body :: ann) /\ v = VAnnotatable w (Some x) /\ forms t body w /\ forms_slice forms a ann x) \/
    ((forall l body ann, rep s <> RList (Sexp l (RSymbol ANNOTATE) :: body :: ann)) /\ exists w, v = VAnnotatable w None /\ forms t s w)
  | MParameterizable t p =>
    (exists w, v = VParameterizable w None /\ forms t s w) \/
    ((forall w, ~ forms t s w) /\ exists callee params w x, rep s = RList (callee :: params) /\ v = VParameterizable w (Some x) /\ forms t callee w /\ forms_slice forms p params x)
  end.

(** [within s' s]: [s'] is [s] or one of its parts. *)
Inductive within : sexp -> sexp -> Prop :=
| w_self s : within s s
| w_part s' x l ss : within s' x -> In x ss -> within s' (Sexp l (RList ss)).

(** The items of an expression read as a list, and what follows the dot if there is one. *)
Definition view (s : sexp) : list sexp * option sexp :=
  match rep s with
  | RList ss => (ss, None)
  | RListLike h init last => (h :: init, Some last)
  | _ => ([], Some s)
  end.
(** What follows a dot is never a list itself. *)
Definition proper (r : srep) : Prop :=
  match r with
  | RListLike _ _ last => match rep last with RList _ | RListLike _ _ _ => False | _ => True end
  | _ => True
  end.
