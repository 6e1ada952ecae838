(** Model of llrl0/src/sexp/matcher.rs, and of the generic matchers of syntax.rs. *)
From Verif.Base Require Import Base.
From Verif.Lexer Require Import Model.
From Verif.Sexp Require Import Model.

(** The types that implement [Match]: matcher.rs:101-325, syntax.rs:28-60 [Name], [Native], 96-124
    [Annotatable] and 126-156 [Parameterizable]. Simplification: tuples of any length (the macro of
    236-297 makes those of one to seven), and types as values. *)
Inductive matcher :=
| MAny | MSymbol | MString | MNative | MName
| MList (t : matcher)
| MUnit
| MTuple (ms : list matcher)
| MTupleRest (ms : list matcher) (t : matcher)
| MEither (l r : matcher)
| MAnnotatable (t s : matcher)
| MParameterizable (t s : matcher).

(** The results of a match. *)
Inductive value :=
| VSexp (s : sexp)
| VText (t : text)
| VNative (n : text)
| VName (l : srcloc) (t : text)
| VSlice (ss : list sexp)
| VVec (vs : list value)
| VUnit
| VTuple (vs : list value)
| VTupleRest (vs : list value) (v : value)
| VLeft (v : value)
| VRight (v : value)
| VAnnotatable (body : value) (annotation : option value)
| VParameterizable (callee : value) (params : option value).

(** matcher.rs:10-14: where, and what was expected there. *)
Record error := { e_loc : srcloc; e_expect : matcher }.
Definition res := (value + error)%type.

Definition failure (m : matcher) (s : sexp) : res := inr {| e_loc := sloc s; e_expect := m |}.

(** [Iterator::collect] into a [Result] of a vector: the first error wins. *)
Fixpoint collect (f : sexp -> res) (ss : list sexp) : list value + error :=
  match ss with
  | [] => inl []
  | s :: ss =>
    match f s with
    | inl v => match collect f ss with inl vs => inl (v :: vs) | inr e => inr e end
    | inr e => inr e
    end
  end.

Section Slice.
Variable match_sexp : matcher -> sexp -> res.
(** matcher.rs:76-96 the default [match_sexp_slice], and 111-117 that of [Any]. *)
Definition match_slice (m : matcher) (ss : list sexp) : res :=
  match m with
  | MAny => inl (VSlice ss)
  | _ => match collect (match_sexp m) ss with inl vs => inl (VVec vs) | inr e => inr e end
  end.
(** matcher.rs:244-248: the elements in turn. *)
Fixpoint match_each (ms : list matcher) (ss : list sexp) : list value + error :=
  match ms, ss with
  | m :: ms, s :: ss =>
    match match_sexp m s with
    | inl v => match match_each ms ss with inl vs => inl (v :: vs) | inr e => inr e end
    | inr e => inr e
    end
  | _, _ => inl []
  end.
End Slice.

(** [match_sexp] of each type. *)
Fixpoint match_sexp (m : matcher) (s : sexp) {struct m} : res :=
  match m with
  | MAny => inl (VSexp s)
  | MSymbol => match rep s with RSymbol t => inl (VText t) | _ => failure m s end
  | MString => match rep s with RString t => inl (VText t) | _ => failure m s end
  | MNative => match rep s with RNative n => inl (VNative n) | _ => failure m s end
  | MName => match rep s with RSymbol t => inl (VName (sloc s) t) | _ => failure m s end
  | MList t => match rep s with RList ss => match_slice match_sexp t ss | _ => failure m s end
  | MUnit => match rep s with RList [] => inl VUnit | _ => failure m s end
  | MTuple ms =>
    match rep s with
    | RList ss =>
      if Nat.eqb (List.length ss) (List.length ms) then
        match match_each match_sexp ms ss with inl vs => inl (VTuple vs) | inr e => inr e end
      else failure m s
    | _ => failure m s
    end
  | MTupleRest ms t =>
    match rep s with
    | RList ss =>
      if Nat.leb (List.length ms) (List.length ss) then
        match match_each match_sexp ms ss with
        | inl vs =>
          match match_slice match_sexp t (skipn (List.length ms) ss) with
          | inl v => inl (VTupleRest vs v)
          | inr e => inr e
          end
        | inr e => inr e
        end
      else failure m s
    | _ => failure m s
    end
  | MEither l r =>
    match match_sexp l s with
    | inl v => inl (VLeft v)
    | inr _ => match match_sexp r s with inl v => inl (VRight v) | inr _ => failure m s end
    end
  | MAnnotatable t a =>
    let plain := match match_sexp t s with inl v => inl (VAnnotatable v None) | inr _ => failure m s end in
    match rep s with
    | RList (Sexp _ (RSymbol h) :: body :: ann) =>
      if text_eqb h ANNOTATE then
        match match_sexp t body with
        | inl v => match match_slice match_sexp a ann with inl w => inl (VAnnotatable v (Some w)) | inr e => inr e end
        | inr e => inr e
        end
      else plain
    | _ => plain
    end
  | MParameterizable t p =>
    match match_sexp t s with
    | inl v => inl (VParameterizable v None)
    | inr _ =>
      match rep s with
      | RList (callee :: params) =>
        match match_sexp t callee with
        | inl v => match match_slice match_sexp p params with inl w => inl (VParameterizable v (Some w)) | inr _ => failure m s end
        | inr _ => failure m s
        end
      | _ => failure m s
      end
    end
  end.
