(** What names mean in nested scopes, and which names an import or export binds. *)
From Verif.Base Require Import Base.
From Verif.Sexp Require Import Model.
From Verif.Scope Require Import Model.

(** ** Nested scopes: the bindings of the top level and of every open scope, innermost first. *)
Record frames := { top : list (text * located); inner : list (list (text * located)) }.
Fixpoint find_in (n : text) (f : list (text * located)) : option located :=
  match f with
  | [] => None
  | (m, c) :: f => if text_eqb n m then Some c else find_in n f
  end.
Fixpoint meaning_in (n : text) (fs : list (list (text * located))) (outer : option located) : option located :=
  match fs with
  | [] => outer
  | f :: fs => match find_in n f with Some c => Some c | None => meaning_in n fs outer end
  end.
Definition meaning (n : text) (f : frames) : option located := meaning_in n (inner f) (find_in n (top f)).

(** One operation on the innermost scope: the frames afterwards and the answer. *)
Definition spec_step (o : op) (f : frames) : frames * response :=
  match o with
  | Enter => ({| top := top f; inner := [] :: inner f |}, Done)
  | Leave => ({| top := top f; inner := tl (inner f) |}, Done)
  | Get n => (f, Got (meaning n f))
  | Define n c =>
    match inner f with
    | [] =>
      ({| top := (n, c) :: top f; inner := [] |},
       match find_in n (top f) with
       | Some old => if (construct old =? construct c)%N then Done else Failed (MultipleDeclarations n old c)
       | None => Done
       end)
    | f0 :: fs =>
      ({| top := top f; inner := ((n, c) :: f0) :: fs |},
       match find_in n f0 with Some old => Failed (DuplicatedIdentifier n old c) | None => Done end)
    end
  end.
Fixpoint spec_session (ops : list op) (f : frames) : list response :=
  match ops with
  | [] => []
  | o :: ops =>
    let (f, r) := spec_step o f in
    match r with Failed _ => [r] | _ => r :: spec_session ops f end
  end.

(** ** Ports *)

(** [stands p r x]: the pattern [p], whose first or last character is the wildcard [_], is [x] when
    the wildcard stands for [r]. *)
Inductive stands : text -> text -> text -> Prop :=
| st_all r : stands (t_ "_") r r
| st_suffix s r : s <> [] -> stands (t_ "_" ++ s) r (r ++ s)
| st_prefix p r : ~ (exists q, p = t_ "_" ++ q) -> p <> [] -> stands (p ++ t_ "_") r (p ++ r).
Definition wild (p : text) : Prop := (exists q, p = t_ "_" ++ q) \/ (exists q, p = q ++ t_ "_").

(** The targets of an import or export form, as written: [x], or [(n x)] to rename. *)
Inductive target_of : sexp -> option text -> text -> Prop :=
| to_plain l x : target_of (Sexp l (RSymbol x)) None x
| to_renamed l l1 l2 n x : target_of (Sexp l (RList [Sexp l1 (RSymbol n); Sexp l2 (RSymbol x)])) (Some n) x.
Definition new_name (o : option text) (x : text) : text := match o with Some n => n | None => x end.

(** [selects s x n]: the target [s] makes the name [x] of the source known as [n]. A wildcard with
    other text stands for at least one character. *)
Definition selects (s : sexp) (x n : text) : Prop :=
  exists o t, target_of s o t /\
  ((~ wild t /\ x = t /\ n = new_name o t) \/
   (wild t /\ exists r, stands t r x /\ (r = [] -> t = t_ "_") /\ stands (new_name o t) r n)).

(** A target that can be served from the given names: one that is well written, names something
    present, and keeps wildcards wildcards. *)
Definition servable (present : text -> Prop) (s : sexp) : Prop :=
  exists o t, target_of s o t /\ (wild t -> wild (new_name o t)) /\ (~ wild t -> present t).

(** Bindings without regard to their locations. *)
Definition names_in (t : table) (n : text) (c : N) : Prop := exists lc, In (n, lc) t /\ construct lc = c.
Definition known (t : table) (n : text) : Prop := exists c, names_in t n c.

(** No name is bound to two different constructs. *)
Definition consistent (B : text -> N -> Prop) : Prop := forall n c c', B n c -> B n c' -> c = c'.

Inductive import_form : sexp -> text -> list sexp -> Prop :=
| if_ l l0 l1 path targets :
    import_form (Sexp l (RList (Sexp l0 (RSymbol (t_ "import")) :: Sexp l1 (RString path) :: targets))) path targets.
Inductive export_form : sexp -> list sexp -> Prop :=
| ef_ l l0 targets : export_form (Sexp l (RList (Sexp l0 (RSymbol (t_ "export")) :: targets))) targets.

(** The bindings the import forms of the code ask for, where [find] leads from a path to a module. *)
Definition imported (find : text -> option module) (code : list sexp) (n : text) (c : N) : Prop :=
  exists s path targets id exports t x, In s code /\ import_form s path targets /\ find path = Some (id, exports) /\
  In t targets /\ selects t x n /\ names_in exports x c.
Definition exported (code : list sexp) (top : table) (n : text) (c : N) : Prop :=
  exists s targets t x, In s code /\ export_form s targets /\ In t targets /\ selects t x n /\ names_in top x c.
Definition imports_servable (find : text -> option module) (code : list sexp) : Prop :=
  forall s path targets id exports t, In s code -> import_form s path targets -> find path = Some (id, exports) -> In t targets ->
  servable (known exports) t.
Definition exports_servable (code : list sexp) (top : table) : Prop :=
  forall s targets t, In s code -> export_form s targets -> In t targets -> servable (known top) t.

(** Import paths of the code, in order. *)
Inductive import_ids (find : text -> option module) : list sexp -> list N -> Prop :=
| ii_nil : import_ids find [] []
| ii_other s ss ids : (forall p ts, ~ import_form s p ts) -> import_ids find ss ids -> import_ids find (s :: ss) ids
| ii_import s ss path targets id exports ids : import_form s path targets -> find path = Some (id, exports) ->
    import_ids find ss ids -> import_ids find (s :: ss) (id :: ids).
