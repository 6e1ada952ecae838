(** The preprocessor's language: what a form stands for under lexically scoped bindings. *)
From Verif.Base Require Import Base.
From Verif.Lexer Require Import Model.
From Verif.Sexp Require Import Model.

(** The bindings in force at a form. *)
Definition env : Type := text -> option sexp.
Definition no_binds : env := fun _ => None.

(** Bindings shadow those around them; [_] binds nothing. *)
Definition extend (e : env) (b : text * sexp) : env :=
  fun x => if text_eqb (fst b) (t_ "_") then e x else if text_eqb x (fst b) then Some (snd b) else e x.
Definition extends (e : env) (bs : list (text * sexp)) : env := fold_left extend bs e.

Definition dollar (s : text) : Prop := exists t, s = t_ "$" ++ t.
Definition binder (s : text) : Prop := dollar s \/ s = t_ "_".
Definition directives : list text :=
  map t_ ["$symbol"; "$let"; "$let1"; "$for"; "$for1"; "$when"; "$not"; "$feature"]%string.

(** A list whose head is a directive. *)
Definition directive_form (ss : list sexp) : Prop :=
  exists l d args, ss = Sexp l (RSymbol d) :: args /\ In d directives.

(** Forms that are neither variables nor lists with elements. *)
Definition atom (s : sexp) : Prop :=
  match s with
  | Sexp _ (RSymbol x) => ~ dollar x
  | Sexp _ (RList (_ :: _)) | Sexp _ (RListLike _ _ _) => False
  | _ => True
  end.

(** The text an element contributes to [$symbol]. *)
Inductive spelled : sexp -> text -> Prop :=
| sp_symbol l s : spelled (Sexp l (RSymbol s)) s
| sp_string l s : spelled (Sexp l (RString s)) s
| sp_char l c : spelled (Sexp l (RChar c)) [c].

(** A list given by its elements and its tail. *)
Definition dotted (l : srcloc) (ss : list sexp) (tail : sexp) : sexp :=
  fold_right (fun a d => Sexp l (rep_cons a d)) tail ss.

(** One variable of [$for], and one row of its elements. *)
Definition names_of (ss : list sexp) (names : list text) : Prop :=
  Forall2 (fun s n => binder n /\ exists l, s = Sexp l (RSymbol n)) ss names.
Definition rows_of (n : nat) (ss : list sexp) (rows : list (list sexp)) : Prop :=
  Forall2 (fun s r => List.length r = n /\ exists l, s = Sexp l (RList r)) ss rows.

Section Expansion.
Variable features : list text.

(** [expands e s out]: under the bindings [e] the form [s] stands for the forms [out]. *)
Inductive expands : env -> sexp -> list sexp -> Prop :=
| x_atom e s : atom s -> expands e s [s]
| x_var e l x s : dollar x -> e x = Some s -> expands e (Sexp l (RSymbol x)) [s]
| x_list e l ss out : ss <> [] -> ~ directive_form ss -> expands_seq e ss out ->
    expands e (Sexp l (RList ss)) [Sexp l (RList out)]
| x_dotted e l h init tail out t : expands_seq e (h :: init) out -> expands e tail [t] ->
    expands e (Sexp l (RListLike h init tail)) [dotted l out t]
| x_symbol e l l0 args out ts : expands_seq e args out -> Forall2 spelled out ts -> List.concat ts <> [] ->
    expands e (Sexp l (RList (Sexp l0 (RSymbol (t_ "$symbol")) :: args))) [Sexp l (RSymbol (List.concat ts))]
| x_let e l l0 l1 binds body bs out : expands_binds e binds bs -> expands_seq (extends e bs) body out ->
    expands e (Sexp l (RList (Sexp l0 (RSymbol (t_ "$let")) :: Sexp l1 (RList binds) :: body))) out
| x_let1 e l l0 l1 x v s body out : binder x -> expands e v [s] -> expands_seq (extends e [(x, s)]) body out ->
    expands e (Sexp l (RList (Sexp l0 (RSymbol (t_ "$let1")) :: Sexp l1 (RSymbol x) :: v :: body))) out
| x_for e l l0 l1 l2 names elems elemss xs rows body outs : names_of names xs -> expands e elems [Sexp l2 (RList elemss)] ->
    rows_of (List.length xs) elemss rows -> expands_each e (map (combine xs) rows) body outs ->
    expands e (Sexp l (RList (Sexp l0 (RSymbol (t_ "$for")) :: Sexp l1 (RList names) :: elems :: body))) (List.concat outs)
| x_for1 e l l0 l1 l2 x elems elems' body outs : binder x -> expands e elems [Sexp l2 (RList elems')] ->
    expands_each e (map (fun s => [(x, s)]) elems') body outs ->
    expands e (Sexp l (RList (Sexp l0 (RSymbol (t_ "$for1")) :: Sexp l1 (RSymbol x) :: elems :: body))) (List.concat outs)
| x_when e l l0 l2 c body out : expands e c [Sexp l2 (RBool true)] -> expands_seq e body out ->
    expands e (Sexp l (RList (Sexp l0 (RSymbol (t_ "$when")) :: c :: body))) out
| x_when_not e l l0 l2 c body : expands e c [Sexp l2 (RBool false)] ->
    expands e (Sexp l (RList (Sexp l0 (RSymbol (t_ "$when")) :: c :: body))) []
| x_not e l l0 l2 c b : expands e c [Sexp l2 (RBool b)] ->
    expands e (Sexp l (RList [Sexp l0 (RSymbol (t_ "$not")); c])) [Sexp l (RBool (negb b))]
| x_feature e l l0 l2 c f : expands e c [Sexp l2 (RString f)] -> In f features ->
    expands e (Sexp l (RList [Sexp l0 (RSymbol (t_ "$feature")); c])) [Sexp l (RBool true)]
| x_no_feature e l l0 l2 c f : expands e c [Sexp l2 (RString f)] -> ~ In f features ->
    expands e (Sexp l (RList [Sexp l0 (RSymbol (t_ "$feature")); c])) [Sexp l (RBool false)]
with expands_seq : env -> list sexp -> list sexp -> Prop :=
| xs_nil e : expands_seq e [] []
| xs_cons e s ss out outs : expands e s out -> expands_seq e ss outs -> expands_seq e (s :: ss) (out ++ outs)
with expands_binds : env -> list sexp -> list (text * sexp) -> Prop :=
| xb_nil e : expands_binds e [] []
| xb_cons e l l1 x v s ss bs : binder x -> expands e v [s] -> expands_binds e ss bs ->
    expands_binds e (Sexp l (RList [Sexp l1 (RSymbol x); v]) :: ss) ((x, s) :: bs)
with expands_each : env -> list (list (text * sexp)) -> list sexp -> list (list sexp) -> Prop :=
| xe_nil e body : expands_each e [] body []
| xe_cons e bs bss body out outs : expands_seq (extends e bs) body out -> expands_each e bss body outs ->
    expands_each e (bs :: bss) body (out :: outs).
End Expansion.

(** Subforms of the source. *)
Inductive sub (t : sexp) : sexp -> Prop :=
| s_here : sub t t
| s_list l ss s : In s ss -> sub t s -> sub t (Sexp l (RList ss))
| s_dotted l h init tail s : In s (tail :: h :: init) -> sub t s -> sub t (Sexp l (RListLike h init tail)).

Definition bound_name (b : sexp) : list text :=
  match b with
  | Sexp _ (RSymbol x) | Sexp _ (RList (Sexp _ (RSymbol x) :: _)) => if text_eqb x (t_ "_") then [] else [x]
  | _ => []
  end.

(** No [$let] or [$for] binds one name twice. *)
Definition distinct_binders (s : sexp) : Prop :=
  forall l l0 d l1 binds body, sub (Sexp l (RList (Sexp l0 (RSymbol d) :: Sexp l1 (RList binds) :: body))) s ->
  d = t_ "$let" \/ d = t_ "$for" -> NoDup (flat_map bound_name binds).

(** Forms without any [$] symbol, as the parser builds them. *)
Inductive plain : sexp -> Prop :=
| pl_atom s : atom s -> plain s
| pl_list l ss : (forall s, In s ss -> plain s) -> plain (Sexp l (RList ss))
| pl_dotted l h init tail : (forall s, In s (h :: init) -> plain s) -> plain tail ->
    (forall l' ss, tail <> Sexp l' (RList ss)) -> (forall l' a b c, tail <> Sexp l' (RListLike a b c)) ->
    plain (Sexp l (RListLike h init tail)).
