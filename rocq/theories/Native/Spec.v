(** * S-expressions as compiled code sees them

    The type [Sexp] of builtin.llrl, and syntax: a pointer to the location, two words of 4 bytes, and the value. *)
From Coq Require Import NArith ZArith.
From Verif.Base Require Import Base.
From Verif.Obj Require Import Model Spec.
From Verif.Native Require Import Model.
Local Open Scope Z_scope.

(** [n] bytes at [a] are the number [v]. *)
Definition field (m : memory) (a n v : Z) : Prop := 0 <= v < 256 ^ n /\ holds m a n v.

(** Text is a pointer to its bytes and their number. *)
Definition text (m : memory) (a : Z) (s : list N) : Prop :=
  exists q, field m a 8 q /\ field m (a + 8) 8 (Z.of_nat (List.length s)) /\ loaded m q s.

(** A value made by one of the constructors of [Sexp], numbered in order. *)
Definition constructed (m : memory) (p : Z) (loc : Z * Z) (index : Z) : Prop :=
  field m p 4 (fst loc) /\ field m (p + 4) 4 (snd loc) /\ field m (p + 8) 1 index.

Definition is_list (s : sexp) : Prop :=
  match s with Sexp _ (RList _) | Sexp _ (RListLike _ _ _) => True | _ => False end.

(** At [p] there is the S-expression: a list is shown as cells. *)
Inductive shows (m : memory) : Z -> sexp -> Prop :=
| shows_integer p loc (signed : bool) v : constructed m p loc 0 -> field m (p + 16) 1 (if signed then 1 else 0) ->
    field m (p + 24) 8 v -> shows m p (Sexp loc (RInteger signed v))
| shows_fpnumber p loc bits : constructed m p loc 1 -> field m (p + 16) 8 bits -> shows m p (Sexp loc (RFPNumber bits))
| shows_bool p loc (b : bool) : constructed m p loc 2 -> field m (p + 16) 1 (if b then 1 else 0) -> shows m p (Sexp loc (RBool b))
| shows_symbol p loc s : constructed m p loc 3 -> text m (p + 16) s -> shows m p (Sexp loc (RSymbol s))
| shows_string p loc s : constructed m p loc 4 -> text m (p + 16) s -> shows m p (Sexp loc (RString s))
| shows_char p loc c : constructed m p loc 5 -> field m (p + 16) 4 c -> shows m p (Sexp loc (RChar c))
| shows_nil p loc : constructed m p loc 7 -> shows m p (Sexp loc (RList []))
| shows_list p loc loc' a d x l : constructed m p loc 6 -> field m (p + 16) 8 a -> field m (p + 24) 8 d ->
    shows m a x -> shows m d (Sexp loc' (RList l)) -> shows m p (Sexp loc (RList (x :: l)))
| shows_pair p loc a d x y : constructed m p loc 6 -> field m (p + 16) 8 a -> field m (p + 24) 8 d ->
    shows m a x -> shows m d y -> ~ is_list y -> shows m p (Sexp loc (RListLike x [] y))
| shows_list_like p loc loc' a d x y l last : constructed m p loc 6 -> field m (p + 16) 8 a -> field m (p + 24) 8 d ->
    shows m a x -> shows m d (Sexp loc' (RListLike y l last)) -> shows m p (Sexp loc (RListLike x (y :: l) last))
| shows_use p loc u : constructed m p loc 8 -> field m (p + 16) 8 (fst u) -> field m (p + 24) 8 (snd u) ->
    shows m p (Sexp loc (RNative (Some u))).

(** The S-expressions of the compiler: numbers are of the types of Rust, lists do not end in lists, and native
    values are uses. *)
Inductive proper : sexp -> Prop := Proper loc r : 0 <= fst loc < 2 ^ 32 -> 0 <= snd loc < 2 ^ 32 -> proper_rep r -> proper (Sexp loc r)
with proper_rep : srep -> Prop :=
| proper_integer signed v : 0 <= v < 2 ^ 64 -> proper_rep (RInteger signed v)
| proper_fpnumber bits : 0 <= bits < 2 ^ 64 -> proper_rep (RFPNumber bits)
| proper_symbol s : Z.of_nat (List.length s) < 2 ^ 64 -> proper_rep (RSymbol s)
| proper_string s : Z.of_nat (List.length s) < 2 ^ 64 -> proper_rep (RString s)
| proper_char c : 0 <= c < 1114112 -> proper_rep (RChar c)
| proper_nil : proper_rep (RList [])
| proper_cons x l : proper x -> proper_rep (RList l) -> proper_rep (RList (x :: l))
| proper_pair x y : proper x -> proper y -> ~ is_list y -> proper_rep (RListLike x [] y)
| proper_list_like x y l last : proper x -> proper_rep (RListLike y l last) -> proper_rep (RListLike x (y :: l) last)
| proper_bool b : proper_rep (RBool b)
| proper_use u : 0 <= fst u < 2 ^ 64 -> 0 <= snd u < 2 ^ 64 -> proper_rep (RNative (Some u)).

(** Values and bytes that an S-expression takes. *)
Fixpoint cells (s : sexp) : nat :=
  let 'Sexp _ r := s in
  match r with
  | RList l => 1 + fold_right (fun x n => 1 + cells x + n) 0 l
  | RListLike x l y => 1 + cells x + fold_right (fun x n => 1 + cells x + n) 0 l + cells y
  | _ => 1
  end%nat.
Fixpoint texts (s : sexp) : Z :=
  let 'Sexp _ r := s in
  match r with
  | RSymbol s | RString s => Z.of_nat (List.length s)
  | RList l => fold_right (fun x n => texts x + n) 0 l
  | RListLike x l y => texts x + fold_right (fun x n => texts x + n) 0 l + texts y
  | _ => 0
  end.
Definition footprint (s : sexp) : Z := 32 * Z.of_nat (cells s) + texts s.

(** Blocks of memory are apart, and have addresses. *)
Definition sound (malloc : heap -> Z -> option Z) : Prop :=
  forall h n a, malloc h n = Some a -> 0 < a /\ a + n <= 2 ^ 64 /\
    forall b, In b (blocks h) -> a + n <= fst b \/ fst b + snd b <= a.

Definition within (b : Z * Z) (x : Z) : Prop := fst b <= x < fst b + snd b.

(** Blocks were added, [n] bytes in all, and those there were have kept their contents. *)
Definition grown (h h' : heap) (new : list (Z * Z)) (n : Z) : Prop :=
  blocks h' = new ++ blocks h /\ fold_right (fun b n => snd b + n) 0 new = n /\
  forall b x, In b (blocks h) -> within b x -> mem h' x = mem h x.

Definition agree (bs : list (Z * Z)) (m m' : memory) : Prop := forall b x, In b bs -> within b x -> m x = m' x.

(** ** Results of macros: the type [Result] of std, with [err] before [ok] *)
Definition shows_result (m : memory) (a : Z) (r : sexp + list N) : Prop :=
  match r with
  | inr s => field m a 1 0 /\ text m (a + 8) s
  | inl s => field m a 1 1 /\ exists p, field m (a + 8) 8 p /\ shows m p s
  end.
Definition result_cells (r : sexp + list N) : nat := match r with inl s => cells s | inr _ => 0 end.

(** ** Data with references *)
Inductive stored (m : memory) : Z -> rep -> Prop :=
| stored_rep a al d ind : a mod al = 0 ->
    (forall i b, nth_error d (Z.to_nat i) = Some b -> 0 <= i -> (forall off r, In (off, r) ind -> ~ off <= i < off + 8) -> m (a + i) = b) ->
    (forall off r, In (off, r) ind -> exists q, field m (a + off) 8 q /\ stored m q r) ->
    stored m a (Rep al d ind).

(** References have their places, apart from each other. *)
Inductive sensible : rep -> Prop :=
| sensible_rep al d ind : 0 < al -> (al | 8) ->
    Forall (fun x => 0 <= fst x /\ fst x + 8 <= Z.of_nat (List.length d)) ind ->
    ForallOrdPairs (fun x y => fst x + 8 <= fst y \/ fst y + 8 <= fst x) ind ->
    Forall (fun x => sensible (snd x)) ind -> sensible (Rep al d ind).

(** The uses of labels that come later are not in what was there. *)
Definition later (w : writer) (es : list event) : Prop :=
  forall u, In u (uses es) -> l_section (u_location u) = Rodata -> position w Rodata <= l_pos (u_location u).

(** .rodata is at an aligned address, and in the address space. *)
Definition addressed (lk : linking) (w : writer) : Prop :=
  0 <= place lk Rodata /\ place lk Rodata mod 8 = 0 /\ place lk Rodata + position w Rodata < 2 ^ 64.
