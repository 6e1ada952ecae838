(** * What a layout must satisfy *)
From Coq Require Import Permutation.
From Verif.Base Require Import Base.
From Verif.Ir Require Import Model.
From Verif.Layout Require Import Model.
Local Open Scope N_scope.

(** A type without contents has neither size nor alignment.  Any other has an alignment that is a
    power of two and a size that is a multiple of it. *)
Definition ok (l : layout) : Prop :=
  (size l = 0 /\ align l = 0) \/
  (0 < size l /\ (exists k, align l = 2 ^ k) /\ size l mod align l = 0).

(** An element placed at an offset. *)
Definition end_of (e : N * layout) : N := fst e + size (snd e).
Definition multiple_of (a n : N) : Prop := a = 0 \/ (a | n).
Definition aligned (e : N * layout) : Prop := multiple_of (align (snd e)) (fst e).

(** Pieces one after the other, so that no two overlap. *)
Inductive in_order : list (N * layout) -> Prop :=
| in_order_nil : in_order []
| in_order_cons e es : Forall (fun e' => end_of e <= fst e') es -> in_order es -> in_order (e :: es).

(** The pieces are at multiples of their alignments (also when the whole is placed at a multiple of
    its own), do not overlap, and lie inside. *)
Definition placed (l : layout) (es : list (N * layout)) : Prop :=
  Forall aligned es /\ in_order es /\
  Forall (fun e => end_of e <= size l /\ multiple_of (align (snd e)) (align l)) es.

(** The parts of a value that are not divided further. *)
Inductive leaf : layout -> N -> layout -> Prop :=
| leaf_self l : composite l = None -> leaf l 0 l
| leaf_elem l es cs o e p f : composite l = Some (es, cs) -> In (o, e) es -> leaf e p f -> leaf l (o + p) f.

(** The pieces are no further apart than their alignments require, as in the C ABI. *)
Fixpoint packed (al prev : N) (es : list (N * layout)) (total : N) : Prop :=
  match es with
  | [] => prev <= total /\ (total = prev \/ total < prev + al)
  | (o, e) :: es => prev <= o /\ (o = prev \/ o < prev + align e) /\ packed al (o + size e) es total
  end.
Definition align_of (ls : list layout) (a : N) : Prop := a = 0 \/ In a (map align ls).

(** The layout of a structure with fields of the layouts [ls]. *)
Definition struct_layout (ls : list layout) (l : layout) : Prop :=
  align_of ls (align l) /\
  exists es cs, composite l = Some (es, cs) /\ map snd es = ls /\ placed l es /\
    packed (align l) 0 es (size l) /\
    placed l cs /\ (forall p f, In (p, f) cs <-> leaf l p f).

(** The layout of a union: every alternative fits and is aligned, and no space is wasted. *)
Definition union_layout (ls : list layout) (l : layout) : Prop :=
  align_of ls (align l) /\
  Forall (fun a => size a <= size l /\ multiple_of (align a) (align l)) ls /\
  (size l = 0 \/ exists a, In a ls /\ size l < size a + align l) /\
  composite l = None.

(** Values of more than 16 bytes are passed in memory, those of 0 bytes not at all. *)
Definition class_ok (l : layout) : Prop :=
  (cls l = Memory <-> 16 < size l) /\ (cls l = Void <-> size l = 0).

(** The class of a value of 1 to 16 bytes starting at [offset] and of 8 bytes at most: INTEGER when
    some part in it is, SSE when all parts in it are floating-point numbers. *)
Definition touches (offset : N) (p : N) (f : layout) : Prop := p < offset + 8 /\ offset < p + size f.
Definition has_class (l : layout) (offset : N) (c : class) : Prop :=
  match c with
  | Integer => exists p f, leaf l p f /\ touches offset p f /\ cls f = Integer
  | FloatingPoint =>
      (exists p f, leaf l p f /\ touches offset p f) /\
      forall p f, leaf l p f -> touches offset p f -> 0 < size f -> cls f = FloatingPoint
  | Void | Memory => False
  end.

(** The eightbytes of a value: they start at multiples of 8, follow each other and make up the
    value. *)
Fixpoint eightbytes_cover (offset : N) (es : list eightbyte) (total : N) : Prop :=
  match es with
  | [] => offset = total
  | e :: es =>
      e_offset e = offset /\ 1 <= e_size e <= 8 /\
      (es = [] \/ e_size e = 8) /\ eightbytes_cover (offset + e_size e) es total
  end.

(** ** Which types have a layout *)

(** The layouts of the types that refer to no definition. *)
Definition base_layout (t : ct) (l : layout) : Prop :=
  match t with
  | CtPtr _ | CtEnv | CtSyntax _ => l = Layout 8 8 Integer None
  | CtClos _ _ | CtString | CtArray _ | CtCapturedUse => l = Layout 16 8 Integer None
  | CtS s | CtU s =>
      exists k, l = Layout (2 ^ k) (2 ^ k) (if 16 <? 2 ^ k then Memory else Integer) None /\
        N.of_nat s <= 8 * 2 ^ k /\ (k = 0 \/ 8 * 2 ^ (k - 1) < N.of_nat s)
  | CtF32 => l = Layout 4 4 FloatingPoint None
  | CtF64 => l = Layout 8 8 FloatingPoint None
  | CtChar => l = Layout 4 4 Integer None
  | CtUnit => l = Layout 0 0 Void None
  | CtId _ | CtGenericInst _ _ | CtTableGet _ _ => False
  end.

(** [sized known defs t]: the value of type [t] has a finite size, given types [known] already and
    the definitions [defs]. *)
Inductive sized (known : nat -> Prop) (defs : list (nat * def)) : ct -> Prop :=
| sized_base t l : base_layout t l -> sized known defs t
| sized_known id : known id -> sized known defs (CtId id)
| sized_struct id fs : In (id, DStruct fs) defs -> Forall (sized known defs) fs -> sized known defs (CtId id)
| sized_union id ts : In (id, DUnion ts) defs -> Forall (sized known defs) ts -> sized known defs (CtId id).

Definition known (r : resolver) (id : nat) : Prop := exists l, get r (CtId id) = Ret l.

(** The resolvers reached by registering sets of definitions, each in any order. *)
Definition is_type (d : def) : bool := match d with DOther => false | _ => true end.
Inductive reached : resolver -> Prop :=
| reached_new : reached []
| reached_register r order defs r' : reached r -> NoDup (map fst defs) ->
    (forall l, Permutation (order l) l) ->
    register order defs r = Ret r' -> reached r'.

(** Two resolvers that know the same types, with the same layouts. *)
Definition same (r r' : resolver) : Prop := forall t l, get r t = Ret l <-> get r' t = Ret l.
