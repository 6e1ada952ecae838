(** * llrl0/src/backend/native/data.rs, calling.rs and llrl0/src/ast/builtin.rs

    S-expressions on the way to compiled code and back: as arguments and results of macros, and as constants.
    Only the instances that the compiler uses are modelled: syntax of S-expressions, strings, results of macros. *)
From Coq Require Import NArith ZArith.
From Verif.Base Require Import Base.
From Verif.Asm Require Model.
From Verif.Obj Require Import Model.
Import Asm.Model(le_bytes).
Local Open Scope Z_scope.

(** ** Memory *)

Definition memory : Type := Z -> N.
(** The memory and the blocks given by [GC_malloc], by address and size.  Simplification: no block is ever freed,
    as long as a value uses it. *)
Record heap := Heap { mem : memory; blocks : list (Z * Z) }.

Definition store (m : memory) (a : Z) (bs : list N) : memory :=
  fun x => if (a <=? x) && (x <? a + Z.of_nat (List.length bs)) then nth (Z.to_nat (x - a)) bs 0%N else m x.
Fixpoint load (m : memory) (a : Z) (n : nat) : Z :=
  match n with
  | O => 0
  | S n => Z.of_N (m a) + 256 * load m (a + 1) n
  end.
Definition loads (m : memory) (a : Z) (n : nat) : list N := map (fun i => m (a + Z.of_nat i)) (seq 0 n).

(** [llrt::GC_malloc]: the addresses are chosen by [malloc], and [None] is the end of the memory, at which the program ends.
    What the block contains is not specified. *)
Definition gc_malloc (malloc : heap -> Z -> option Z) (h : heap) (n : Z) : outcome (Z * heap) :=
  match malloc h n with
  | Some a => Ret (a, Heap (mem h) ((a, n) :: blocks h))
  | None => Panic
  end.

(** ** The structures declared [repr(C)], by the sizes and alignments of their fields *)

Definition round_up (n a : Z) : Z := (n + a - 1) / a * a.
Fixpoint c_offsets (from : Z) (fields : list (Z * Z)) : list Z :=
  match fields with
  | [] => []
  | (s, a) :: fields => round_up from a :: c_offsets (round_up from a + s) fields
  end.
Fixpoint c_end (from : Z) (fields : list (Z * Z)) : Z :=
  match fields with
  | [] => from
  | (s, a) :: fields => c_end (round_up from a + s) fields
  end.
Definition c_align (fields : list (Z * Z)) : Z := fold_right (fun f => Z.max (snd f)) 1 fields.
Definition c_struct (fields : list (Z * Z)) : Z * Z := (round_up (c_end 0 fields) (c_align fields), c_align fields).
Definition c_union (fields : list (Z * Z)) : Z * Z :=
  (round_up (fold_right (fun f => Z.max (fst f)) 0 fields) (c_align fields), c_align fields).
(** [offset_of!] *)
Definition offset_of (fields : list (Z * Z)) (i : nat) : Z := nth i (c_offsets 0 fields) 0.

Definition u8 := (1, 1).
Definition u32 := (4, 4).
Definition u64 := (8, 8).
(** data.rs:86-90 [NativeString] *)
Definition string_fields := [u64; u64].
(** data.rs:168-173 [NativeCapturedUse] *)
Definition use_fields := [u64; u64].
(** data.rs:340-345 [NativeSyntaxMetadata] *)
Definition metadata_fields := [u32; u32].
(** data.rs:556-564 [NativeSexpInteger], :596-600 [NativeSexpCons] *)
Definition integer_fields := [u8; u64].
Definition cons_fields := [u64; u64].
(** data.rs:540-552 [NativeSexpBody], with the structures of a single field :563-609 *)
Definition body_union := c_union [c_struct integer_fields; c_struct [u64]; c_struct [u8]; c_struct [c_struct string_fields];
  c_struct [c_struct string_fields]; c_struct [u32]; c_struct cons_fields; c_struct []; c_struct [c_struct use_fields]].
(** data.rs:366-371 [NativeSexp] *)
Definition sexp_fields := [u8; body_union].
(** data.rs:300-305 [NativeSyntaxBuffer<NativeSexp>] *)
Definition buffer_fields := [c_struct metadata_fields; c_struct sexp_fields].
(** data.rs:196-200, :258-262 [NativeResult<NativeSyntax<NativeSexp>, NativeString>] *)
Definition result_fields := [u8; c_union [c_struct string_fields; u64]].

(** ** S-expressions *)

(** sexp.rs:38-43, :174-185 [Sexp]: the location, two numbers, is opaque here.  Floating-point numbers are given by their bits, text by its bytes
    in UTF-8, and a native value that is a use ([Construct]) by its two words; [None] is any other. *)
Inductive sexp := Sexp (loc : Z * Z) (r : srep)
with srep :=
| RInteger (signed : bool) (value : Z)
| RFPNumber (bits : Z)
| RSymbol (s : list N)
| RString (s : list N)
| RChar (c : Z)
| RList (l : list sexp)
| RListLike (head : sexp) (init : list sexp) (last : sexp)
| RBool (b : bool)
| RNative (use_ : option (Z * Z)).

Definition rep_of (s : sexp) : srep := let 'Sexp _ r := s in r.

(** sexp.rs:208-225 [SexpRep::list_like] *)
Definition list_like (head : sexp) (init : list sexp) (last : sexp) : srep :=
  match rep_of last with
  | RList l => RList (head :: init ++ l)
  | RListLike prev_head prev_init last => RListLike head (init ++ prev_head :: prev_init) last
  | _ => RListLike head init last
  end.

(** sexp.rs:227-240 [SexpRep::cons] *)
Definition cons_ (car cdr : sexp) : srep :=
  match rep_of cdr with
  | RList l => RList (car :: l)
  | RListLike prev_head init last => RListLike car (prev_head :: init) last
  | _ => list_like car [] cdr
  end.

(** builtin.rs:178-189 [Sexp] *)
Inductive body :=
| BInteger (signed : bool) (value : Z) | BFPNumber (bits : Z) | BBool (b : bool) | BSymbol (s : list N) | BString (s : list N)
| BChar (c : Z) | BCons (car cdr : sexp) | BNil | BUse (u : Z * Z).

(** builtin.rs:194-206 [pack] *)
Definition pack (b : body) (meta : Z * Z) : sexp :=
  match b with
  | BInteger signed value => Sexp meta (RInteger signed value)
  | BFPNumber bits => Sexp meta (RFPNumber bits)
  | BBool b => Sexp meta (RBool b)
  | BSymbol s => Sexp meta (RSymbol s)
  | BString s => Sexp meta (RString s)
  | BChar c => Sexp meta (RChar c)
  | BCons car cdr => Sexp meta (cons_ car cdr)
  | BNil => Sexp meta (RList [])
  | BUse u => Sexp meta (RNative (Some u))
  end.

(** builtin.rs:208-241 [unpack] *)
Definition unpack (s : sexp) : outcome ((Z * Z) * body) :=
  let 'Sexp meta r := s in
  match r with
  | RInteger signed value => Ret (meta, BInteger signed value)
  | RFPNumber bits => Ret (meta, BFPNumber bits)
  | RSymbol s => Ret (meta, BSymbol s)
  | RString s => Ret (meta, BString s)
  | RChar c => Ret (meta, BChar c)
  | RList [] => Ret (meta, BNil)
  | RList (car :: l) => Ret (meta, BCons car (Sexp meta (RList l)))
  | RListLike head [] last => Ret (meta, BCons head last)
  | RListLike head (cadr :: init) last => Ret (meta, BCons head (Sexp meta (RListLike cadr init last)))
  | RBool b => Ret (meta, BBool b)
  | RNative (Some u) => Ret (meta, BUse u)
  | RNative None => Panic
  end.

(** ** Values of compiled code *)

(** A [NativeSexp] (data.rs:366-371) as its constructors make it (:374-444) and [into_view] sees it (:446-459,
    :528-538). *)
Inductive view :=
| VInteger (signed : bool) (value : Z) | VFPNumber (bits : Z) | VBool (b : bool) | VSymbol (s : Z * Z) | VString (s : Z * Z)
| VChar (c : Z) | VCons (car cdr : Z) | VNil | VUse (u : Z * Z).

(** data.rs:374-444: the tags given by the constructors *)
Definition tag_of (v : view) : Z :=
  match v with
  | VInteger _ _ => 0
  | VFPNumber _ => 1
  | VBool _ => 2
  | VSymbol _ => 3
  | VString _ => 4
  | VChar _ => 5
  | VCons _ _ => 6
  | VNil => 7
  | VUse _ => 8
  end.

Definition byte_of (b : bool) : Z := if b then 1 else 0.

(** Fields of structures in memory: [std::ptr::write] and the reads of fields.  Bytes between fields keep what the
    memory had. *)
Definition write_string (m : memory) (a : Z) (s : Z * Z) : memory :=
  store (store m (a + offset_of string_fields 0) (le_bytes 8 (fst s))) (a + offset_of string_fields 1) (le_bytes 8 (snd s)).
Definition read_string (m : memory) (a : Z) : Z * Z :=
  (load m (a + offset_of string_fields 0) 8, load m (a + offset_of string_fields 1) 8).
Definition write_use (m : memory) (a : Z) (u : Z * Z) : memory :=
  store (store m (a + offset_of use_fields 0) (le_bytes 8 (fst u))) (a + offset_of use_fields 1) (le_bytes 8 (snd u)).
Definition read_use (m : memory) (a : Z) : Z * Z :=
  (load m (a + offset_of use_fields 0) 8, load m (a + offset_of use_fields 1) 8).

Definition write_sexp (m : memory) (a : Z) (v : view) : memory :=
  let m := store m (a + offset_of sexp_fields 0) (le_bytes 1 (tag_of v)) in
  let a := a + offset_of sexp_fields 1 in
  match v with
  | VInteger signed value =>
      store (store m (a + offset_of integer_fields 0) (le_bytes 1 (byte_of signed))) (a + offset_of integer_fields 1) (le_bytes 8 value)
  | VFPNumber bits => store m a (le_bytes 8 bits)
  | VBool b => store m a (le_bytes 1 (byte_of b))
  | VSymbol s | VString s => write_string m a s
  | VChar c => store m a (le_bytes 4 c)
  | VCons car cdr => store (store m (a + offset_of cons_fields 0) (le_bytes 8 car)) (a + offset_of cons_fields 1) (le_bytes 8 cdr)
  | VNil => m
  | VUse u => write_use m a u
  end.

(** A byte that is neither 0 nor 1 is no [bool]: undefined, not a panic. *)
Definition read_bool (m : memory) (a : Z) : outcome bool :=
  let b := load m a 1 in if b =? 0 then Ret false else if b =? 1 then Ret true else Panic.

(** data.rs:446-459 [into_view] *)
Definition read_sexp (m : memory) (a : Z) : outcome view :=
  let tag := load m (a + offset_of sexp_fields 0) 1 in
  let a := a + offset_of sexp_fields 1 in
  match tag with
  | 0 => let* s := read_bool m (a + offset_of integer_fields 0) in Ret (VInteger s (load m (a + offset_of integer_fields 1) 8))
  | 1 => Ret (VFPNumber (load m a 8))
  | 2 => let* b := read_bool m a in Ret (VBool b)
  | 3 => Ret (VSymbol (read_string m a))
  | 4 => Ret (VString (read_string m a))
  | 5 => Ret (VChar (load m a 4))
  | 6 => Ret (VCons (load m (a + offset_of cons_fields 0) 8) (load m (a + offset_of cons_fields 1) 8))
  | 7 => Ret VNil
  | 8 => Ret (VUse (read_use m a))
  | _ => Panic
  end.

(** ** To compiled code *)

(** data.rs:104-120 [NativeString::from_str] *)
Definition string_from_host (malloc : heap -> Z -> option Z) (h : heap) (s : list N) : outcome ((Z * Z) * heap) :=
  match s with
  | [] => Ret ((0, 0), h)
  | _ =>
      let n := Z.of_nat (List.length s) in
      let* x := gc_malloc malloc h n in
      let (p, h) := x in
      Ret ((p, n), Heap (store (mem h) p s) (blocks h))
  end.

(** data.rs:281-290, :319-326, :345-357 [from_host] of syntax and of its buffer, with :482-499 that of S-expressions.
    [fuel] bounds the depth of the recursion. *)
Fixpoint syntax_from_host (malloc : heap -> Z -> option Z) (fuel : nat) (h : heap) (s : sexp) : outcome (Z * heap) :=
  match fuel with
  | O => OutOfFuel
  | S fuel =>
      let* u := unpack s in
      let '(meta, b) := u in
      let* r :=
        match b with
        | BInteger signed value => Ret (VInteger signed value, h)
        | BFPNumber bits => Ret (VFPNumber bits, h)
        | BBool b => Ret (VBool b, h)
        | BSymbol s => let* x := string_from_host malloc h s in Ret (VSymbol (fst x), snd x)
        | BString s => let* x := string_from_host malloc h s in Ret (VString (fst x), snd x)
        | BChar c => Ret (VChar c, h)
        | BCons car cdr =>
            let* x := syntax_from_host malloc fuel h car in
            let* y := syntax_from_host malloc fuel (snd x) cdr in
            Ret (VCons (fst x) (fst y), snd y)
        | BNil => Ret (VNil, h)
        | BUse u => Ret (VUse u, h)
        end in
      let '(v, h) := r in
      let* x := gc_malloc malloc h (fst (c_struct buffer_fields)) in
      let (p, h) := x in
      let m := store (mem h) (p + offset_of buffer_fields 0 + offset_of metadata_fields 0) (le_bytes 4 (fst meta)) in
      let m := store m (p + offset_of buffer_fields 0 + offset_of metadata_fields 1) (le_bytes 4 (snd meta)) in
      Ret (p, Heap (write_sexp m (p + offset_of buffer_fields 1) v) (blocks h))
  end.

(** ** From compiled code *)

(** data.rs:93-102 [as_str] *)
Definition as_str (m : memory) (s : Z * Z) : list N :=
  if snd s =? 0 then [] else loads m (fst s) (Z.to_nat (snd s)).

(** data.rs:276-279, :313-317, :350-352 [into_host] of syntax and of its buffer, with :466-480 that of S-expressions *)
Fixpoint syntax_into_host (fuel : nat) (m : memory) (p : Z) : outcome sexp :=
  match fuel with
  | O => OutOfFuel
  | S fuel =>
      let meta := (load m (p + offset_of buffer_fields 0 + offset_of metadata_fields 0) 4,
        load m (p + offset_of buffer_fields 0 + offset_of metadata_fields 1) 4) in
      let* v := read_sexp m (p + offset_of buffer_fields 1) in
      let* b :=
        match v with
        | VInteger signed value => Ret (BInteger signed value)
        | VFPNumber bits => Ret (BFPNumber bits)
        | VBool b => Ret (BBool b)
        | VSymbol s => Ret (BSymbol (as_str m s))
        | VString s => Ret (BString (as_str m s))
        | VChar c => Ret (BChar c)
        | VCons car cdr =>
            let* x := syntax_into_host fuel m car in
            let* y := syntax_into_host fuel m cdr in
            Ret (BCons x y)
        | VNil => Ret BNil
        | VUse u => Ret (BUse u)
        end in
      Ret (pack b meta)
  end.

(** data.rs:224-231 [into_inner], :236-241 [into_host] of the result of a macro, which is at [a]: [inl] is [Ok] *)
Definition result_into_host (fuel : nat) (m : memory) (a : Z) : outcome (sexp + list N) :=
  let b := a + offset_of result_fields 1 in
  match load m (a + offset_of result_fields 0) 1 with
  | 0 => Ret (inr (as_str m (read_string m b)))
  | 1 => let* s := syntax_into_host fuel m (load m b 8) in Ret (inl s)
  | _ => Panic
  end.

(** calling.rs:7-18 [native_macro]: the compiled macro [f] gets the heap and the argument, and leaves a heap and
    the address of its result. *)
Definition native_macro (malloc : heap -> Z -> option Z) (fuel : nat) (f : heap -> Z -> heap * Z) (h : heap) (s : sexp)
  : outcome (sexp + list N) :=
  let* x := syntax_from_host malloc fuel h s in
  let (h, a) := f (snd x) (fst x) in
  result_into_host fuel (mem h) a.

(** ** Constants *)

(** data.rs:16-21 [Rep] *)
Inductive rep := Rep (align : Z) (direct : list N) (indirect : list (Z * rep)).
Definition direct (r : rep) : list N := let 'Rep _ d _ := r in d.

(** data.rs:23-30 [Rep::zero], [Rep::bytes] *)
Definition rep_zero (t : Z * Z) : rep := Rep (snd t) (repeat 0%N (Z.to_nat (fst t))) [].
Definition rep_bytes (bs : list N) : rep := Rep 1 bs [].

(** data.rs:69-71 [RepWriter::write]; out of range, the slice panics.  :81-83 [reference].  [off] is the offset
    of the writer, and [offset] and [put] (:73-79) add to it. *)
Definition rep_write (r : rep) (off : Z) (bs : list N) : outcome rep :=
  let 'Rep al d ind := r in
  if off + Z.of_nat (List.length bs) <=? Z.of_nat (List.length d) then Ret (Rep al (write_at d off bs) ind) else Panic.
Definition rep_reference (r : rep) (off : Z) (x : rep) : rep :=
  let 'Rep al d ind := r in Rep al d (ind ++ [(off, x)]).

(** data.rs:135-140 [embed] of strings *)
Definition embed_string (m : memory) (s : Z * Z) (r : rep) (off : Z) : outcome rep :=
  rep_write (rep_reference r (off + offset_of string_fields 0) (rep_bytes (as_str m s)))
    (off + offset_of string_fields 1) (le_bytes 8 (snd s)).

(** data.rs:501-526 [embed] of S-expressions; [syntax] is that of syntax *)
Definition embed_sexp (syntax : Z -> rep -> Z -> outcome rep) (m : memory) (v : view) (r : rep) (off : Z) : outcome rep :=
  let* r := rep_write r (off + offset_of sexp_fields 0) (le_bytes 1 (tag_of v)) in
  let off := off + offset_of sexp_fields 1 in
  match v with
  | VInteger signed value =>
      let* r := rep_write r (off + offset_of integer_fields 0) (le_bytes 1 (byte_of signed)) in
      rep_write r (off + offset_of integer_fields 1) (le_bytes 8 value)
  | VFPNumber bits => rep_write r off (le_bytes 8 bits)
  | VBool b => rep_write r off (le_bytes 1 (byte_of b))
  | VSymbol s | VString s => embed_string m s r off
  | VChar c => rep_write r off (le_bytes 4 c)
  | VCons car cdr =>
      let* r := syntax car r (off + offset_of cons_fields 0) in
      syntax cdr r (off + offset_of cons_fields 1)
  | VNil => Ret r
  | VUse u =>
      let* r := rep_write r (off + offset_of use_fields 0) (le_bytes 8 (fst u)) in
      rep_write r (off + offset_of use_fields 1) (le_bytes 8 (snd u))
  end.

(** data.rs:293-297 [embed] of syntax, with :332-337, :359-364 those of the buffer and the metadata *)
Fixpoint embed_syntax (fuel : nat) (m : memory) (p : Z) (r : rep) (off : Z) : outcome rep :=
  match fuel with
  | O => OutOfFuel
  | S fuel =>
      let b := rep_zero (c_struct buffer_fields) in
      let* b := rep_write b (offset_of buffer_fields 0 + offset_of metadata_fields 0)
        (le_bytes 4 (load m (p + offset_of buffer_fields 0 + offset_of metadata_fields 0) 4)) in
      let* b := rep_write b (offset_of buffer_fields 0 + offset_of metadata_fields 1)
        (le_bytes 4 (load m (p + offset_of buffer_fields 0 + offset_of metadata_fields 1) 4)) in
      let* v := read_sexp m (p + offset_of buffer_fields 1) in
      let* b := embed_sexp (embed_syntax fuel m) m v b (offset_of buffer_fields 1) in
      Ret (rep_reference r (off + 0) b)
  end.

(** data.rs:32-36 [Rep::of], of a [NativeSyntax<NativeSexp>] *)
Definition rep_of_syntax (fuel : nat) (m : memory) (p : Z) : outcome rep := embed_syntax fuel m p (rep_zero u64) 0.

(** backend/chibi/codegen.rs:1193-1205 [embed_rodata] *)
Fixpoint embed_rodata (w : writer) (r : rep) : outcome (writer * label) :=
  let 'Rep al direct indirect := r in
  let* w := align Rodata al w in
  let (w, l) := issue_label w in
  let location := location_ w Rodata in
  let* d := define Rodata l false w in
  let w := append Rodata direct (fst d) in
  let* w :=
    (fix embed_all (w : writer) (indirect : list (Z * rep)) : outcome writer :=
       match indirect with
       | [] => Ret w
       | (off, r) :: indirect =>
           let* x := embed_rodata w r in
           let* loc := offset location off in
           embed_all (use_ (Use loc (snd x) 0 Abs64) (fst x)) indirect
       end) w indirect in
  Ret (w, l).

(** backend/chibi/codegen.rs:1183-1188: a constant that is syntax.  The code then loads the word at the label. *)
Definition embed_constant (malloc : heap -> Z -> option Z) (fuel : nat) (h : heap) (w : writer) (s : sexp) : outcome (writer * label) :=
  let* x := syntax_from_host malloc fuel h s in
  let* r := rep_of_syntax fuel (mem (snd x)) (fst x) in
  embed_rodata w r.
