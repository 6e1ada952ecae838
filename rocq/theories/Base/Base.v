(** Shared vocabulary of the models: outcomes (value / panic / out of fuel),
    characters and text.

    - A Rust panic ([unwrap] on [None], failed [assert!], index or slice out of range)
      is the explicit value [Panic].
    - A loop modelled with explicit fuel returns [OutOfFuel] when the fuel is exhausted;
      the theorems show that this does not happen. *)
From Coq Require Export List NArith ZArith Bool Lia Ascii String.
From Coq Require Export ZifyBool ZifyNat ZifyN.
Export ListNotations.
Open Scope list_scope.

Inductive outcome (A : Type) : Type :=
| Ret (a : A)
| Panic
| OutOfFuel.
Arguments Ret {A} a.
Arguments Panic {A}.
Arguments OutOfFuel {A}.

Definition bind {A B} (m : outcome A) (f : A -> outcome B) : outcome B :=
  match m with
  | Ret a => f a
  | Panic => Panic
  | OutOfFuel => OutOfFuel
  end.

Notation "'let*' x ':=' m 'in' k" := (bind m (fun x => k))
  (at level 200, x pattern, m at level 100, k at level 200, right associativity).

(** A character is its Unicode scalar value; a text is a list of characters
    (Rust [char] and [&str]). *)
Notation char := N (only parsing).
Notation text := (list N) (only parsing).

Definition c_ (a : ascii) : char := N_of_ascii a.
Definition t_ (s : string) : text := map N_of_ascii (list_ascii_of_string s).
Arguments c_ : simpl nomatch.

Definition c_tab : char := 9%N.
Definition c_lf : char := 10%N.
Definition c_cr : char := 13%N.
Definition c_space : char := 32%N.
Definition c_quote : char := 34%N.      (* the double quote *)
Definition c_backslash : char := 92%N.

(** Rust [char::len_utf8]: number of bytes of the UTF-8 encoding of a character. *)
Definition len_utf8 (c : char) : N :=
  (if c <? 128 then 1 else if c <? 2048 then 2 else if c <? 65536 then 3 else 4)%N.

(** Rust [str::len]: number of bytes of a text. *)
Fixpoint blen (t : text) : N :=
  match t with
  | [] => 0
  | c :: t => len_utf8 c + blen t
  end%N.

Fixpoint text_eqb (a b : text) : bool :=
  match a, b with
  | [], [] => true
  | x :: a, y :: b => (x =? y)%N && text_eqb a b
  | _, _ => false
  end.

(** Rust [str::starts_with] for a text pattern. *)
Fixpoint starts_with (p t : text) : bool :=
  match p, t with
  | [], _ => true
  | x :: p, y :: t => (x =? y)%N && starts_with p t
  | _, [] => false
  end.

(** [split_at_byte n t]: Rust [str::split_at]; [None] is the panic when the byte index [n] is out
    of range or not on a character boundary. *)
Fixpoint split_at_byte (n : N) (t : text) : option (text * text) :=
  if (n =? 0)%N then Some ([], t)
  else match t with
       | [] => None
       | c :: t' =>
         if (len_utf8 c <=? n)%N
         then match split_at_byte (n - len_utf8 c) t' with
              | Some (a, b) => Some (c :: a, b)
              | None => None
              end
         else None
       end.
