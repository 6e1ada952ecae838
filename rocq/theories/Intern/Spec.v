(** Shared vocabulary of the statements about handles. *)
From Verif.Base Require Import Base.
From Verif.Lexer Require Import Model Spec.
From Verif.Intern Require Import Model.

(** [eqb] decides equality (Rust [Eq] with an agreeing [Hash]). *)
Definition decides {T : Type} (eqb : T -> T -> bool) : Prop := forall x y, eqb x y = true <-> x = y.

(** Number of handles a [u32] can name. *)
Definition handle_space : N := (2 ^ 32)%N.

(** The range of a part [m] of the text [a ++ m ++ b]. [position] (Lexer/Spec.v) counts bytes, newlines,
    and bytes since the last newline. *)
Definition range_of (a m : text) : location_range :=
  {| start := position a; end_ := position (a ++ m) |}.
