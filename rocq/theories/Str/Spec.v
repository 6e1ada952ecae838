(** What escaped text denotes, independent of the implementation. *)
From Verif.Base Require Import Base.

(** The escape table of the language: letter after the backslash, character denoted. *)
Definition escape_table : list (char * char) :=
  [ (c_ "t", c_tab); (c_ "r", c_cr); (c_ "n", c_lf);
    (c_quote, c_quote); (c_backslash, c_backslash) ].

(** [denotes t s]: the escaped text [t] stands for the string [s]. *)
Inductive denotes : text -> text -> Prop :=
| den_nil : denotes [] []
| den_plain c t s : c <> c_backslash -> denotes t s -> denotes (c :: t) (c :: s)
| den_escape l c t s :
    In (l, c) escape_table -> denotes t s -> denotes (c_backslash :: l :: t) (c :: s).

(** [t] contains a quote that is not part of an escape: the text before it is complete. *)
Definition raw_quote (t : text) : Prop :=
  exists a b s, t = a ++ c_quote :: b /\ denotes a s.
