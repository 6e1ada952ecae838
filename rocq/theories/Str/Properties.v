(** C01: string escaping. *)
From Verif.Base Require Import Base.
From Verif.Str Require Import Model Spec Proofs.

(** Escaping never panics and unescaping its result gives the original back. *)
Theorem escape_unescape_roundtrip :
  forall s : text, (let* t := escape s in unescape t) = Ret (Some s).
Proof. exact roundtrip. Qed.
Print Assumptions escape_unescape_roundtrip.

(** Escaping a string gives a text that denotes the string, has no raw quote and no tab, carriage
    return or newline. *)
Theorem escape_denotes_string :
  forall s : text, exists t, escape s = Ret t /\ denotes t s.
Proof. exact escape_denotes. Qed.
Print Assumptions escape_denotes_string.

Theorem escape_embeddable :
  forall s : text, exists t, escape s = Ret t /\ ~ raw_quote t /\
    forall c, In c t -> c <> c_tab /\ c <> c_cr /\ c <> c_lf.
Proof. exact escape_safe. Qed.
Print Assumptions escape_embeddable.

(** Unescaping succeeds exactly on texts that denote a string, with that string, and otherwise
    reports failure; it never panics. *)
Theorem unescape_exact :
  forall t s : text, unescape t = Ret (Some s) <-> denotes t s.
Proof. exact unescape_iff. Qed.
Print Assumptions unescape_exact.

Theorem unescape_rejects_exactly :
  forall t : text, unescape t = Ret None <-> ~ exists s, denotes t s.
Proof. exact unescape_none_iff. Qed.
Print Assumptions unescape_rejects_exactly.

(** Non-vacuity: a string needing every escape; a text that denotes a string; one that does not. *)
Example escape_all :
  escape [97; 9; 13; 10; 34; 92; 35441]%N =
  Ret [97; 92; 116; 92; 114; 92; 110; 92; 34; 92; 92; 35441]%N.
Proof. vm_compute. reflexivity. Qed.
Example unescape_ok : unescape (t_ "a\nb\\") = Ret (Some [97; 10; 98; 92]%N).
Proof. vm_compute. reflexivity. Qed.
Example unescape_bad : unescape (t_ "a\x") = Ret None /\ unescape (t_ "a\") = Ret None.
Proof. vm_compute. auto. Qed.
Example raw_quote_exists : raw_quote [97; 34]%N.
Proof. exists [97]%N, [], [97]%N. split; [reflexivity|]. constructor; [discriminate|constructor]. Qed.
