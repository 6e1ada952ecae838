(** C06: module paths. *)
From Verif.Base Require Import Base.
From Verif.Path Require Import Model Spec Proofs.

(** The parser accepts exactly the path texts, with the value they denote. *)
Theorem parse_path_exact :
  forall (t : text) (p : path), parse_path t = Ok p <-> path_text t p.
Proof. exact parse_path_spec. Qed.
Print Assumptions parse_path_exact.

(** Every path value that can be built prints to a text that parses back to it. *)
Theorem show_then_parse_path :
  forall p : path, valid_path p -> parse_path (show_path p) = Ok p.
Proof. exact show_parse. Qed.
Print Assumptions show_then_parse_path.

(** Parsing yields buildable values and printing gives the text back, up to an explicit "/prelude". *)
Theorem parse_then_show_path :
  forall (t : text) (p : path), parse_path t = Ok p ->
    valid_path p /\ (t = show_path p \/ (module p = [] /\ t = show_path p ++ t_ "/prelude")).
Proof. exact parse_show. Qed.
Print Assumptions parse_then_show_path.

(** Distinct paths have distinct printed forms. *)
Theorem show_path_injective :
  forall p q : path, valid_path p -> valid_path q -> show_path p = show_path q -> p = q.
Proof. exact show_injective. Qed.
Print Assumptions show_path_injective.

(** Non-vacuity. *)
Example path_roundtrip :
  let p := {| package := Some (t_ "std"); module := [t_ "persistent"; t_ "ord-map"] |} in
  valid_path p /\ show_path p = t_ "std/persistent/ord-map" /\ parse_path (t_ "std/persistent/ord-map") = Ok p.
Proof.
  split; [|split; reflexivity]. split; [right; exists (t_ "std"); reflexivity|].
  right; exists [t_ "persistent"; t_ "ord-map"]; reflexivity.
Qed.
Example path_prelude : parse_path (t_ "~/prelude") = Ok {| package := None; module := [] |}.
Proof. reflexivity. Qed.
Example path_rejected : parse_path (t_ "a//b") = IllegalCharacters [] /\ parse_path (t_ "") = IllegalCharacters [] /\
  parse_path (t_ "a/../b") = IllegalCharacters (t_ "..").
Proof. repeat split; reflexivity. Qed.
