(** What a path text denotes. *)
From Verif.Base Require Import Base.
From Verif.Path Require Import Model.

(** A segment: non-empty, without slash, and none of the reserved names. *)
Definition segment (t : text) : Prop :=
  t <> [] /\ ~ In (c_ "/") t /\ t <> t_ "~" /\ t <> t_ "." /\ t <> t_ "..".

(** The package part: [~] is the current package. *)
Inductive package_text : text -> package_name -> Prop :=
| pt_current : package_text (t_ "~") None
| pt_external n : segment n -> package_text n (Some n).

(** Segments separated by slashes. *)
Inductive slashed : text -> list text -> Prop :=
| sl_one s : segment s -> slashed s [s]
| sl_more s t ss : segment s -> slashed t ss -> slashed (s ++ c_ "/" :: t) (s :: ss).

(** The whole path; the module [prelude] is the one without a module part. *)
Inductive path_text : text -> path -> Prop :=
| pa_package t p : package_text t p -> path_text t {| package := p; module := [] |}
| pa_prelude t p : package_text t p -> path_text (t ++ t_ "/prelude") {| package := p; module := [] |}
| pa_module t p u m : package_text t p -> slashed u m -> m <> [t_ "prelude"] ->
    path_text (t ++ c_ "/" :: u) {| package := p; module := m |}.

(** Path values that can be built through the public constructors. *)
Definition valid_package (p : package_name) : Prop := p = None \/ exists n, external n = Ok p.
Definition valid_module (m : module_name) : Prop := m = prelude \/ exists parts, from_parts parts = Ok m.
Definition valid_path (p : path) : Prop := valid_package (package p) /\ valid_module (module p).
