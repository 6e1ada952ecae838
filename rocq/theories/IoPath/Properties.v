From Coq Require Import NArith.
From Verif.Base Require Import Base.
From Verif.Strings Require Import Spec.
From Verif.IoPath Require Import Model Spec Proofs ProofsName ProofsPath.
Local Open Scope list_scope.

(** C34. The components of a path are the names between its slashes, after the root if it begins with one. *)
Theorem components_exact : forall p, is_string p -> fits p -> components p = Ret (meaning p).
Proof. exact components_spec. Qed.
Print Assumptions components_exact.

(** The base name is the last name, or a slash if there is none; the directory is the path without it. *)
Theorem base_name_exact : forall p, is_string p ->
  base_name p = Ret (match p with [] => [] | _ => last (names p) [47%N] end).
Proof. exact base_name_last. Qed.
Print Assumptions base_name_exact.

Theorem dir_name_exact : forall p, is_string p ->
  exists q, dir_name p = Ret q /\ is_string q /\ q <> [] /\
    meaning q =
      match (if rooted p then [RootDir] else []) ++ map component_of (removelast (names p)) with
      | [] => [CurrentDir]
      | cs => cs
      end.
Proof. exact meaning_dir. Qed.
Print Assumptions dir_name_exact.

(** Joined again they lead where the path led. *)
Theorem dir_and_base_joined : forall p, is_string p ->
  exists d b r, dir_name p = Ret d /\ base_name p = Ret b /\ path_join d b = Ret r /\
    forall dir, resolve dir r = resolve dir p.
Proof. exact dir_base. Qed.
Print Assumptions dir_and_base_joined.

(** A path joined to another leads where it does from where that one leads. What is missing is the empty path to join to,
    which leads nowhere else but makes the other one absolute (below). *)
Theorem join_leads_partial : forall p q, is_string p -> is_string q -> p <> [] ->
  exists r, path_join p q = Ret r /\ is_string r /\ r <> [] /\ forall dir, resolve dir r = resolve (resolve dir p) q.
Proof. exact join_resolve. Qed.
Print Assumptions join_leads_partial.

Theorem join_leads_refuted : exists q dir, is_string q /\
  path_join [] q = Ret ([47%N] ++ q) /\ resolve dir ([47%N] ++ q) <> resolve (resolve dir []) q.
Proof. exact join_nothing. Qed.
Print Assumptions join_leads_refuted.

(** The canonical path is the absolute path to where the path leads from the current directory. *)
Theorem canonicalize_exact : forall cwd p, is_string cwd -> fits cwd -> is_string p -> fits p ->
  canonicalize cwd p = Ret (absolute_path (resolve (resolve [] cwd) p)).
Proof. exact canonicalize_spec. Qed.
Print Assumptions canonicalize_exact.

(** It is absolute, without . and .., leads there from everywhere, and is its own canonical path. What is missing is the
    root directory, whose canonical path is the empty path (below). *)
Theorem canonicalize_canonical_partial : forall cwd p r, is_string cwd -> fits cwd -> is_string p -> fits p ->
  canonicalize cwd p = Ret r -> r <> [] ->
  is_string r /\ (exists ns, meaning r = RootDir :: map Normal ns) /\
  (forall dir, resolve dir r = resolve (resolve [] cwd) p) /\
  forall cwd', is_string cwd' -> fits cwd' -> fits r -> canonicalize cwd' r = Ret r.
Proof. exact canonical. Qed.
Print Assumptions canonicalize_canonical_partial.

Theorem canonicalize_canonical_refuted : exists cwd, is_string cwd /\ fits cwd /\
  canonicalize cwd [47%N] = Ret [] /\ canonicalize cwd [] = Ret cwd /\ cwd <> [].
Proof. exact canonicalize_root. Qed.
Print Assumptions canonicalize_canonical_refuted.

(** The two ways to write a path in parts agree. *)
Theorem joined_then_canonicalized : forall cwd p qs, is_string cwd -> fits cwd -> p <> [] ->
  Forall (fun p => is_string p /\ fits p) (p :: qs) ->
  exists r, path_of p qs = Ret r /\ (fits r -> canonicalize cwd r = canonicalized_path cwd (p :: qs)).
Proof. exact joined_canonical. Qed.
Print Assumptions joined_then_canonicalized.

(** Every path has a place for its last name. The extension is what follows the last dot of it, something being before
    the dot. Setting the extension changes nothing else, and the default extension is set only if there is none. *)
Theorem last_name_located : forall p, exists d b t, located p d b t.
Proof. exact located_exists. Qed.
Print Assumptions last_name_located.

Theorem extension_exact : forall p d b t, is_string p -> located p d b t ->
  (forall stem x, has_extension b stem x -> extension p = Ret (Some x)) /\
  ((forall stem x, ~ has_extension b stem x) -> extension p = Ret None).
Proof. exact extension_spec. Qed.
Print Assumptions extension_exact.

Theorem with_extension_exact : forall p d b t, is_string p -> located p d b t -> forall ext,
  (forall stem x, has_extension b stem x -> with_extension ext p = Ret (d ++ (stem ++ suffix ext) ++ t)) /\
  ((forall stem x, ~ has_extension b stem x) -> with_extension ext p = Ret (d ++ (b ++ suffix ext) ++ t)).
Proof. exact with_extension_spec. Qed.
Print Assumptions with_extension_exact.

Theorem default_extension_exact : forall p d b t, is_string p -> located p d b t -> forall ext,
  (forall stem x, has_extension b stem x -> default_extension ext p = Ret p) /\
  ((forall stem x, ~ has_extension b stem x) -> default_extension ext p = Ret (d ++ (b ++ suffix (Some ext)) ++ t)).
Proof. exact default_extension_spec. Qed.
Print Assumptions default_extension_exact.

Theorem extension_set_again : forall p e, is_string p -> extension p = Ret e -> with_extension e p = Ret p.
Proof. exact extension_again. Qed.
Print Assumptions extension_set_again.

(** The extension that was set is the one found. What is missing is paths without any name, which become relative: *)
Theorem extension_set_partial : forall p x, is_string p -> names p <> [] -> is_string x -> slashfree x -> ~ In 46%N x ->
  exists q, with_extension (Some x) p = Ret q /\ is_string q /\ extension q = Ret (Some x) /\ dir_name q = dir_name p.
Proof. exact extension_set. Qed.
Print Assumptions extension_set_partial.

Theorem extension_set_refuted : exists x, is_string x /\ rooted [47%N] = true /\
  with_extension (Some x) [47%N] = Ret ([46%N] ++ x ++ [47%N]) /\ extension ([46%N] ++ x ++ [47%N]) = Ret None.
Proof. exact extension_of_root. Qed.
Print Assumptions extension_set_refuted.
