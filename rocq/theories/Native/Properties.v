(** * Properties of S-expressions in compiled code (C47) *)
From Coq Require Import NArith ZArith.
From Verif.Base Require Import Base.
From Verif.Obj Require Import Model Spec.
From Verif.Data Require Model.
From Verif.Native Require Import Model Spec Layouts Proofs ProofsConst ProofsRodata ProofsMain.
Local Open Scope Z_scope.

(** C47: compiled code is given a pointer to the S-expression, in new blocks of memory; what there was stays.
    Only the end of memory prevents it. *)
Theorem argument_shown : forall malloc h s fuel, sound malloc -> proper s -> (cells s <= fuel)%nat ->
  (exists p h' new, syntax_from_host malloc fuel h s = Ret (p, h') /\ grown h h' new (footprint s) /\
    forall m, agree new (mem h') m -> shows m p s) \/
  (syntax_from_host malloc fuel h s = Panic /\ exists h' new k n, grown h h' new k /\ 0 < n /\ k + n <= footprint s /\ malloc h' n = None).
Proof. exact argument. Qed.
Print Assumptions argument_shown.

(** C47: an S-expression made by compiled code is read as it is. *)
Theorem shown_read_back : forall m p s fuel, shows m p s -> (cells s <= fuel)%nat -> syntax_into_host fuel m p = Ret s.
Proof. exact (fun m p s fuel H => into_host_shows m p s H fuel). Qed.
Print Assumptions shown_read_back.

(** C47: a call of a macro passes the S-expression, and gives the result of the macro. *)
Theorem macro_called : forall malloc fuel f h s p h1 h2 a r, sound malloc -> proper s -> (cells s <= fuel)%nat -> (result_cells r <= fuel)%nat ->
  syntax_from_host malloc fuel h s = Ret (p, h1) -> f h1 p = (h2, a) -> shows_result (mem h2) a r ->
  shows (mem h1) p s /\ native_macro malloc fuel f h s = Ret r.
Proof. exact macro. Qed.
Print Assumptions macro_called.

(** C47: data with references written to .rodata, at any moment, is there once the object is linked, wherever
    it is loaded. *)
Theorem embedded_data_stored : forall cs0 w0 es0 r, run new cs0 = Ret (w0, es0) -> well_placed w0 es0 -> sensible r ->
  exists w1 l cs1 es1, embed_rodata w0 r = Ret (w1, l) /\ run w0 cs1 = Ret (w1, es1) /\ well_placed w1 (es0 ++ es1) /\
  (forall u, In u (uses es1) -> resolvable (es0 ++ es1) u) /\
  forall cs2 w2 es2 o lk mem, run w1 cs2 = Ret (w2, es2) -> produce w2 = Ret (Some o) -> well_placed w2 (es0 ++ es1 ++ es2) ->
    linked lk o mem -> later w1 es2 -> addressed lk w2 ->
    exists a, label_address (es0 ++ es1 ++ es2) lk l a /\ stored mem a r.
Proof. exact rodata_stored. Qed.
Print Assumptions embedded_data_stored.

(** C47: so the word at the label of a constant points to the S-expression. *)
Theorem constant_shown : forall malloc h s fuel cs0 w0 es0, sound malloc -> proper s -> (cells s <= fuel)%nat ->
  run new cs0 = Ret (w0, es0) -> well_placed w0 es0 ->
  (exists w1 l cs1 es1, embed_constant malloc fuel h w0 s = Ret (w1, l) /\ run w0 cs1 = Ret (w1, es1) /\ well_placed w1 (es0 ++ es1) /\
    (forall u, In u (uses es1) -> resolvable (es0 ++ es1) u) /\
    forall cs2 w2 es2 o lk mem, run w1 cs2 = Ret (w2, es2) -> produce w2 = Ret (Some o) -> well_placed w2 (es0 ++ es1 ++ es2) ->
      linked lk o mem -> later w1 es2 -> addressed lk w2 ->
      exists a p, label_address (es0 ++ es1 ++ es2) lk l a /\ field mem a 8 p /\ shows mem p s) \/
  (embed_constant malloc fuel h w0 s = Panic /\ exists h' new k n, grown h h' new k /\ 0 < n /\ k + n <= footprint s /\ malloc h' n = None).
Proof. exact constant. Qed.
Print Assumptions constant_shown.

(** C47: the compiler lays out [Sexp] and the results of macros as the structures of Rust are laid out. *)
Theorem layouts_agree : exists m r t u fields t' u' fields', laid_out = Ret (m, r) /\
  Data.Model.get m 1 = Some (Data.Model.ETagged t 9 (Data.Model.BUnion u fields)) /\
  Data.Model.get m 2 = Some (Data.Model.ETagged t' 2 (Data.Model.BUnion u' fields')) /\
  (offsets_of r t, shape_of r t) = (c_offsets 0 sexp_fields, c_struct sexp_fields) /\ shape_of r u = body_union /\
  map (offsets_of r) fields = map (c_offsets 0)
    [integer_fields; [u64]; [u8]; [c_struct string_fields]; [c_struct string_fields]; [u32]; cons_fields; []; [c_struct use_fields]] /\
  (offsets_of r t', shape_of r t') = (c_offsets 0 result_fields, c_struct result_fields) /\
  map (offsets_of r) fields' = map (c_offsets 0) [[c_struct string_fields]; [u64]].
Proof. exact layouts. Qed.
Print Assumptions layouts_agree.
