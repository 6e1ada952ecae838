From Coq Require Import NArith ZArith Lia.
From Verif.Base Require Import Base.
From Verif.Obj Require Import Model Spec.
From Verif.Data Require Model.
From Verif.Native Require Layouts.
From Verif.Native Require Import Model Spec Proofs ProofsConst ProofsRodata.
Local Open Scope Z_scope.

Lemma argument malloc h s fuel : sound malloc -> proper s -> (cells s <= fuel)%nat ->
  (exists p h' new, syntax_from_host malloc fuel h s = Ret (p, h') /\ grown h h' new (footprint s) /\
    forall m, agree new (mem h') m -> shows m p s) \/
  (syntax_from_host malloc fuel h s = Panic /\ exists h' new k n, grown h h' new k /\ 0 < n /\ k + n <= footprint s /\ malloc h' n = None).
Proof.
  intros S P B. destruct (from_host_converted malloc S fuel s h P B) as [(p & h' & new & E & G & K)|R]; [left|right; exact R].
  exists p, h', new. split; [exact E|]. split; [exact G|]. intros m A. apply (K m A).
Qed.

Lemma result_read fuel m a r : (result_cells r <= fuel)%nat -> shows_result m a r -> result_into_host fuel m a = Ret r.
Proof.
  unfold result_into_host, shows_result. offsets. cbn zeta. destruct r as [s|s]; intros B H.
  - destruct H as (T & p & F & Sh). rewrite (load1 _ _ _ T), (load8 _ _ _ F), (into_host_shows _ _ _ Sh) by exact B. reflexivity.
  - destruct H as (T & Tx). rewrite (load1 _ _ _ T), (as_str_text _ _ _ Tx). reflexivity.
Qed.

Lemma macro malloc fuel f h s p h1 h2 a r : sound malloc -> proper s -> (cells s <= fuel)%nat -> (result_cells r <= fuel)%nat ->
  syntax_from_host malloc fuel h s = Ret (p, h1) -> f h1 p = (h2, a) -> shows_result (mem h2) a r ->
  shows (mem h1) p s /\ native_macro malloc fuel f h s = Ret r.
Proof.
  intros S P B Br E F Sh. split.
  - destruct (argument malloc h s fuel S P B) as [(p' & h' & new & E' & G & K)|[E' _]]; [|congruence].
    rewrite E in E'. injection E' as <- <-. apply K. intros ? ? _ _. reflexivity.
  - unfold native_macro. rewrite E. cbn [bind fst snd]. rewrite F. now apply result_read.
Qed.

Lemma sensible_reference b : sensible b -> sensible (rep_reference (rep_zero u64) 0 b).
Proof.
  intro S. apply sensible_rep; [cbv; reflexivity|exists 1; reflexivity| | |].
  - constructor; [split; cbv; intro X; discriminate X|constructor].
  - constructor; constructor.
  - constructor; [exact S|constructor].
Qed.

Lemma constant malloc h s fuel cs0 w0 es0 : sound malloc -> proper s -> (cells s <= fuel)%nat ->
  run new cs0 = Ret (w0, es0) -> well_placed w0 es0 ->
  (exists w1 l cs1 es1, embed_constant malloc fuel h w0 s = Ret (w1, l) /\ run w0 cs1 = Ret (w1, es1) /\ well_placed w1 (es0 ++ es1) /\
    (forall u, In u (uses es1) -> resolvable (es0 ++ es1) u) /\
    forall cs2 w2 es2 o lk mem, run w1 cs2 = Ret (w2, es2) -> produce w2 = Ret (Some o) -> well_placed w2 (es0 ++ es1 ++ es2) ->
      linked lk o mem -> later w1 es2 -> addressed lk w2 ->
      exists a p, label_address (es0 ++ es1 ++ es2) lk l a /\ field mem a 8 p /\ shows mem p s) \/
  (embed_constant malloc fuel h w0 s = Panic /\ exists h' new k n, grown h h' new k /\ 0 < n /\ k + n <= footprint s /\ malloc h' n = None).
Proof.
  intros S P B R W. unfold embed_constant. destruct (argument malloc h s fuel S P B) as [(p & h' & new & -> & G & K)|[-> N]]; [left|right; split; [reflexivity|exact N]].
  cbn [bind fst snd]. destruct (shows_embeds _ _ _ (K (mem h') (fun _ _ _ _ => eq_refl)) fuel B) as (b & Eb & Sb & Kb).
  unfold rep_of_syntax. rewrite Eb. cbn [bind].
  destruct (rodata_stored cs0 w0 es0 _ R W (sensible_reference b Sb)) as (w1 & l & cs1 & es1 & E & R1 & W1 & Re & St).
  exists w1, l, cs1, es1. split; [exact E|]. split; [exact R1|]. split; [exact W1|]. split; [exact Re|].
  intros cs2 w2 es2 o lk m R2 Pr W2 Lk La Ad. destruct (St cs2 w2 es2 o lk m R2 Pr W2 Lk La Ad) as (a & A & Sa).
  destruct (stored_ref m a 8 _ _ 0 b Sa (or_introl eq_refl)) as (q & F & Sq). rewrite Z.add_0_r in F. exists a, q. auto.
Qed.

Lemma layouts : exists m r t u fields t' u' fields', Layouts.laid_out = Ret (m, r) /\
  Data.Model.get m 1 = Some (Data.Model.ETagged t 9 (Data.Model.BUnion u fields)) /\
  Data.Model.get m 2 = Some (Data.Model.ETagged t' 2 (Data.Model.BUnion u' fields')) /\
  (Layouts.offsets_of r t, Layouts.shape_of r t) = (c_offsets 0 sexp_fields, c_struct sexp_fields) /\ Layouts.shape_of r u = body_union /\
  map (Layouts.offsets_of r) fields = map (c_offsets 0)
    [integer_fields; [u64]; [u8]; [c_struct string_fields]; [c_struct string_fields]; [u32]; cons_fields; []; [c_struct use_fields]] /\
  (Layouts.offsets_of r t', Layouts.shape_of r t') = (c_offsets 0 result_fields, c_struct result_fields) /\
  map (Layouts.offsets_of r) fields' = map (c_offsets 0) [[c_struct string_fields]; [u64]].
Proof. do 8 eexists. split; [vm_compute; reflexivity|]. repeat split; reflexivity. Qed.
