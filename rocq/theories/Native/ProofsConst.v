From Coq Require Import NArith ZArith Lia.
From Verif.Base Require Import Base.
From Verif.Asm Require Model.
From Verif.Obj Require Import Model Spec ProofsProduce.
From Verif.Native Require Import Model Spec Proofs.
Import Asm.Model(le_bytes).
Local Open Scope Z_scope.

(** ** Constants as data with references *)

Definition bytes_of (d : list N) : memory := fun x => nth (Z.to_nat x) d 0%N.

Lemma rep_write_ok al d ind off n v : 0 <= off -> off + Z.of_nat n <= Z.of_nat (List.length d) -> 0 <= v < 256 ^ Z.of_nat n ->
  exists d', rep_write (Rep al d ind) off (le_bytes n v) = Ret (Rep al d' ind) /\ List.length d' = List.length d /\
    field (bytes_of d') off (Z.of_nat n) v /\
    forall a k z, 0 <= a -> a + k <= off \/ off + Z.of_nat n <= a -> field (bytes_of d) a k z -> field (bytes_of d') a k z.
Proof.
  intros P B V. exists (write_at d off (le_bytes n v)). cbn [rep_write]. rewrite le_bytes_length. replace (_ <=? _) with true by lia.
  split; [reflexivity|]. split; [apply write_at_length; rewrite ?le_bytes_length; lia|].
  assert (N : forall i, nth_error (write_at d off (le_bytes n v)) i =
    if (Z.to_nat off <=? i)%nat && (i <? Z.to_nat off + n)%nat then nth_error (le_bytes n v) (i - Z.to_nat off) else nth_error d i).
  { intro i. rewrite write_at_nth by (rewrite ?le_bytes_length; lia). rewrite le_bytes_length. 
    destruct (off <=? Z.of_nat i) eqn:E1, (Z.of_nat i <? off + Z.of_nat n) eqn:E2;
      destruct (Z.to_nat off <=? i)%nat eqn:F1, (i <? Z.to_nat off + n)%nat eqn:F2; cbn [andb]; try lia; reflexivity. }
  split.
  - split; [exact V|]. intros i Bi. unfold bytes_of. apply nth_error_nth. rewrite N.
    replace (Z.to_nat off <=? Z.to_nat (off + i))%nat with true by lia. replace (Z.to_nat (off + i) <? _)%nat with true by lia. cbn [andb].
    replace (Z.to_nat (off + i) - Z.to_nat off)%nat with (Z.to_nat i) by lia. rewrite le_bytes_nth by lia. now rewrite Z2Nat.id by lia.
  - intros a k z Pa O. apply field_ext. intros i Bi. unfold bytes_of. rewrite <- !nth_default_eq. unfold nth_default. rewrite N.
    replace ((_ <=? _)%nat && _) with false; [reflexivity|]. symmetry. apply andb_false_iff. lia.
Qed.

Lemma stored_field m q al d ind a n v : stored m q (Rep al d ind) -> field (bytes_of d) a n v -> 0 <= a -> a + n <= Z.of_nat (List.length d) ->
  (forall off r, In (off, r) ind -> off + 8 <= a \/ a + n <= off) -> field m (q + a) n v.
Proof.
  intros S [B H] Pa Le O. inversion S as [? ? ? ? _ St _]. subst. split; [exact B|]. intros i Bi. rewrite <- Z.add_assoc. rewrite <- H by exact Bi. apply St; [|lia|].
  - unfold bytes_of. apply nth_error_nth'. lia.
  - intros off r I C. destruct (O off r I); lia.
Qed.
Lemma stored_ref m q al d ind off r : stored m q (Rep al d ind) -> In (off, r) ind -> exists q', field m (q + off) 8 q' /\ stored m q' r.
Proof. intros S I. inversion S as [? ? ? ? _ _ R]. subst. eauto. Qed.

Lemma stored_bytes m q s : stored m q (rep_bytes s) -> loaded m q s.
Proof. intros S j b N P. inversion S as [? ? ? ? _ St _]. subst. apply St; auto. Qed.

Lemma sensible_bytes s : sensible (rep_bytes s).
Proof. constructor; [lia|exists 8; lia|constructor|constructor|constructor]. Qed.

Lemma read_sexp_view m p loc v : constructed m p loc (tag_of v) -> view_fields m (p + 16) v -> read_sexp m (p + 8) = Ret v.
Proof.
  intros (_ & _ & T) V. unfold read_sexp. offsets. cbn zeta. rewrite (load1 _ _ _ T).
  destruct v; cbn [tag_of view_fields] in *; rewrite <- ?Z.add_assoc in V; cbn [Z.add Pos.add Pos.succ] in V; unfold read_string, read_use; offsets.
  - destruct V as [V1 V2]. rewrite (read_bool_field _ _ signed V1). cbn [bind]. now rewrite (load8 _ _ _ V2).
  - now rewrite (load8 _ _ _ V).
  - now rewrite (read_bool_field _ _ b V).
  - destruct V as [V1 V2]. rewrite (load8 _ _ _ V1), (load8 _ _ _ V2). now rewrite <- surjective_pairing.
  - destruct V as [V1 V2]. rewrite (load8 _ _ _ V1), (load8 _ _ _ V2). now rewrite <- surjective_pairing.
  - now rewrite (load4 _ _ _ V).
  - destruct V as [V1 V2]. now rewrite (load8 _ _ _ V1), (load8 _ _ _ V2).
  - reflexivity.
  - destruct V as [V1 V2]. rewrite (load8 _ _ _ V1), (load8 _ _ _ V2). now rewrite <- surjective_pairing.
Qed.

(** The part of [embed_sexp] after the tag. *)
Definition embed_fields (syntax : Z -> rep -> Z -> outcome rep) (m : memory) (v : view) (r : rep) : outcome rep :=
  match v with
  | VInteger signed value => let* r := rep_write r 16 (le_bytes 1 (byte_of signed)) in rep_write r 24 (le_bytes 8 value)
  | VFPNumber bits => rep_write r 16 (le_bytes 8 bits)
  | VBool b => rep_write r 16 (le_bytes 1 (byte_of b))
  | VSymbol s | VString s => rep_write (rep_reference r 16 (rep_bytes (as_str m s))) 24 (le_bytes 8 (snd s))
  | VChar c => rep_write r 16 (le_bytes 4 c)
  | VCons car cdr => let* r := syntax car r 16 in syntax cdr r 24
  | VNil => Ret r
  | VUse u => let* r := rep_write r 16 (le_bytes 8 (fst u)) in rep_write r 24 (le_bytes 8 (snd u))
  end.

(** The bytes that every node has. *)
Definition headed (d : list N) (loc : Z * Z) (t : Z) : Prop :=
  List.length d = 32%nat /\ field (bytes_of d) 0 4 (fst loc) /\ field (bytes_of d) 4 4 (snd loc) /\ field (bytes_of d) 8 1 t.

Lemma embed_unfold fuel m p loc v : constructed m p loc (tag_of v) -> view_fields m (p + 16) v ->
  exists d, headed d loc (tag_of v) /\ forall r off, embed_syntax (S fuel) m p r off =
    (let* b := embed_fields (embed_syntax fuel m) m v (Rep 8 d []) in Ret (rep_reference r off b)).
Proof.
  intros C V. pose proof (read_sexp_view _ _ _ _ C V) as E. destruct C as (C1 & C2 & C3).
  destruct (rep_write_ok 8 (repeat 0%N 32) [] 0 4 (fst loc)) as (d1 & W1 & L1 & F1 & K1); [lia|cbn; lia|apply C1|].
  destruct (rep_write_ok 8 d1 [] 4 4 (snd loc)) as (d2 & W2 & L2 & F2 & K2); [lia|rewrite L1; cbn; lia|apply C2|].
  destruct (rep_write_ok 8 d2 [] 8 1 (tag_of v)) as (d3 & W3 & L3 & F3 & K3); [lia|rewrite L2, L1; cbn; lia|apply tag_range|].
  cbn [Z.of_nat Pos.of_succ_nat Pos.succ] in *.
  exists d3. split.
  { split; [rewrite L3, L2, L1; reflexivity|]. split; [apply K3; [lia|lia|apply K2; [lia|lia|exact F1]]|].
    split; [apply K3; [lia|lia|exact F2]|exact F3]. }
  intros r off. cbn [embed_syntax]. unfold embed_sexp. rewrite buffer_struct. offsets. cbn zeta.
  rewrite (load4 _ _ _ C1), (load4 _ _ _ C2), E.
  change (rep_zero (32, 8)) with (Rep 8 (repeat 0%N 32) []). rewrite W1. cbn [bind]. rewrite W2. cbn [bind]. rewrite W3. cbn [bind].
  destruct v; cbn [embed_fields]; unfold embed_string; offsets; reflexivity.
Qed.

Definition embeds (m : memory) (fuel : nat) (p : Z) (s : sexp) : Prop :=
  exists b, (forall r off, embed_syntax fuel m p r off = Ret (rep_reference r off b)) /\ sensible b /\ forall m' q, stored m' q b -> shows m' q s.

Lemma sensible_plain d : sensible (Rep 8 d []).
Proof. constructor; [lia|exists 1; lia|constructor|constructor|constructor]. Qed.

Lemma stored_headed m q d ind loc t : headed d loc t -> stored m q (Rep 8 d ind) -> (forall off r, In (off, r) ind -> 16 <= off) -> constructed m q loc t.
Proof.
  intros (L & H1 & H2 & H3) S O. rewrite <- (Z.add_0_r q) at 1. split; [|split].
  - rewrite Z.add_0_r. rewrite <- (Z.add_0_r q). eapply stored_field; eauto; [lia|rewrite L; cbn; lia|]. intros off r I. specialize (O off r I). lia.
  - rewrite Z.add_0_r. eapply stored_field; eauto; [lia|rewrite L; cbn; lia|]. intros off r I. specialize (O off r I). lia.
  - rewrite Z.add_0_r. eapply stored_field; eauto; [lia|rewrite L; cbn; lia|]. intros off r I. specialize (O off r I). lia.
Qed.

Lemma headed_keep d d' loc t off n : headed d loc t -> List.length d' = List.length d -> 16 <= off ->
  (forall a k z, 0 <= a -> a + k <= off \/ off + n <= a -> field (bytes_of d) a k z -> field (bytes_of d') a k z) -> headed d' loc t.
Proof. intros (L & H1 & H2 & H3) E O K. split; [congruence|]. split; [|split]; apply K; auto; lia. Qed.

(** A node with a single field. *)
Lemma embeds_one m fuel p loc v n z s : constructed m p loc (tag_of v) -> view_fields m (p + 16) v ->
  (forall r, embed_fields (embed_syntax fuel m) m v r = rep_write r 16 (le_bytes n z)) -> 0 <= z < 256 ^ Z.of_nat n -> (n <= 16)%nat ->
  (forall m' q, constructed m' q loc (tag_of v) -> field m' (q + 16) (Z.of_nat n) z -> shows m' q s) -> embeds m (S fuel) p s.
Proof.
  intros C V E B Bn Sh. destruct (embed_unfold fuel _ _ _ _ C V) as (d & H & U).
  destruct (rep_write_ok 8 d [] 16 n z) as (d' & W & L & F & K); [lia|rewrite (proj1 H); lia|exact B|].
  exists (Rep 8 d' []). split; [intros r off; rewrite U, E, W; reflexivity|]. split; [apply sensible_plain|]. intros m' q St.
  assert (H' : headed d' loc (tag_of v)) by (eapply headed_keep; eauto; lia).
  apply Sh; [eapply stored_headed; eauto; intros ? ? []|]. eapply stored_field; eauto; [lia|rewrite (proj1 H'); lia|intros ? ? []].
Qed.

(** A node with two fields. *)
Lemma embeds_two m fuel p loc v n z z' s : constructed m p loc (tag_of v) -> view_fields m (p + 16) v ->
  (forall r, embed_fields (embed_syntax fuel m) m v r = let* r := rep_write r 16 (le_bytes n z) in rep_write r 24 (le_bytes 8 z')) ->
  0 <= z < 256 ^ Z.of_nat n -> (n <= 8)%nat -> 0 <= z' < 2 ^ 64 ->
  (forall m' q, constructed m' q loc (tag_of v) -> field m' (q + 16) (Z.of_nat n) z -> field m' (q + 24) 8 z' -> shows m' q s) -> embeds m (S fuel) p s.
Proof.
  intros C V E B Bn B' Sh. destruct (embed_unfold fuel _ _ _ _ C V) as (d & H & U).
  destruct (rep_write_ok 8 d [] 16 n z) as (d1 & W1 & L1 & F1 & K1); [lia|rewrite (proj1 H); lia|exact B|].
  destruct (rep_write_ok 8 d1 [] 24 8 z') as (d2 & W2 & L2 & F2 & K2); [lia|rewrite L1, (proj1 H); lia|exact B'|].
  cbn [Z.of_nat Pos.of_succ_nat Pos.succ] in F2, K2.
  exists (Rep 8 d2 []). split; [intros r off; rewrite U, E, W1; cbn [bind]; rewrite W2; reflexivity|]. split; [apply sensible_plain|]. intros m' q St.
  assert (H1 : headed d1 loc (tag_of v)) by (eapply headed_keep; eauto; lia).
  assert (H2 : headed d2 loc (tag_of v)) by (eapply headed_keep; eauto; lia).
  apply Sh; [eapply stored_headed; eauto; intros ? ? []| |].
  - eapply stored_field; [exact St|apply K2; [| |exact F1]| | |]; try lia; [rewrite (proj1 H2); lia|intros ? ? []].
  - eapply stored_field; [exact St|exact F2| | |]; try lia; [rewrite (proj1 H2); lia|intros ? ? []].
Qed.

(** A node with text. *)
Lemma embeds_text m fuel p loc v s t : constructed m p loc (tag_of v) -> view_fields m (p + 16) v ->
  (forall r, embed_fields (embed_syntax fuel m) m v r = rep_write (rep_reference r 16 (rep_bytes t)) 24 (le_bytes 8 (Z.of_nat (List.length t)))) ->
  Z.of_nat (List.length t) < 2 ^ 64 ->
  (forall m' q, constructed m' q loc (tag_of v) -> text m' (q + 16) t -> shows m' q s) -> embeds m (S fuel) p s.
Proof.
  intros C V E B Sh. destruct (embed_unfold fuel _ _ _ _ C V) as (d & H & U).
  destruct (rep_write_ok 8 d [(16, rep_bytes t)] 24 8 (Z.of_nat (List.length t))) as (d1 & W1 & L1 & F1 & K1); [lia|rewrite (proj1 H); lia|cbn; lia|].
  exists (Rep 8 d1 [(16, rep_bytes t)]). split; [intros r off; rewrite U, E; cbn [rep_reference app]; rewrite W1; reflexivity|].
  assert (H1 : headed d1 loc (tag_of v)) by (eapply headed_keep; eauto; lia). split.
  - apply sensible_rep; [lia|exists 1; lia| | |].
    + constructor; [cbn [fst snd]; rewrite (proj1 H1); lia|constructor].
    + constructor; constructor.
    + constructor; [apply sensible_bytes|constructor].
  - intros m' q St. apply Sh.
    + eapply stored_headed; eauto. intros off r [I|[]]. injection I as <- <-. lia.
    + destruct (stored_ref _ _ _ _ _ 16 (rep_bytes t) St (or_introl eq_refl)) as (q' & Fq & Sq). exists q'. split; [exact Fq|]. split; [|now apply stored_bytes].
      rewrite <- Z.add_assoc. eapply stored_field; [exact St|exact F1| | |]; try lia; [rewrite (proj1 H1); lia|].
      intros off r [I|[]]. injection I as <- <-. lia.
Qed.

(** A cell. *)
Lemma embeds_cons m fuel p loc a d s x y : constructed m p loc 6 -> field m (p + 16) 8 a -> field m (p + 24) 8 d ->
  embeds m fuel a x -> embeds m fuel d y ->
  (forall m' q a d, constructed m' q loc 6 -> field m' (q + 16) 8 a -> field m' (q + 24) 8 d -> shows m' a x -> shows m' d y -> shows m' q s) ->
  embeds m (S fuel) p s.
Proof.
  intros C V1 V2 (b1 & E1 & S1 & K1) (b2 & E2 & S2 & K2) Sh.
  destruct (embed_unfold fuel m p loc (VCons a d) C) as (l & H & U); [split; rewrite <- ?Z.add_assoc; assumption|].
  exists (Rep 8 l [(16, b1); (24, b2)]). split; [intros r off; rewrite U; cbn [embed_fields]; rewrite E1; cbn [bind]; rewrite E2; reflexivity|]. split.
  - pose proof (proj1 H) as L. apply sensible_rep; [lia|exists 1; lia| | |].
    + constructor; [cbn [fst snd]; rewrite L; lia|]. constructor; [cbn [fst snd]; rewrite L; lia|constructor].
    + constructor; [constructor; [cbn [fst snd]; lia|constructor]|]. constructor; constructor.
    + constructor; [exact S1|]. constructor; [exact S2|constructor].
  - intros m' q St.
    destruct (stored_ref _ _ _ _ _ 16 b1 St (or_introl eq_refl)) as (a' & Fa & Sa).
    destruct (stored_ref _ _ _ _ _ 24 b2 St (or_intror (or_introl eq_refl))) as (d' & Fd & Sd).
    eapply Sh; eauto. eapply stored_headed; eauto. intros off r [I|[I|[]]]; injection I as <- <-; lia.
Qed.

Lemma text_view m a s : text m a s -> exists x, view_fields m a (VSymbol x) /\ as_str m x = s /\ snd x = Z.of_nat (List.length s) /\ Z.of_nat (List.length s) < 2 ^ 64.
Proof.
  intros T. destruct T as (q & Q & N & L) eqn:E. exists (q, Z.of_nat (List.length s)). split; [split; assumption|].
  pose proof (as_str_text m a s T) as R. unfold read_string in R. offsets_in R. rewrite (load8 _ _ _ Q), (load8 _ _ _ N) in R.
  split; [exact R|]. split; [reflexivity|]. apply (proj1 N).
Qed.

Lemma shows_embeds m : forall p s, shows m p s -> forall fuel, (cells s <= fuel)%nat -> embeds m fuel p s.
Proof.
  intros p s H. induction H; intros [|fuel] Bf; try (pose proof (cells_pos s)); try (cbn in Bf; lia).
  - eapply (embeds_two m fuel p loc (VInteger signed v) 1 (byte_of signed) v); try exact H; [split; rewrite <- ?Z.add_assoc; assumption|reflexivity|apply byte_of_range|lia|apply H1|].
    intros. apply shows_integer; auto.
  - eapply (embeds_one m fuel p loc (VFPNumber bits) 8 bits); try exact H; [assumption|reflexivity|apply H0|lia|]. intros. apply shows_fpnumber; auto.
  - eapply (embeds_one m fuel p loc (VBool b) 1 (byte_of b)); try exact H; [assumption|reflexivity|apply byte_of_range|lia|]. intros. apply shows_bool; auto.
  - destruct (text_view _ _ _ H0) as (x & V & A & L & B). eapply (embeds_text m fuel p loc (VSymbol x) _ s); try exact H; auto.
    + intro r. cbn [embed_fields]. now rewrite A, L.
    + intros. apply shows_symbol; auto.
  - destruct (text_view _ _ _ H0) as (x & V & A & L & B). eapply (embeds_text m fuel p loc (VString x) _ s); try exact H; auto.
    + intro r. cbn [embed_fields]. now rewrite A, L.
    + intros. apply shows_string; auto.
  - eapply (embeds_one m fuel p loc (VChar c) 4 c); try exact H; [assumption|reflexivity|apply H0|lia|]. intros. apply shows_char; auto.
  - destruct (embed_unfold fuel m p loc VNil H I) as (d & Hd & U). exists (Rep 8 d []). split; [intros; now rewrite U|]. split; [apply sensible_plain|].
    intros m' q St. apply shows_nil. eapply stored_headed; eauto. intros ? ? [].
  - rewrite cells_list in Bf. eapply (embeds_cons m fuel p loc a d _ x (Sexp loc' (RList l))); auto.
    + apply IHshows1. lia.
    + apply IHshows2. change (cells (Sexp loc' (RList l))) with (cells (Sexp loc (RList l))). lia.
    + intros. eapply shows_list; eauto.
  - rewrite cells_pair in Bf. eapply (embeds_cons m fuel p loc a d _ x y); auto.
    + apply IHshows1. lia.
    + apply IHshows2. lia.
    + intros. eapply shows_pair; eauto.
  - rewrite (cells_list_like _ loc') in Bf. eapply (embeds_cons m fuel p loc a d _ x (Sexp loc' (RListLike y l last))); auto.
    + apply IHshows1. lia.
    + apply IHshows2. lia.
    + intros. eapply shows_list_like; eauto.
  - eapply (embeds_two m fuel p loc (VUse u) 8 (fst u) (snd u)); try exact H; [split; rewrite <- ?Z.add_assoc; assumption|reflexivity|apply H0|lia|apply H1|].
    intros. apply shows_use; auto.
Qed.
