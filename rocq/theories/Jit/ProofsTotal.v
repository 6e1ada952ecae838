(** * Engines over time, and objects from the writer *)
From Coq Require Import NArith ZArith.
From Verif.Base Require Import Base.
From Verif.Obj Require Import Model Spec Proofs ProofsProduce ProofsLink.
From Verif.Jit Require Import Model Spec Proofs ProofsEngine ProofsLoad ProofsAdd.
Local Open Scope Z_scope.

Section OS.
Variable os : list mmap -> Z -> option Z.
Variable resolver : string -> Z.
Hypothesis Honest : honest os.

Lemma step_keeps c e e' r : inv e -> sound_call c -> jit_step os resolver c e = Ret (e', r) -> inv e' /\
  (forall x, used e x -> used e' x /\ e_mem e' x = e_mem e x) /\ (forall x, ~ mapped e' x -> e_mem e' x = e_mem e x) /\
  (forall n a, get n e = Some a -> get n e' = Some a).
Proof.
  intros I So St. destruct c as [n p|o]; cbn in St, So.
  - destruct (register_ok resolver n p e I) as (e1 & x & E & I' & B). rewrite E in St. injection St as <- <-. split; [exact I'|]. destruct B as [B1 B2].
    split; [|split; [|exact B2]].
    + intros y U. rewrite B1. split; [exact U|reflexivity].
    + intros y U. rewrite B1. reflexivity.
  - destruct (add_object_ok os Honest resolver o e I So) as (e1 & x & E & I' & K1 & K2 & K3 & _). rewrite E in St. injection St as <- <-. auto.
Qed.

Lemma later_keeps e e' : later os resolver e e' -> inv e -> inv e' /\
  (forall x, used e x -> used e' x /\ e_mem e' x = e_mem e x) /\ (forall n a, get n e = Some a -> get n e' = Some a).
Proof.
  intros L I. induction L as [|e1 c e2 r L IH So St]; [auto|]. destruct IH as (I1 & K1 & K2). destruct (step_keeps c e1 e2 r I1 So St) as (I2 & J1 & _ & J2).
  split; [exact I2|]. split; [|auto]. intros x U. destruct (K1 x U) as [U1 E1]. destruct (J1 x U1) as [U2 E2]. split; [exact U2|congruence].
Qed.

Lemma used_segment s e x : used_seg (segment_of s e) x -> used e x.
Proof. unfold used. destruct s as [[]|]; auto. Qed.

Lemma added_loaded mem e o e' : reachable os resolver mem e -> sound o -> ForallOrdPairs relocs_apart (o_relocs o) ->
  add_object os resolver o e = Ret (e', inl tt) -> exists lk, loaded_at lk o e e' /\ symbols_after resolver lk o e e'.
Proof.
  intros R So Ap A. destruct (add_object_ok os Honest resolver o e (reachable_inv os Honest resolver mem e R) So) as (e1 & x & E & _ & _ & _ & _ & _ & K).
  rewrite E in A. injection A as -> ->. exact (K eq_refl Ap).
Qed.

Lemma added_keeps mem e o : reachable os resolver mem e -> sound o ->
  exists e' r, add_object os resolver o e = Ret (e', r) /\ protected e' /\
    (forall x, used e x -> used e' x /\ e_mem e' x = e_mem e x) /\ (forall x, ~ mapped e' x -> e_mem e' x = e_mem e x) /\
    (forall n a, get n e = Some a -> get n e' = Some a) /\
    (forall n a, get n e' = Some a -> get n e = Some a \/ exists l, In (n, Global l) (o_symbols o)).
Proof.
  intros R So. destruct (add_object_ok os Honest resolver o e (reachable_inv os Honest resolver mem e R) So) as (e' & r & E & I & K1 & K2 & K3 & K4 & _).
  exists e', r. pose proof (inv_protected e' I). auto 10.
Qed.

(** A linked object stays linked in memories that agree where it is. *)
Lemma linked_frame lk o mem mem' : sound o -> (forall s x, place lk s <= x < place lk s + size_of o s -> mem' x = mem x) ->
  linked lk o mem -> linked lk o mem'.
Proof.
  intros (Bn & _ & So) F (Co & Re & By). split; [exact Co|]. split.
  - intros r I. destruct (Re r I) as (v & V & H). exists v. split; [exact V|]. refine (holds_frame _ _ _ _ _ _ H). intros x X. destruct (So r I) as [P1 P2].
    apply (F (l_section (r_location r))). unfold at_ in X. lia.
  - intros c i b N P Cv. rewrite <- (By c i b N P Cv). apply (F (In_ c)). cbn. unfold len. assert (Z.to_nat i < List.length (buffer c (o_buffers o)))%nat by (apply nth_error_Some; congruence). lia.
Qed.

Lemma loaded_later lk o e e1 e2 : inv e1 -> sound o -> loaded_at lk o e e1 -> later os resolver e1 e2 ->
  linked lk o (e_mem e2) /\ (forall n g, entry lk n = Some g -> exists a, get n e2 = Some a /\ holds (e_mem e2) g 8 a) /\
  forall s x, place lk s <= x < place lk s + size_of o s -> used e2 x.
Proof.
  intros I So L La. destruct (later_keeps e1 e2 La I) as (I2 & K1 & K2). split; [|split].
  - apply (linked_frame _ _ (e_mem e1)); [exact So| |apply L]. intros s x X. apply K1. apply (used_segment s). now apply (la_place _ _ _ _ L).
  - intros n g E. destruct (la_entry _ _ _ _ L n g E) as (a & A & H & _ & U). exists a. split; [now apply K2|]. refine (holds_frame _ _ _ _ _ _ H).
    intros x X. apply K1. left. now apply U.
  - intros s x X. apply K1. apply (used_segment s). now apply (la_place _ _ _ _ L).
Qed.

(** ** Objects from the writer *)

Lemma symbols_names ds : forall names syms, symbols_of ds names = Ret syms -> map fst syms = map fst names.
Proof.
  induction names as [|[n l] names IH]; cbn; intros syms H; [now injection H as <-|]. apply bind_ret in H. destruct H as (d & _ & H).
  apply bind_ret in H. destruct H as (rest & R & H). injection H as <-. cbn. f_equal. now apply IH.
Qed.

Definition of_use (r : reloc) (u : use) : Prop := r_location r = u_location u /\ r_type r = u_type u.

Lemma produce_relocs_apart ds names : forall us bufs rel bufs' rel', produce_uses ds names us (bufs, rel) = Ret (Some (bufs', rel')) ->
  ForallOrdPairs apart us -> ForallOrdPairs relocs_apart rel ->
  (forall r u q, In r rel -> In u us -> of_use q u -> relocs_apart r q) -> ForallOrdPairs relocs_apart rel'.
Proof.
  induction us as [|u us IH]; intros bufs rel bufs' rel' H A R C.
  - cbn in H. now injection H as <- <-.
  - cbn [produce_uses] in H. rewrite produce_use_exact in H. inversion A as [|? ? Au A']; subst.
    destruct (nth_error ds (u_target u)) as [d|]; [|discriminate H]. destruct (static ds u) as [[c v]|].
    + destruct (in_reachb (u_type u) v); [|discriminate H]. cbn [Base.bind] in H. apply IH in H; auto. intros r q p I J. apply C; auto. now right.
    + destruct (reloc_of names d u) as [r|] eqn:Er; [|discriminate H]. cbn [Base.bind] in H. apply reloc_of_place in Er. apply IH in H; auto.
      * assert (G : forall rs, (forall q, In q rs -> relocs_apart q r) -> ForallOrdPairs relocs_apart rs -> ForallOrdPairs relocs_apart (rs ++ [r])).
        { clear. induction rs as [|q rs IH]; cbn; intros Hq F; [repeat constructor|]. inversion F as [|? ? F1 F2]; subst. constructor; [|apply IH; auto].
          apply Forall_app. split; [exact F1|]. constructor; [apply Hq; now left|constructor]. }
        apply G; [|exact R]. intros q I. apply (C q u r I); [now left|exact Er].
      * intros q v p I J O. apply in_app_iff in I. destruct I as [I|[<-|[]]]; [apply (C q v p I); [now right|exact O]|].
        rewrite Forall_forall in Au. specialize (Au v J). destruct Er as [E1 E2], O as [O1 O2]. unfold relocs_apart. unfold apart in Au. now rewrite E1, E2, O1, O2.
Qed.

Lemma produced_sound w es o : reached w es -> produce w = Ret (Some o) -> well_placed w es -> 0 <= o_bss o ->
  sound o /\ ForallOrdPairs relocs_apart (o_relocs o).
Proof.
  intros R P WP Bn. destruct (produce_parts _ _ P) as (Sy & Eb & U). destruct (produced w es o R P WP) as (Le & _ & _ & Rl & _). split.
  - split; [exact Bn|]. split.
    + rewrite (symbols_names _ _ _ Sy). apply (reached_names_ok w es R).
    + intros r I. apply Rl in I. destruct I as (u & d & I & _ & _ & Er). apply reloc_of_place in Er. destruct Er as [-> ->]. destruct WP as [_ Ins].
      rewrite Forall_forall in Ins. destruct (Ins u I) as [P1 P2]. split; [exact P1|]. destruct (l_section (u_location u)) as [c|]; cbn in P2 |- *.
      * unfold len. now rewrite Le.
      * now rewrite Eb.
  - apply (produce_relocs_apart _ _ _ _ _ _ _ U).
    + rewrite (reached_uses w es R). apply WP.
    + constructor.
    + intros r u q [].
Qed.

Lemma written_runs mem e o e' w es : reached w es -> produce w = Ret (Some o) -> well_placed w es -> 0 <= o_bss o ->
  reachable os resolver mem e -> add_object os resolver o e = Ret (e', inl tt) ->
  exists lk, loaded_at lk o e e' /\ forall e2, later os resolver e' e2 -> forall u, In u (uses es) ->
    exists v, asked es lk u v /\ holds (e_mem e2) (at_ lk (u_location u)) (width (u_type u)) v.
Proof.
  intros R P WP Bn Re A. destruct (produced_sound w es o R P WP Bn) as [So Ap]. pose proof (reachable_inv os Honest resolver mem e Re) as I.
  destruct (add_object_ok os Honest resolver o e I So) as (e1 & x & E & I' & _ & _ & _ & _ & K). rewrite E in A. injection A as -> ->.
  destruct (K eq_refl Ap) as (lk & L & _). exists lk. split; [exact L|]. intros e2 La u Iu.
  destruct (loaded_later lk o e e' e2 I' So L La) as (Lk & _). exact (uses_resolved w es o lk (e_mem e2) R P WP Lk u Iu).
Qed.

End OS.
