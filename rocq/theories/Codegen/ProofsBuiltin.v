(** Calls of C functions that the operators make, operators with three operands and arrays. *)
From Coq Require Import ZArith Lia.
From Verif.Base Require Import Base.
From Verif.Ir Require Import Model RtInd.
From Verif.Layout Require Import Model Spec Proofs ProofsResolve.
From Verif.Frame Require Model.
From Verif.Frame Require Spec Proofs.
From Verif.Stack Require Import Machine Model Spec Facts Proofs ProofsValue ProofsMove.
From Verif.Codegen Require Import Float Alu Operators Model Machine Spec Facts ProofsGen ProofsFrame ProofsRun ProofsInv ProofsNum ProofsBlock ProofsStatic ProofsEval ProofsSimple ProofsHeap ProofsBinary ProofsAlloc ProofsEach ProofsStruct ProofsCall Foreign ProofsCArgs ProofsForeign.
Local Open Scope Z_scope.

(** ** Arguments in registers *)
Lemma passed_registers s s' : xm s' = xm s -> forall args gs xs a a', Forall (eq true) (by_registers (map fst args) (List.length gs) (List.length xs)) ->
  (forall g, In g gs -> gp s' g = gp s g) -> passed gs xs a args s -> passed gs xs a' args s'.
Proof.
  intros Ex. induction args as [|[l v] args IH]; intros gs xs a a' Fa Hg H; [exact Logic.I|]. cbn [passed map fst by_registers] in *.
  destruct (by_register l (List.length gs) (List.length xs)); inversion Fa as [|? ? F1 F2]; subst; [|discriminate].
  destruct H as [(bs & L & V & H) H2]. split; [exists bs; split; [exact L|]; split; [exact V|]; eapply in_regs_ext; [exact H| |]|].
  - intros g Hi. apply Hg. eapply in_first, Hi.
  - intros x _. now rewrite Ex.
  - eapply IH; [rewrite !skipn_length; exact F2 | | exact H2]. intros g Hi. apply Hg. eapply in_skip, Hi.
Qed.
Lemma select_none {A} bs : Forall (eq true) bs -> forall xs : list A, select false bs xs = [].
Proof. induction 1 as [|b0 bs <- _ IH]; intros [|x xs]; try reflexivity. apply IH. Qed.

(** One argument, from the registers that hold a value. *)
Lemma two_passed l v gx gy gs xs s : composite l = None -> cls l = Integer -> size l = 16%N -> List.length v = 16%nat ->
  (forall i z, nth_error (firstn 8 v) i = Some (Some z) -> byte (gp s gx) i = z) ->
  (forall i z, nth_error (skipn 8 v) i = Some (Some z) -> byte (gp s gy) i = z) ->
  exists bs, List.length bs = length_of l /\ fits v bs /\ in_regs (eightbytes l) (gx :: gy :: gs) xs bs s.
Proof.
  intros C E S L H H'. assert (V : has l v (set_gp Rdx (gp s gy) (set_gp Rax (gp s gx) s))) by (apply has_two; auto).
  destruct V as (bs & [_ Fb] & [Lb V]). exists bs. split; [exact Lb|]. split; [exact Fb|].
  rewrite E, (leaf_two l C E S) in V. rewrite (leaf_two l C E S). exact V.
Qed.
Lemma one_passed l v gx gs xs s : composite l = None -> cls l = Integer -> (1 <= size l <= 8)%N -> List.length v = length_of l ->
  (forall i z, nth_error v i = Some (Some z) -> byte (gp s gx) i = z) ->
  exists bs, List.length bs = length_of l /\ fits v bs /\ in_regs (eightbytes l) (gx :: gs) xs bs s.
Proof.
  intros C E S L H. assert (V : has l v (set_gp Rax (gp s gx) s)) by (apply has_small; auto).
  destruct V as (bs & [_ Fb] & [Lb V]). exists bs. split; [exact Lb|]. split; [exact Fb|].
  rewrite E, (leaf_small l C E S) in V. rewrite (leaf_small l C E S). exact V.
Qed.
Lemma float_eightbytes k l : floating k l -> eightbytes l = [Eightbyte 0 (size l) FloatingPoint].
Proof. intros (C & E & S & _). apply leaf_float; [exact C | exact E|]. rewrite S. destruct k; cbn; lia. Qed.
Lemma float_has k l v s : floating k l ->
  (has l v s <-> List.length v = length_of l /\ forall i z, nth_error v i = Some (Some z) -> byte (xm s 0%nat) i = z).
Proof.
  intros Fl. pose proof (float_eightbytes k l Fl) as Eb. destruct Fl as (_ & E & _). unfold has, value. rewrite E, Eb. cbn [in_regs e_class e_offset e_size]. split.
  - intros (bs & [Lm V] & Lb & R & _). split; [lia|]. intros i z H. apply R. rewrite part_all by (unfold length_of in *; lia). apply V, H.
  - intros [Lv V]. exists (le (length_of l) (xm s 0%nat)).
    rewrite part_all by (rewrite le_length; unfold length_of in *; lia).
    split; [|split; [apply le_length | split; [apply in_reg_le | exact Logic.I]]].
    split; [rewrite le_length; lia|]. intros i z H. pose proof (nth_bound _ _ _ H). rewrite nth_le by lia. f_equal. apply V, H.
Qed.
Lemma float_passed k l v x gs xs s : floating k l -> List.length v = length_of l ->
  (forall i z, nth_error v i = Some (Some z) -> byte (xm s x) i = z) ->
  exists bs, List.length bs = length_of l /\ fits v bs /\ in_regs (eightbytes l) gs (x :: xs) bs s.
Proof.
  intros Fl L H. assert (V : has l v (set_xm 0 (xm s x) s)) by (apply (float_has k); auto).
  destruct V as (bs & [_ Fb] & [Lb V]). exists bs. split; [exact Lb|]. split; [exact Fb|].
  pose proof (float_eightbytes k l Fl) as Eb. destruct Fl as (_ & E & _). rewrite E, Eb in V. rewrite Eb. destruct gs; exact V.
Qed.
Lemma popped_bytes m a v i z : holds m a v -> (List.length v <= 8)%nat -> nth_error v i = Some (Some z) -> byte (read 8 m a) i = z.
Proof. intros H L Hi. pose proof (nth_bound _ _ _ Hi). rewrite byte_read, (proj2 (Nat.ltb_lt i 8)) by lia. apply H, Hi. Qed.
Lemma float_by k l gs xs : floating k l -> by_register l gs (Datatypes.S xs) = true /\ count Integer l = 0%nat /\ count FloatingPoint l = 1%nat.
Proof.
  intros Fl. unfold by_register, count. rewrite (float_eightbytes k l Fl). destruct Fl as (_ & -> & _). cbn. auto.
Qed.

Section Cases.
Variable M : machine.
Variable r : resolver.
Variable known : nat -> bool.
Variable start : Z.
Variable F : nat.
Variable b : Z.
Variable offs : list (nat * Z).
Hypothesis X : setting M r start F b.
Variable c_means : Z -> list (layout * val) -> layout -> world (memo M) -> world (memo M) -> val -> Prop.
Hypothesis C_ok : c_functions M start c_means.

Notation heap_ok := (heap_ok start).
Notation leads := (leads M).
Notation code_at := (code_at M F).
Notation placed := (placed (type_words r) offs).
Notation kept := (kept start b).
Notation Inv := (Inv M r start F b offs).
Notation At := (At M r start F b offs).
Notation leaves := (leaves M start F b offs).
Notation gen := (gen r known offs).
Notation fine := (fine (balanced r)).
Notation world := (world (memo M)).
Notation Evs := (Evs M r known start F b offs).
Notation Peval := (Peval M r start F b offs known).
Ltac setting := let a := fresh "Xb" in let c := fresh "Xs" in pose proof (x_below X) as a; pose proof (x_start X) as c.
Ltac pos := repeat rewrite app_length; cbn [fst keep map List.length]; unfold at_rdi; lia.


(** ** The call *)
Lemma builtin_static sym l g c og g' : gen_builtin sym l g = Ret (c, og, g') -> good l -> cls l <> Memory -> og = Some l /\ depth g' = depth g /\ conts g' = conts g.
Proof.
  clear. unfold gen_builtin. intros H Gl Nm. change (new_frame [] l (depth g)) with (c_frame (c_args [] l) l (depth g)) in H.
  destruct (c_frame_room [] l (depth g) (Forall_nil _) Gl) as (Fa & Frw & Fp & Fpb & Frm & Fal). set (fr := c_frame (c_args [] l) l (depth g)) in *.
  apply emit_then in H. destruct H as (c2 & H & ->). apply emit_then in H. destruct H as (c3 & H & ->). apply out_then in H. destruct H as (c4 & H & ->).
  apply emit_then in H. destruct H as (c5 & H & ->). apply ret_inv in H. destruct H as (-> & -> & ->). split; [reflexivity|]. split; [|reflexivity].
  cbn [set_depth depth keep snd]. pose proof (extend_static (padding_before_stack_args fr)) as E1. pose proof (shrink_static (remnants_after_call fr)) as E2.
  change (on_stack l []) with 0 in *. assert (taken l = 0) by (unfold taken; destruct (cls l); congruence). lia.
Qed.
Lemma builtin_ok K G ks n m g0 s0 sym l args g c og g' (w w2 : world) v p s Q : gen_builtin sym l g = Ret (c, og, g') -> good l -> cls l <> Memory ->
  Forall (eq true) (in_registers l (map fst args)) -> At K G ks n m g0 s0 g w s -> code_at p c -> passed (gprs l) xmms 0 args s -> c_means (symbol M sym) args l w w2 v ->
  (forall s', At K G ks n m g0 s0 g' w2 s' -> has l v s' -> leads Q (Config F (p + List.length c) s' (fst w2))) -> leads Q (Config F p s (fst w)).
Proof.
  intros H Gl Nm Fr A C Pa Cm HQ. destruct (builtin_static _ _ _ _ _ _ H Gl Nm) as (-> & Dg & Cg). unfold gen_builtin in H. setting.
  change (new_frame [] l (depth g)) with (c_frame (c_args [] l) l (depth g)) in H.
  destruct (c_frame_room [] l (depth g) (Forall_nil _) Gl) as (Fa & Frw & Fp & Fpb & Frm & Fal). set (fr := c_frame (c_args [] l) l (depth g)) in *.
  change (on_stack l []) with 0 in *. assert (T0 : taken l = 0) by (unfold taken; destruct (cls l); congruence).
  apply emit_then in H. destruct H as (c2 & H & ->). apply emit_then in H. destruct H as (c3 & H & ->). apply out_then in H. destruct H as (c4 & H & ->).
  apply emit_then in H. destruct H as (c5 & H & ->). apply ret_inv in H. destruct H as (-> & _ & ->). rewrite app_nil_r in *.
  assert (Eo : offset_to_ret_destination fr = None) by (unfold offset_to_ret_destination; replace (ret_words fr =? 0) with true by lia; reflexivity).
  rewrite Eo in *. cbn [keep fst map List.app snd] in *.
  apply code_at_app in C. destruct C as [C1 C]. apply code_at_cons in C. destruct C as [Cn Cs].
  eapply leads_emit; [exact C1|]. destruct (at_extend X (padding_before_stack_args fr) A) as (A1 & D1 & M1 & G1).
  assert (X1 : xm (run (fst (extend_stack (padding_before_stack_args fr))) s) = xm s) by (unfold extend_stack; destruct (_ =? _)%N; reflexivity).
  set (s5 := run (fst (extend_stack (padding_before_stack_args fr))) s) in *. set (g1 := set_depth (depth g + snd (extend_stack (padding_before_stack_args fr))) g) in *.
  assert (Dg1 : depth g1 = depth g + snd (extend_stack (padding_before_stack_args fr))) by reflexivity.
  destruct (top X A1) as (T1 & T2 & T3 & T4 & T5 & T6).
  destruct (Z_lt_ge_dec (gp s5 Rsp) 0) as [Ov|Nv]; [now apply leads_overflow|].
  assert (Al : gp s5 Rsp mod 16 = 0). { rewrite T1. pose proof (x_aligned X) as Xa. clear -Xa Fal Fa Frw D1 Dg1 T0 Fpb. Z.to_euclidean_division_equations; lia. }
  destruct (C_ok _ _ _ _ _ _ Cm) as [Pn Cf]. destruct (gprs_ok l) as (Ar & Nrdi & Nrax & Nsv).
  assert (Os : on_stack l (map fst args) = 0) by (unfold on_stack; rewrite select_none by exact Fr; reflexivity).
  assert (Cd : c_called start args l (snd w) s5).
  { split.
    - exact Al.
    - lia.
    - eapply passed_registers; [exact X1 | unfold in_registers in Fr; rewrite <- free_length in Fr; exact Fr | | exact Pa].
      intros x Hx. apply G1. intros ->. exact (Nsv Rsp eq_refl Hx).
    - intros Em. contradiction.
    - rewrite Os. lia.
    - intros y. destruct (i_heap (a_inv A) y) as [H1 H2]. split; [exact H1|]. rewrite M1. exact H2. }
  destruct (Cf s5 Cd) as (s6 & Hf6 & [B1 B2 B3 B4 B5]). rewrite Os in B5.
  eapply leads_step.
  { unfold next_step. cbn [fn pc st al]. rewrite Cn. unfold Machine.call. cbn [st fn pc al]. unfold aligned. rewrite (proj2 (Z.eqb_eq _ _) Al), Pn, Hf6. reflexivity. }
  assert (R6 : rest s5 s6) by (intros x Sx _; now apply B1).
  assert (N6 : norm s6).
  { intros x Nx. destruct (saved x) eqn:Sx; [|now apply B2]. rewrite B1 by exact Sx. now apply (i_norm (a_inv A1)). }
  assert (A6 : At K G ks n m g0 s0 g1 w2 s6).
  { eapply at_later; [exact A1 | | exact R6 | exact N6 | exact B4 | | apply A1 | reflexivity].
    - intros y Hy _. apply B5; [lia|]. intros [Em _]. contradiction.
    - rewrite B1 by reflexivity. exact T1. }
  pose proof (a_depth A).
  destruct (at_shrink X (remnants_after_call fr) A6) as (A8 & D8 & M8 & G8 & X8); [lia|].
  eapply leads_emit; [exact Cs|]. eapply leads_pos; [|apply HQ].
  - rewrite !app_length. cbn [List.length]. lia.
  - eapply same_next; [exact A8 | cbn [set_depth depth] in *; lia | reflexivity].
  - apply has_other with s6; [exact Nm | exact G8 | exact X8|]. destruct B3 as [Lr B3].
    assert (B3' : exists bs, fits v bs /\ value l bs s6) by (destruct (cls l); try exact B3; now elim Nm).
    destruct B3' as (bs & Fb & Vb). exists bs. split; [|exact Vb]. split; [destruct Vb as [Lb _]; congruence | exact Fb].
Qed.

Lemma good_string : good l_string. Proof. apply (layout_good X (t := CtString)). reflexivity. Qed.
Lemma ev_genid G ks w w' v : c_means (symbol M (t_ "llrt_string_genid")) [] l_string w w' v -> Peval G ks (RNullary NGenId) w w' (OVal l_string v).
Proof.
  intros Cm used g c og g' H Fi Iu. cbn [Model.gen gen_nullary] in H. destruct (builtin_static _ _ _ _ _ _ H good_string) as (-> & Dg & Cg); [discriminate|]. split.
  - cbn [stat]. split; [reflexivity|]. split; [apply good_string|]. change (taken l_string) with 0. lia.
  - apply by_value. intros K n m p s Q C P A HQ. eapply builtin_ok with (args := []); [exact H | apply good_string | discriminate | constructor | exact A | exact C | exact Logic.I | exact Cm | exact HQ].
Qed.
Lemma math_name_is o k f al f' : floating k al -> unary_function o k = Some f -> math_name o (size al) = Ret f' -> f' = f.
Proof.
  clear. intros (_ & _ & -> & Hk) Hf H. destruct Hk as [-> | ->]; destruct o; try discriminate Hf; cbn in Hf, H; congruence.
Qed.
Lemma float_name_is o k f al f' : floating k al -> binary_function o k = Some f -> float_name o (size al) = Ret f' -> f' = f.
Proof.
  clear. intros (_ & _ & -> & Hk) Hf H. destruct Hk as [-> | ->]; destruct o; try discriminate Hf; cbn in Hf, H; congruence.
Qed.
Lemma float_small k l : floating k l -> (length_of l <= 8)%nat.
Proof. clear. intros (_ & _ & S & _). unfold length_of. rewrite S. destruct k; cbn; lia. Qed.
Lemma float_not_memory k l : floating k l -> cls l <> Memory.
Proof. clear. intros (_ & E & _). congruence. Qed.
Lemma float_gprs k l : floating k l -> gprs l = [Rdi; Rsi; Rdx; Rcx; R8; R9].
Proof. clear. intros (_ & E & _). unfold gprs. now rewrite E. Qed.
Lemma one_float_in k l : floating k l -> Forall (eq true) (in_registers l [l]).
Proof.
  clear. intros Fl. unfold in_registers. cbn [by_registers]. destruct (float_by k l (free_gprs l) 7 Fl) as (-> & _). repeat constructor.
Qed.
Lemma two_floats_in k l l' : floating k l -> floating k l' -> Forall (eq true) (in_registers l [l; l']).
Proof.
  clear. intros Fl Fl'. unfold in_registers. cbn [by_registers]. destruct (float_by k l (free_gprs l) 7 Fl) as (-> & -> & ->).
  change (8 - 1)%nat with 7%nat. destruct (float_by k l' (free_gprs l - 0) 6 Fl') as (-> & _). repeat constructor.
Qed.
Lemma ev_unary_c G ks o a w w1 w2 k f al v v' : Peval G ks a w w1 (OVal al v) -> floating k al -> unary_function o k = Some f ->
  c_means (symbol M f) [(al, v)] al w1 w2 v' -> Peval G ks (RUnary o a) w w2 (OVal al v').
Proof.
  intros Pa Fl Hf Cm used g c og g' H Fi Iu. cbn [Model.gen] in H.
  destruct (sub_val Pa H (fine_of _ Fi eq_refl (or_introl eq_refl)) Iu) as (c1 & g1 & c2 & H1 & -> & Ga & De & Co & Dy).
  assert (H2 : (do f, g <- need (math_name o (size al)) g1; gen_builtin f al g) = Ret (c2, og, g')) by (destruct o; try discriminate Hf; exact H1).
  clear H1. apply need_then in H2. destruct H2 as (f' & E & H2). rewrite (math_name_is _ _ _ _ _ Fl Hf E) in H2. clear f' E.
  destruct (builtin_static _ _ _ _ _ _ H2 Ga (float_not_memory _ _ Fl)) as (-> & Dg & Cg). split.
  - cbn [stat]. split; [reflexivity|]. split; [exact Ga | lia].
  - apply by_value. intros K n m p s Q C P A HQ. apply code_at_app in C. destruct C as [C1 C2].
    eapply use_val; [exact Dy | exact C1 | | exact A|].
    { apply plain in P; [|reflexivity]. inversion P; assumption. }
    intros s1 A1 _ _ V1. eapply builtin_ok with (args := [(al, v)]); [exact H2 | exact Ga | exact (float_not_memory _ _ Fl) | exact (one_float_in _ _ Fl) | exact A1 | exact C2 | | exact Cm|].
    + cbn [passed]. rewrite (float_gprs _ _ Fl). destruct (float_by k al (List.length [Rdi; Rsi; Rdx; Rcx; R8; R9]) 7 Fl) as (E1 & _). change (List.length xmms) with 8%nat. rewrite E1.
      split; [|exact Logic.I]. apply (float_has k) in V1; [|exact Fl]. eapply float_passed; [exact Fl | apply V1 | apply V1].
    + intros s2 A2 V2. eapply leads_pos; [|apply (HQ _ A2 V2)]. rewrite app_length. lia.
Qed.
Lemma ev_binary_c G ks o a b0 w w1 w2 w3 k f al v bl v2 v' : Peval G ks a w w1 (OVal al v) -> Peval G ks b0 w1 w2 (OVal bl v2) -> floating k al -> floating k bl ->
  binary_function o k = Some f -> c_means (symbol M f) [(al, v); (bl, v2)] al w2 w3 v' -> Peval G ks (RBinary o a b0) w w3 (OVal al v').
Proof.
  intros Pa Pb Fa Fb Hf Cm. eapply ev_binary_with; [exact X | exact Pa | exact Pb|]. intros g c og g' d H Ga Gb De.
  assert (H' : andthen (out [Block [MovqXX 1 0]] g) (fun _ g => andthen (emit (pop_eightbyte (Xmm 0)) g) (fun _ g => andthen (need (float_name o (size al)) g) (fun f g => gen_builtin f al g))) = Ret (c, og, g'))
    by (destruct o; try discriminate Hf; exact H).
  clear H. apply out_then in H'. destruct H' as (c2 & H & ->). apply emit_then in H. destruct H as (c3 & H & ->).
  apply need_then in H. destruct H as (f' & E & H). rewrite (float_name_is _ _ _ _ _ Fa Hf E) in H. clear f' E.
  destruct (builtin_static _ _ _ _ _ _ H Ga (float_not_memory _ _ Fa)) as (-> & Dg & Cg).
  rewrite (room_floating _ _ Fa) in De. rewrite (taken_floating _ _ Fb) in *. cbn [set_depth depth snd pop_eightbyte] in Dg. split.
  - split; [reflexivity|]. split; [exact Ga|]. rewrite (taken_floating _ _ Fa). lia.
  - intros K G0 ks0 n m g0 s0 Dl p s Q A C V Ho Lv HQ. apply code_at_app in C. destruct C as [C1 C]. apply code_at_app in C. destruct C as [C2 C3].
    rewrite (room_floating _ _ Fa) in Ho. apply (float_has k) in V; [|exact Fb].
    eapply leads_block; [exact C1 | reflexivity|]. set (s1 := set_xm 1 (xm s 0%nat) s).
    assert (A1 : At K G0 ks0 n m g0 s0 g w2 s1) by (eapply (at_block X); [exact A | now apply undisturbed_xm]).
    eapply leads_emit; [exact C2|].
    destruct (at_pop_xmm _ _ _ _ _ _ X K G0 ks0 n m g0 s0 0%nat _ _ _ A1) as (A2 & R2 & O2 & _); [lia|].
    set (s2 := run (fst (pop_eightbyte (Xmm 0))) s1) in *.
    eapply builtin_ok with (args := [(al, v); (bl, v2)]); [exact H | exact Ga | exact (float_not_memory _ _ Fa) | exact (two_floats_in _ _ _ Fa Fb) | exact A2 | exact C3 | | exact Cm|].
    + cbn [passed]. rewrite (float_gprs _ _ Fa). change (List.length xmms) with 8%nat. destruct (float_by k al (List.length [Rdi; Rsi; Rdx; Rcx; R8; R9]) 7 Fa) as (E1 & E2 & E3). rewrite E1, E2, E3.
      cbn [skipn xmms]. match goal with |- context [by_register bl ?q ?q'] => destruct (float_by k bl q 6 Fb) as (E4 & _); change q' with 7%nat; rewrite E4 end.
      split; [|split; [|exact Logic.I]].
      * eapply float_passed; [exact Fa | exact Lv|]. intros i z Hz. rewrite R2. replace (b - 8 * depth g) with (b - 8 * d - 8) by lia.
        eapply popped_bytes; [exact Ho | rewrite Lv; exact (float_small _ _ Fa) | exact Hz].
      * eapply float_passed; [exact Fb | apply V|]. intros i z Hz. rewrite O2 by discriminate. apply V, Hz.
    + intros s3 A3 V3. eapply leads_pos; [|apply (HQ _ A3 V3)]. rewrite !app_length. cbn [List.length map fst pop_eightbyte]. lia.
Qed.

(** Strings. *)
Lemma string_result o f l : string_function o = Some (f, l) -> good l /\ cls l <> Memory /\ taken l = 0 /\ Forall (eq true) (in_registers l [l_string; l_string]) /\ gprs l = [Rdi; Rsi; Rdx; Rcx; R8; R9].
Proof.
  intros H. destruct o; try discriminate H; injection H as <- <-; (split; [|repeat split; try discriminate; repeat constructor]).
  - apply (layout_good X (t := CtU 8)). reflexivity.
  - apply (layout_good X (t := CtU 32)). reflexivity.
  - apply good_string.
Qed.
Lemma ev_string G ks o a b0 w w1 w2 w3 f v v2 l v' : Peval G ks a w w1 (OVal l_string v) -> Peval G ks b0 w1 w2 (OVal l_string v2) -> string_function o = Some (f, l) ->
  c_means (symbol M f) [(l_string, v); (l_string, v2)] l w2 w3 v' -> Peval G ks (RBinary o a b0) w w3 (OVal l v').
Proof.
  intros Pa Pb Hf Cm. destruct (string_result _ _ _ Hf) as (Gl & Nm & T0 & Fr & Eg). eapply ev_binary_with; [exact X | exact Pa | exact Pb|]. intros g c og g' d H Ga Gb De.
  assert (H' : andthen (emit (keep [Movq Rcx Rdx; Movq Rdx Rax]) g) (fun _ g => andthen (emit (pop_eightbyte (Gpr Rdi)) g) (fun _ g => andthen (emit (pop_eightbyte (Gpr Rsi)) g) (fun _ g => gen_builtin f l g))) = Ret (c, og, g'))
    by (destruct o; try discriminate Hf; injection Hf as <- <-; exact H).
  clear H. apply emit_then in H'. destruct H' as (c2 & H & ->). apply emit_then in H. destruct H as (c3 & H & ->). apply emit_then in H. destruct H as (c4 & H & ->).
  destruct (builtin_static _ _ _ _ _ _ H Gl Nm) as (-> & Dg & Cg).
  change (room l_string) with 16 in *. change (taken l_string) with 0 in *. cbn [set_depth depth keep snd pop_eightbyte] in Dg. split.
  - split; [reflexivity|]. split; [exact Gl | lia].
  - intros K G0 ks0 n m g0 s0 Dl p s Q A C V Ho Lv HQ. apply code_at_app in C. destruct C as [C1 C]. apply code_at_app in C. destruct C as [C2 C]. apply code_at_app in C. destruct C as [C3 C4].
    change (room l_string) with 16 in Ho. change (length_of l_string) with 16%nat in Lv. apply has_two in V; [|reflexivity | reflexivity | reflexivity]. destruct V as (L2 & V & V').
    eapply leads_emit; [exact C1|]. cbn [fst keep run step]. set (s1 := set_gp Rdx _ (set_gp Rcx _ s)).
    assert (A1 : At K G0 ks0 n m g0 s0 (set_depth (depth g + snd (keep [Movq Rcx Rdx; Movq Rdx Rax])) g) w2 s1).
    { eapply same_next; [apply (at_set X); [apply (at_set X); [exact A | reflexivity | discriminate] | reflexivity | intros _; apply A; reflexivity] | cbn [set_depth depth keep snd]; lia | reflexivity]. }
    eapply leads_emit; [exact C2|]. destruct (at_pop_gpr _ _ _ _ _ _ X K G0 ks0 n m g0 s0 Rdi _ _ _ A1 eq_refl) as (A2 & R2 & O2 & X2 & M2); [cbn [set_depth depth keep snd]; lia|].
    set (s2 := run (fst (pop_eightbyte (Gpr Rdi))) s1) in *.
    eapply leads_emit; [exact C3|]. destruct (at_pop_gpr _ _ _ _ _ _ X K G0 ks0 n m g0 s0 Rsi _ _ _ A2 eq_refl) as (A3 & R3 & O3 & X3 & M3); [cbn [set_depth depth keep snd pop_eightbyte]; lia|].
    set (s3 := run (fst (pop_eightbyte (Gpr Rsi))) s2) in *.
    assert (Ho1 : holds (mem s) (b - 8 * d - 16) (firstn 8 v) /\ holds (mem s) (b - 8 * d - 8) (skipn 8 v)).
    { rewrite <- (firstn_skipn 8 v) in Ho. apply holds_app in Ho. rewrite firstn_length in Ho. replace (b - 8 * d - 16 + Z.of_nat (Nat.min 8 (List.length v))) with (b - 8 * d - 8) in Ho by lia. exact Ho. }
    eapply builtin_ok with (args := [(l_string, v); (l_string, v2)]); [exact H | exact Gl | exact Nm | exact Fr | exact A3 | exact C4 | | exact Cm|].
    + rewrite Eg. change (passed [Rdi; Rsi; Rdx; Rcx; R8; R9] xmms 0 [(l_string, v); (l_string, v2)] s3) with
        ((exists bs, List.length bs = length_of l_string /\ fits v bs /\ in_regs (eightbytes l_string) [Rdi; Rsi; Rdx; Rcx; R8; R9] xmms bs s3) /\
         (exists bs, List.length bs = length_of l_string /\ fits v2 bs /\ in_regs (eightbytes l_string) [Rdx; Rcx; R8; R9] xmms bs s3) /\ True).
      split; [|split; [|exact Logic.I]].
      * apply two_passed; try reflexivity; [exact Lv | |]; intros i z Hz.
        -- rewrite O3 by discriminate. rewrite R2. change (mem s1) with (mem s). cbn [set_depth depth keep snd]. replace (b - 8 * (depth g + 0)) with (b - 8 * d - 16) by lia.
           eapply popped_bytes; [apply Ho1 | rewrite firstn_length; lia | exact Hz].
        -- rewrite R3, M2. change (mem s1) with (mem s). cbn [set_depth depth keep snd pop_eightbyte]. replace (b - 8 * (depth g + 0 + -1)) with (b - 8 * d - 8) by lia.
           eapply popped_bytes; [apply Ho1 | rewrite skipn_length; lia | exact Hz].
      * apply two_passed; try reflexivity; [exact L2 | |]; intros i z Hz; rewrite O3, O2 by discriminate; [apply V in Hz | apply V' in Hz]; exact Hz.
    + intros s4 A4 V4. eapply leads_pos; [|apply (HQ _ A4 V4)]. rewrite !app_length. cbn [List.length map fst keep pop_eightbyte]. lia.
Qed.

(** ** Operators with three operands *)
Definition ternary_right o c0 al bl cl v v2 v3 w w' l v' : Prop :=
  forall g c og g' d, gen_ternary r o c0 bl g = Ret (c, og, g') -> good al -> good bl -> good cl -> 8 * depth g = 8 * d + room al + room bl + taken cl ->
  (og = Some l /\ good l /\ 8 * depth g' = 8 * d + taken l) /\
  forall K G ks n m g0 s0, depth g0 <= d ->
  forall p s Q, At K G ks n m g0 s0 g w s -> code_at p c -> has cl v3 s ->
  holds (mem s) (b - 8 * d - room al) v -> List.length v = length_of al -> holds (mem s) (b - 8 * d - room al - room bl) v2 -> List.length v2 = length_of bl ->
  (forall s', At K G ks n m g0 s0 g' w' s' -> has l v' s' -> leads Q (Config F (p + List.length c) s' (fst w'))) -> leads Q (Config F p s (fst w)).
Lemma ev_ternary_with G ks o a b0 c0 w w1 w2 w3 w4 al v bl v2 cl v3 l v' : Peval G ks a w w1 (OVal al v) -> Peval G ks b0 w1 w2 (OVal bl v2) -> Peval G ks c0 w2 w3 (OVal cl v3) ->
  ternary_right o c0 al bl cl v v2 v3 w3 w4 l v' -> Peval G ks (RTernary o a b0 c0) w w4 (OVal l v').
Proof.
  intros Pa Pb Pc Hv used g c og g' H Fi Iu. cbn [Model.gen] in H.
  destruct (sub_val Pa H (fine_of a Fi eq_refl (or_introl eq_refl)) Iu) as (c1 & g1 & c2 & H1 & -> & Ga & De & Co & Dy).
  apply emit_then in H1. destruct H1 as (c3 & H1 & ->).
  assert (Iu1 : incl (map fst (conts (set_depth (depth g1 + snd (push al)) g1))) used) by (cbn [set_depth conts]; now rewrite Co).
  destruct (sub_val Pb H1 (fine_of b0 Fi eq_refl (or_intror (or_introl eq_refl))) Iu1) as (c4 & g4 & c5 & H2 & -> & Gb & De2 & Co2 & Dy2).
  apply emit_then in H2. destruct H2 as (c6 & H2 & ->).
  assert (Iu2 : incl (map fst (conts (set_depth (depth g4 + snd (push bl)) g4))) used) by (cbn [set_depth conts] in *; rewrite Co2; exact Iu1).
  destruct (sub_val Pc H2 (fine_of c0 Fi eq_refl (or_intror (or_intror (or_introl eq_refl)))) Iu2) as (c7 & g7 & c8 & H3 & -> & Gc & De3 & Co3 & Dy3).
  cbn [set_depth depth] in De2, De3. pose proof (good_usable al Ga) as Ua. pose proof (push_static al Ua) as Ps. pose proof (taken_bounds al) as Tb.
  pose proof (good_usable bl Gb) as Ub. pose proof (push_static bl Ub) as Ps2. pose proof (taken_bounds bl) as Tb2.
  destruct (Hv g7 c8 og g' (depth g) H3 Ga Gb Gc) as [(-> & Gl & De4) Do]; [lia|]. split.
  - cbn [stat]. auto.
  - apply by_value. intros K n m p s Q C P A HQ. apply code_at_app in C. destruct C as [C1 C]. apply code_at_app in C. destruct C as [C2 C].
    apply code_at_app in C. destruct C as [C3 C]. apply code_at_app in C. destruct C as [C4 C]. apply code_at_app in C. destruct C as [C5 C6].
    apply plain in P; [|reflexivity]. inversion P as [|? ? P1 P']; subst. inversion P' as [|? ? P2 P'']; subst. inversion P'' as [|? ? P3 _]; subst.
    eapply use_val; [exact Dy | exact C1 | exact P1 | exact A|]. intros s1 A1 _ _ V1. eapply leads_emit; [exact C2|].
    destruct (at_push X al v (depth g) A1 Ga V1 De ltac:(lia)) as (A2 & D2 & Ho & _). eapply use_val; [exact Dy2 | exact C3 | exact P2 | exact A2|].
    intros s2 A3 Kp _ V2. pose proof (has_length _ _ _ V1) as Lv. pose proof (has_length _ _ _ V2) as Lv2.
    destruct (top X A3) as (T1 & T2 & T3 & T4 & T5 & T6). pose proof (i_levels (a_inv A3)). pose proof (room_size al) as Ra. pose proof (room_size bl) as Rb.
    assert (Ho1 : holds (mem s2) (b - 8 * depth g - room al) v).
    { eapply (holds_kept X); [exact Kp | | | | assumption].
      * replace (b - 8 * depth g - room al) with (b - 8 * (depth g1 + snd (push al))) by lia. exact Ho.
      * cbn [set_depth depth]. lia.
      * unfold length_of in Lv. lia. }
    eapply leads_emit; [exact C4|].
    destruct (at_push X bl v2 (depth g1 + snd (push al)) A3 Gb V2 De2 ltac:(lia)) as (A4 & D4 & Ho2 & So4).
    set (s3 := run (fst (push bl)) s2) in *.
    assert (Ho3 : holds (mem s3) (b - 8 * depth g - room al) v).
    { eapply holds_ext; [exact Ho1|]. intros i Hi. apply So4. unfold length_of in Lv. lia. }
    eapply use_val; [exact Dy3 | exact C5 | exact P3 | exact A4|]. intros s4 A5 Kp5 _ V3.
    destruct (top X A5) as (U1 & U2 & U3 & U4 & U5 & U6).
    eapply Do; [| exact A5 | exact C6 | exact V3 | | exact Lv | | exact Lv2|].
    + lia.
    + eapply (holds_kept X); [exact Kp5 | exact Ho3 | cbn [set_depth depth]; lia | unfold length_of in Lv; lia | assumption].
    + eapply (holds_kept X); [exact Kp5 | | cbn [set_depth depth]; lia | unfold length_of in Lv2; lia | assumption].
      replace (b - 8 * depth g - room al - room bl) with (b - 8 * (depth g4 + snd (push bl))) by lia. exact Ho2.
    + intros s5 A6 V6. eapply leads_pos; [|apply (HQ _ A6 V6)]. rewrite !app_length. lia.
Qed.
Lemma ev_ternary_second G ks o a b0 c0 w w1 w2 al v x : Peval G ks a w w1 (OVal al v) -> Peval G ks b0 w1 w2 x -> abrupt x -> Peval G ks (RTernary o a b0 c0) w w2 x.
Proof.
  intros Pa Pb Ab used g c og g' H Fi Iu. cbn [Model.gen] in H.
  destruct (sub_val Pa H (fine_of a Fi eq_refl (or_introl eq_refl)) Iu) as (c1 & g1 & c2 & H1 & -> & Ga & De & Co & Dy).
  apply emit_then in H1. destruct H1 as (c3 & H1 & ->).
  assert (Iu1 : incl (map fst (conts (set_depth (depth g1 + snd (push al)) g1))) used) by (cbn [set_depth conts]; now rewrite Co).
  destruct (sub_abrupt Pb Ab H1 (fine_of b0 Fi eq_refl (or_intror (or_introl eq_refl))) Iu1) as (c4 & g4 & c5 & -> & Ju & Dy2). split.
  - apply stat_abrupt; [exact Ab|]. eapply in_jumpless; [exact Ju | right; now left].
  - apply by_abrupt; [exact Ab|]. intros K n m p s C P A. apply code_at_app in C. destruct C as [C1 C]. apply code_at_app in C. destruct C as [C2 C].
    apply code_at_app in C. destruct C as [C3 _]. apply plain in P; [|reflexivity]. inversion P as [|? ? P1 P']; subst. inversion P' as [|? ? P2 _]; subst.
    eapply use_val; [exact Dy | exact C1 | exact P1 | exact A|]. intros s1 A1 _ _ V1. eapply leads_emit; [exact C2|].
    destruct (at_push X al v (depth g) A1 Ga V1 De ltac:(lia)) as (A2 & _). eapply use_abrupt; [exact Dy2 | exact Ab | exact C3 | exact P2 | exact A2].
Qed.
Lemma ev_ternary_third G ks o a b0 c0 w w1 w2 w3 al v bl v2 x : Peval G ks a w w1 (OVal al v) -> Peval G ks b0 w1 w2 (OVal bl v2) -> Peval G ks c0 w2 w3 x -> abrupt x ->
  Peval G ks (RTernary o a b0 c0) w w3 x.
Proof.
  intros Pa Pb Pc Ab used g c og g' H Fi Iu. cbn [Model.gen] in H.
  destruct (sub_val Pa H (fine_of a Fi eq_refl (or_introl eq_refl)) Iu) as (c1 & g1 & c2 & H1 & -> & Ga & De & Co & Dy).
  apply emit_then in H1. destruct H1 as (c3 & H1 & ->).
  assert (Iu1 : incl (map fst (conts (set_depth (depth g1 + snd (push al)) g1))) used) by (cbn [set_depth conts]; now rewrite Co).
  destruct (sub_val Pb H1 (fine_of b0 Fi eq_refl (or_intror (or_introl eq_refl))) Iu1) as (c4 & g4 & c5 & H2 & -> & Gb & De2 & Co2 & Dy2).
  apply emit_then in H2. destruct H2 as (c6 & H2 & ->).
  assert (Iu2 : incl (map fst (conts (set_depth (depth g4 + snd (push bl)) g4))) used) by (cbn [set_depth conts] in *; rewrite Co2; exact Iu1).
  destruct (sub_abrupt Pc Ab H2 (fine_of c0 Fi eq_refl (or_intror (or_intror (or_introl eq_refl)))) Iu2) as (c7 & g7 & c8 & -> & Ju & Dy3).
  cbn [set_depth depth] in De2. pose proof (good_usable al Ga) as Ua. pose proof (push_static al Ua) as Ps. pose proof (taken_bounds al) as Tb. pose proof (room_nonneg al) as Ra. split.
  - apply stat_abrupt; [exact Ab|]. eapply in_jumpless; [exact Ju | right; right; now left].
  - apply by_abrupt; [exact Ab|]. intros K n m p s C P A. apply code_at_app in C. destruct C as [C1 C]. apply code_at_app in C. destruct C as [C2 C].
    apply code_at_app in C. destruct C as [C3 C]. apply code_at_app in C. destruct C as [C4 C]. apply code_at_app in C. destruct C as [C5 _].
    apply plain in P; [|reflexivity]. inversion P as [|? ? P1 P']; subst. inversion P' as [|? ? P2 P'']; subst. inversion P'' as [|? ? P3 _]; subst.
    eapply use_val; [exact Dy | exact C1 | exact P1 | exact A|]. intros s1 A1 _ _ V1. eapply leads_emit; [exact C2|].
    destruct (at_push X al v (depth g) A1 Ga V1 De ltac:(lia)) as (A2 & D2 & _). eapply use_val; [exact Dy2 | exact C3 | exact P2 | exact A2|].
    intros s2 A3 _ _ V2. eapply leads_emit; [exact C4|].
    destruct (at_push X bl v2 (depth g1 + snd (push al)) A3 Gb V2 De2 ltac:(lia)) as (A4 & _). eapply use_abrupt; [exact Dy3 | exact Ab | exact C5 | exact P3 | exact A4].
Qed.

(** An element of an array is written. *)
Lemma ev_array_store G ks a b0 c0 w w1 w2 w3 al x vx l v la va pp n0 : Peval G ks a w w1 (OVal al vx) -> is_int Q al x vx -> Peval G ks b0 w1 w2 (OVal l v) ->
  Peval G ks c0 w2 w3 (OVal la va) -> is_array pp n0 la va -> (size l < 2 ^ 31)%N -> pp + x * Z.of_N (size l) < 2 ^ 64 -> available (snd w3) (pp + x * Z.of_N (size l)) (List.length v) ->
  Peval G ks (RTernary TArrayStore a b0 c0) w (fst w3, put (pp + x * Z.of_N (size l)) v (snd w3)) (OVal l_unit []).
Proof.
  intros Pa (Ia & Bx & ->) Pb Pc (-> & Bp & ->) Sz Fit Av. eapply ev_ternary_with; [exact Pa | exact Pb | exact Pc|]. intros g c og g' d H Ga Gb Gc De. cbn [gen_ternary] in H.
  apply emit_then in H. destruct H as (c1 & H & ->). apply emit_then in H. destruct H as (c2 & H & ->). apply out_then in H. destruct H as (c3 & H & ->).
  apply emit_then in H. destruct H as (c4 & H & ->). apply emit_then in H. destruct H as (c5 & H & ->). apply ret_inv in H. destruct H as (-> & -> & ->).
  pose proof (good_usable l Gb) as U. pose proof (pop_static l U) as Po. pose proof (store_static (Addr Rsi (Some Rdi) 0) l U rsi_rdi_ok) as So. pose proof (taken_bounds l) as Tb.
  pose proof (shrink_static (l_integer 8)) as Sh. change (room (l_integer 8)) with 8 in Sh.
  rewrite (room_integral _ _ Ia) in De. change (taken l_array) with 0 in *. split.
  - split; [reflexivity|]. split; [apply (layout_good X (t := CtUnit)); reflexivity|]. change (taken l_unit) with 0. cbn [set_depth depth keep snd]. lia.
  - intros K G0 ks0 n m g0 s0 Dl p s Q' A C V Ho Lv Ho2 Lv2 HQ. rewrite app_nil_r in *. setting.
    apply code_at_app in C. destruct C as [C1 C]. apply code_at_app in C. destruct C as [C2 C]. apply code_at_app in C. destruct C as [C3 C]. apply code_at_app in C. destruct C as [C4 C5].
    rewrite (room_integral _ _ Ia) in Ho, Ho2.
    assert (Er : gp s Rax = pp) by (eapply array_has; [apply A | exact Bp | exact V]).
    eapply leads_emit; [exact C1|]. cbn [fst keep run step]. rewrite Er.
    assert (A1 : At K G0 ks0 n m g0 s0 (set_depth (depth g + snd (keep [Movq Rsi Rax])) g) w3 (set_gp Rsi pp s)).
    { eapply same_next; [apply (at_set X); [exact A | reflexivity | discriminate] | cbn [set_depth depth keep snd]; lia | reflexivity]. }
    set (s1 := set_gp Rsi pp s) in *. eapply leads_emit; [exact C2|].
    destruct (at_pop X l v A1 Gb Lv2) as (A2 & D2 & V2 & M2 & R2).
    { cbn [set_depth depth keep snd]. change (mem s1) with (mem s). replace (b - 8 * (depth g + 0)) with (b - 8 * d - 8 - room l) by lia. exact Ho2. }
    { cbn [set_depth depth keep snd]. lia. }
    set (s2 := run (fst (pop l)) s1) in *. match type of A2 with ProofsInv.At _ _ _ _ _ _ _ _ _ _ _ _ _ ?gg _ _ => set (g2 := gg) in * end.
    assert (Dg2 : 8 * depth g2 = 8 * d + 8 + taken l) by (unfold g2; cbn [set_depth depth keep snd] in *; lia).
    destruct (top X A2) as (T1 & _).
    assert (Ea2 : ea (at_rsp (Z.of_N (size_in_stack l true))) s2 = b - 8 * d - 8) by (unfold ea; cbn [at_rsp base index disp]; rewrite value_taken; lia).
    assert (Ex : low Q (read 8 (mem s2) (b - 8 * d - 8)) = x) by (rewrite M2; change (mem s1) with (mem s); rewrite (read_low Q _ _ x Ho); now apply low_id).
    set (s3 := set_low Q Rdi (read 8 (mem s2) (ea (at_rsp (Z.of_N (size_in_stack l true))) s2) * as_i32 (size l)) s2).
    assert (B3 : block [ImulMem Rdi (at_rsp (Z.of_N (size_in_stack l true))) (as_i32 (size l))] s2 = Some s3) by reflexivity.
    eapply leads_block; [exact C3 | exact B3|].
    assert (A3 : At K G0 ks0 n m g0 s0 g2 w3 s3) by (eapply (at_block X); [exact A2 | eapply block_safe; [|exact B3]; repeat constructor]).
    assert (V3 : has l v s3) by (apply has_set; [reflexivity | exact V2]).
    assert (E3 : gp s3 Rdi = x * Z.of_N (size l)).
    { unfold s3. rewrite gp_low_q, Ea2, (as_i32_small _ Sz). rewrite (low_mul Q _ x _ (Z.of_N (size l))); [|rewrite Ex; symmetry; apply low_id, Bx | reflexivity].
      apply low_id. unfold in_bits in *. change (2 ^ bits Q) with (2 ^ 64) in *. clear -Bp Bx Fit. nia. }
    assert (Ea : ea (Addr Rsi (Some Rdi) 0) s3 = pp + x * Z.of_N (size l)).
    { unfold ea. cbn [base index disp]. rewrite E3. unfold s3. rewrite gp_low_other by discriminate. rewrite R2 by reflexivity.
      unfold s1. rewrite gp_set, gpr_eqb_refl. lia. }
    eapply leads_emit; [exact C4|].
    destruct (at_store_to known X l v (d + 1) (Addr Rsi (Some Rdi) 0) (pp + x * Z.of_N (size l)) A3 U V3) as (A4 & D4 & _); [lia | lia | apply rsi_rdi_ok | exact Ea | exact Av|].
    eapply leads_emit; [exact C5|]. destruct (at_shrink X (l_integer 8) A4) as (A5 & D5 & _); [change (room (l_integer 8)) with 8; cbn [set_depth depth]; lia|].
    eapply leads_pos; [|apply (HQ _ A5 (has_unit _))]. rewrite !app_length. cbn [List.length map fst keep]. lia.
Qed.

(** Elements are copied. *)
Lemma ev_copy G ks o a b0 c0 f w w1 w2 w3 w4 v bl x vx v3 t l v' : Peval G ks a w w1 (OVal l_pointer v) -> Peval G ks b0 w1 w2 (OVal bl vx) -> is_int Q bl x vx -> Peval G ks c0 w2 w3 (OVal l_pointer v3) ->
  rt_ty c0 = Ret (Some (CtPtr t)) -> get r t = Ret l -> (size l < 2 ^ 31)%N ->
  match o with TPtrCopy => f = t_ "memcpy" | TPtrMove => f = t_ "memmove" | TArrayStore => False end ->
  c_means (symbol M f) [(l_pointer, v3); (l_pointer, v); (l_integer 8, number 8 (x * Z.of_N (size l)))] l_pointer w3 w4 v' ->
  Peval G ks (RTernary o a b0 c0) w w4 (OVal l_unit []).
Proof.
  intros Pa Pb (Ib & Bx & ->) Pc Ht Hg Sz Hf Cm. eapply ev_ternary_with; [exact Pa | exact Pb | exact Pc|]. intros g c og g' d H Ga Gb Gc De.
  assert (H' : (do l, g <- need (get r t) g; do _, g <- emit (keep [Movq Rdi Rax]) g; do _, g <- emit (pop_eightbyte (Gpr Rdx)) g;
     do _, g <- out [Block [ImulImm Rdx Rdx (as_i32 (size l))]] g; do _, g <- emit (pop_eightbyte (Gpr Rsi)) g; do _, g <- gen_builtin f l_pointer g; ret l_unit g) = Ret (c, og, g')).
  { destruct o; try contradiction; subst f; cbn [gen_ternary] in H; apply need_then in H; destruct H as (t' & E & H); rewrite Ht in E; injection E as <-; exact H. }
  clear H. apply need_then in H'. destruct H' as (l' & E & H). rewrite Hg in E. injection E as <-.
  apply emit_then in H. destruct H as (c1 & H & ->). apply emit_then in H. destruct H as (c2 & H & ->). apply out_then in H. destruct H as (c3 & H & ->).
  apply emit_then in H. destruct H as (c4 & H & ->). apply andthen_inv in H. destruct H as (cb & ob & gb & Hb & H).
  destruct (builtin_static _ _ _ _ _ _ Hb Ga) as (-> & Dg & Cg); [discriminate|]. destruct H as (c5 & H & ->). apply ret_inv in H. destruct H as (-> & -> & ->).
  rewrite (room_integral _ _ Ib) in De. change (taken l_pointer) with 0 in *. change (room l_pointer) with 8 in *. cbn [set_depth depth keep snd pop_eightbyte] in Dg. split.
  - split; [reflexivity|]. split; [apply (layout_good X (t := CtUnit)); reflexivity|]. change (taken l_unit) with 0. lia.
  - intros K G0 ks0 n m g0 s0 Dl p s Q' A C V Ho Lv Ho2 Lv2 HQ. rewrite app_nil_r in *.
    apply code_at_app in C. destruct C as [C1 C]. apply code_at_app in C. destruct C as [C2 C]. apply code_at_app in C. destruct C as [C3 C]. apply code_at_app in C. destruct C as [C4 C5].
    rewrite (room_integral _ _ Ib) in Ho2. change (room l_pointer) with 8 in *. pose proof (has_length _ _ _ V) as L3.
    apply has_small in V; [|reflexivity | reflexivity | split; discriminate]. change (length_of l_pointer) with 8%nat in *.
    eapply leads_emit; [exact C1|]. cbn [fst keep run step]. set (s1 := set_gp Rdi (gp s Rax) s).
    assert (A1 : At K G0 ks0 n m g0 s0 (set_depth (depth g + snd (keep [Movq Rdi Rax])) g) w3 s1).
    { eapply same_next; [apply (at_set X); [exact A | reflexivity | discriminate] | cbn [set_depth depth keep snd]; lia | reflexivity]. }
    eapply leads_emit; [exact C2|]. destruct (at_pop_gpr _ _ _ _ _ _ X K G0 ks0 n m g0 s0 Rdx _ _ _ A1 eq_refl) as (A2 & R2 & O2 & X2 & M2); [cbn [set_depth depth keep snd]; lia|].
    set (s2 := run (fst (pop_eightbyte (Gpr Rdx))) s1) in *. match type of A2 with ProofsInv.At _ _ _ _ _ _ _ _ _ _ _ _ _ ?gg _ _ => set (g2 := gg) in * end.
    set (s3 := set_low Q Rdx (gp s2 Rdx * as_i32 (size l)) s2).
    assert (B3 : block [ImulImm Rdx Rdx (as_i32 (size l))] s2 = Some s3) by reflexivity.
    eapply leads_block; [exact C3 | exact B3|].
    assert (A3 : At K G0 ks0 n m g0 s0 g2 w3 s3) by (eapply (at_block X); [exact A2 | eapply block_safe; [|exact B3]; repeat constructor]).
    eapply leads_emit; [exact C4|]. destruct (at_pop_gpr _ _ _ _ _ _ X K G0 ks0 n m g0 s0 Rsi _ _ _ A3 eq_refl) as (A4 & R4 & O4 & X4 & M4); [unfold g2; cbn [set_depth depth keep snd pop_eightbyte]; lia|].
    set (s4 := run (fst (pop_eightbyte (Gpr Rsi))) s3) in *.
    assert (Ex : low Q (gp s2 Rdx) = low Q x).
    { rewrite R2. change (mem s1) with (mem s). cbn [set_depth depth keep snd]. replace (b - 8 * (depth g + 0)) with (b - 8 * d - 8 - 8) by lia. exact (read_low Q _ _ x Ho2). }
    eapply builtin_ok with (args := [(l_pointer, v3); (l_pointer, v); (l_integer 8, number 8 (x * Z.of_N (size l)))]);
      [exact Hb | exact Ga | discriminate | repeat constructor | exact A4 | exact C5 | | exact Cm|].
    + change (passed (gprs l_pointer) xmms 0 [(l_pointer, v3); (l_pointer, v); (l_integer 8, number 8 (x * Z.of_N (size l)))] s4) with
        ((exists bs, List.length bs = length_of l_pointer /\ fits v3 bs /\ in_regs (eightbytes l_pointer) [Rdi; Rsi; Rdx; Rcx; R8; R9] xmms bs s4) /\
         (exists bs, List.length bs = length_of l_pointer /\ fits v bs /\ in_regs (eightbytes l_pointer) [Rsi; Rdx; Rcx; R8; R9] xmms bs s4) /\
         (exists bs, List.length bs = length_of (l_integer 8) /\ fits (number 8 (x * Z.of_N (size l))) bs /\ in_regs (eightbytes (l_integer 8)) [Rdx; Rcx; R8; R9] xmms bs s4) /\ True).
      split; [|split; [|split; [|exact Logic.I]]]; (apply one_passed; [reflexivity | reflexivity | split; discriminate | |]).
      * exact L3.
      * intros i z Hz. rewrite O4 by discriminate. unfold s3. rewrite gp_low_other by discriminate. rewrite O2 by discriminate. apply V, Hz.
      * exact Lv.
      * intros i z Hz. rewrite R4. change (mem s3) with (mem s2). rewrite M2. change (mem s1) with (mem s). unfold g2. cbn [set_depth depth keep snd pop_eightbyte].
        replace (b - 8 * (depth g + 0 + -1)) with (b - 8 * d - 8) by lia. eapply popped_bytes; [exact Ho | lia | exact Hz].
      * apply number_length.
      * intros i z Hz. apply nth_number in Hz. destruct Hz as [Hi ->]. rewrite O4 by discriminate. revert i Hi. apply (byte_low Q).
        unfold s3. rewrite gp_low, (as_i32_small _ Sz). now apply low_mul.
    + intros s5 A5 V5. eapply leads_pos; [|apply (HQ _ A5 (has_unit _))]. rewrite !app_length. cbn [List.length map fst keep pop_eightbyte]. lia.
Qed.

(** An array is allocated. *)
Lemma ev_alloc_array G ks loc t a l al x v w w1 w2 pp : loc <> LStackStatic -> get r t = Ret l -> (size l < 2 ^ 31)%N -> Peval G ks a w w1 (OVal al v) -> is_int Q al x v ->
  x * Z.of_N (size l) < 2 ^ 64 -> allocates start (memo M) (alloc M) w1 (Z.to_N x * size l) w2 pp ->
  Peval G ks (RAllocArray loc t a) w w2 (OVal l_array (pointer pp ++ v)).
Proof.
  intros Hl Hg Sz Pa (Ia & Bx & ->) Fit Hal used g c og g' H Fi Iu. cbn [Model.gen] in H.
  assert (H' : (do l, g <- need (get r t) g; do _, g <- gen a g; do _, g <- emit (push_eightbyte (Gpr Rax)) g; do _, g <- out [Block [ImulImm Rdi Rax (as_i32 (size l))]] g;
     do _, g <- gen_malloc g; do _, g <- emit (pop_eightbyte (Gpr Rdx)) g; ret l_array g) = Ret (c, og, g')) by (destruct loc; [exact H | now elim Hl | exact H]).
  clear H. apply need_then in H'. destruct H' as (l' & E & H). rewrite Hg in E. injection E as <-.
  destruct (sub_val Pa H (fine_of a Fi eq_refl (or_introl eq_refl)) Iu) as (c1 & g1 & c2 & H1 & -> & Ga & De & Co & Dy).
  apply emit_then in H1. destruct H1 as (c3 & H1 & ->). apply out_then in H1. destruct H1 as (c4 & H1 & ->).
  apply andthen_inv in H1. destruct H1 as (cm & om & gm & Hm & H1). destruct (malloc_static known 0%nat Hm) as (-> & Dm & Cm). destruct H1 as (c5 & H1 & ->).
  apply emit_then in H1. destruct H1 as (c6 & H1 & ->). apply ret_inv in H1. destruct H1 as (-> & -> & ->).
  rewrite (taken_integral _ _ Ia) in De. cbn [set_depth depth snd push_eightbyte] in Dm. split.
  - cbn [stat]. split; [reflexivity|]. split; [apply (layout_good X (t := CtArray CtUnit)); reflexivity|]. change (taken l_array) with 0. cbn [set_depth depth snd pop_eightbyte]. lia.
  - apply by_value. intros K n m p s Q' C P A HQ. rewrite app_nil_r in *.
    apply code_at_app in C. destruct C as [C1 C]. apply code_at_app in C. destruct C as [C2 C]. apply code_at_app in C. destruct C as [C3 C]. apply code_at_app in C. destruct C as [C4 C5].
    eapply use_val; [exact Dy | exact C1 | | exact A|].
    { apply plain in P; [|reflexivity]. inversion P; assumption. }
    intros s1 A1 _ _ V1. apply has_number in V1; [|exact Ia].
    assert (V1' : has l_pointer (number (bytes Q) x) s1) by (apply (has_number Q); [apply integral_pointer | exact V1]).
    eapply leads_emit; [exact C2|]. change (push_eightbyte (Gpr Rax)) with (push l_pointer) in *.
    destruct (at_push X l_pointer (number (bytes Q) x) (depth g) A1 good_pointer V1') as (A2 & D2 & Ho & _); [change (taken l_pointer) with 0; lia | lia|].
    change (room l_pointer) with 8 in D2. set (s2 := run (fst (push l_pointer)) s1) in *. set (g2 := set_depth (depth g1 + snd (push l_pointer)) g1) in *.
    assert (Dg2 : depth g2 = depth g + 1) by (unfold g2; cbn [set_depth depth]; lia).
    assert (Ex : low Q (gp s2 Rax) = low Q x) by exact V1.
    set (s3 := set_low Q Rdi (gp s2 Rax * as_i32 (size l)) s2).
    assert (B3 : block [ImulImm Rdi Rax (as_i32 (size l))] s2 = Some s3) by reflexivity.
    eapply leads_block; [exact C3 | exact B3|].
    assert (A3 : At K G ks n m g s g2 w1 s3) by (eapply (at_block X); [exact A2 | eapply block_safe; [|exact B3]; repeat constructor]).
    assert (E3 : gp s3 Rdi = Z.of_N (Z.to_N x * size l)).
    { unfold s3. rewrite gp_low_q, (as_i32_small _ Sz). rewrite (low_mul Q _ x _ (Z.of_N (size l))); [|exact Ex | reflexivity].
      rewrite N2Z.inj_mul, Z2N.id by apply Bx. apply low_id. unfold in_bits in *. change (2 ^ bits Q) with (2 ^ 64) in *. clear -Bx Fit. nia. }
    pose proof (at_refl (a_inv A3)) as A3'.
    eapply (malloc_ok known X (nn := (Z.to_N x * size l)%N) (pp := pp) Hm A3' C4 E3 Hal). intros s4 A4' Er.
    pose proof (at_trans A3 A4') as A4. eapply leads_emit; [exact C5|].
    destruct (at_pop_gpr _ _ _ _ _ _ X K G ks n m g s Rdx _ _ _ A4 eq_refl) as (A5 & R5 & O5 & _); [lia|].
    destruct (top X A3) as (T1 & T2 & T3 & T4 & T5 & T6). pose proof (i_levels (a_inv A3)).
    assert (Ho4 : holds (mem s4) (b - 8 * depth gm) (number (bytes Q) x)).
    { replace (depth gm) with (depth g2) by lia. eapply (holds_kept X); [exact (a_kept A4') | exact Ho | lia | rewrite number_length; cbn [bytes]; lia | assumption]. }
    assert (Wb : 0 <= pp < 2 ^ 64) by (destruct Hal as (_ & Hp & Hp' & _); setting; lia).
    eapply leads_pos; [|apply HQ].
    + rewrite !app_length. cbn [List.length map fst push pop_eightbyte]. lia.
    + exact A5.
    + apply has_two; [reflexivity | reflexivity | reflexivity|]. rewrite app_length. unfold pointer. rewrite !number_length. split; [reflexivity|].
      rewrite firstn_app, number_length, firstn_all2 by (rewrite number_length; lia). rewrite skipn_app, number_length, skipn_all2 by (rewrite number_length; lia).
      cbn [Nat.sub firstn skipn]. rewrite app_nil_r. split; intros i z Hz.
      * apply nth_number in Hz. destruct Hz as [_ ->]. rewrite O5 by discriminate. now rewrite Er.
      * rewrite R5. eapply popped_bytes; [exact Ho4 | rewrite number_length; cbn [bytes]; lia | exact Hz].
Qed.
End Cases.
