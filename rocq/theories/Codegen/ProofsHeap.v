(** Stores, allocation and the operators that read or write the heap. *)
From Coq Require Import ZArith Lia.
From Verif.Base Require Import Base.
From Verif.Ir Require Import Model RtInd.
From Verif.Layout Require Import Model Spec Proofs ProofsResolve.
From Verif.Frame Require Model.
From Verif.Frame Require Spec Proofs.
From Verif.Stack Require Import Machine Model Spec Facts Proofs ProofsValue ProofsMove.
From Verif.Codegen Require Import Model Machine Spec Facts ProofsGen ProofsFrame ProofsRun ProofsInv ProofsStatic ProofsEval ProofsSimple.
Local Open Scope Z_scope.

Section Cases.
Variable M : machine.
Variable r : resolver.
Variable known : nat -> bool.
Variable start : Z.
Variable F : nat.
Variable b : Z.
Variable offs : list (nat * Z).
Hypothesis X : setting M r start F b.

Notation heap_ok := (heap_ok start).
Notation leads := (leads M).
Notation code_at := (code_at M F).
Notation chain := (chain (type_words r) offs).
Notation placed := (placed (type_words r) offs).
Notation placed_lets := (placed_lets (type_words r) offs).
Notation kept := (kept start b).
Notation lev := (lev b).
Notation vars_ok := (vars_ok start b offs).
Notation konts_ok := (konts_ok M r F offs).
Notation Inv := (Inv M r start F b offs).
Notation At := (At M r start F b offs).
Notation leaves := (leaves M start F b offs).
Notation gen := (gen r known offs).
Notation fine := (fine (balanced r)).
Notation world := (world (memo M)).
Notation fun_address := (fun f => address M f 0).

Notation Dyn := (Dyn M r start F b offs).
Notation Peval := (Peval M r start F b offs known).
Ltac setting := let a := fresh "Xb" in let c := fresh "Xs" in pose proof (x_below X) as a; pose proof (x_start X) as c.
Ltac pos := repeat rewrite app_length; cbn [fst keep map List.length]; unfold at_rdi; lia.

(** ** Stores to the heap *)
Section Stores.
Variables (K : konts) (G : env) (ks : Frame.Spec.conts) (n m : nat) (g0 : gstate) (s0 : state).
Notation At := (At K G ks n m g0 s0).

Lemma at_store_to l v d ad p0 g (w : world) s : At g w s -> usable l -> has l v s -> 8 * depth g = 8 * d + taken l -> depth g0 <= d ->
  address_ok ad -> ea ad s = p0 -> available (snd w) p0 (List.length v) ->
  let c := store ad l in
  let s' := run (fst c) s in
  At (set_depth (depth g + snd c) g) (fst w, put p0 v (snd w)) s' /\ depth g + snd c = d /\
  (forall a, a < start -> mem s' a = mem s a) /\ same_regs s s'.
Proof.
  intros A U V E D Ok Ea Av c s'. setting. destruct (top X A) as (T1 & T2 & T3 & T4 & T5 & T6).
  assert (Ps : v <> [] -> start <= p0). { intros Hv. eapply available_start; [apply A | exact Av|]. destruct v; [contradiction | cbn; lia]. }
  pose proof (has_length l v s V) as Lv. unfold length_of in Lv. pose proof (taken_bounds l) as Tb. pose proof (room_size l) as Rm.
  destruct (store_has ad l v s U Ok V) as (H1 & H2 & H3 & H4 & H5).
  { rewrite Ea. intros x Hx. destruct v as [|y v]; [cbn in Lv; lia|]. specialize (Ps ltac:(discriminate)). lia. }
  fold c s' in H1, H2, H3, H4, H5. rewrite Ea in *.
  assert (Lo : forall a, a < start -> mem s' a = mem s a).
  { intros a Ha. apply H4. destruct v as [|y v]; [cbn in Lv; lia|]. specialize (Ps ltac:(discriminate)). lia. }
  split; [|split; [lia | auto]].
  eapply at_later; [exact A | | apply rest_same, H5 | apply run_norm; [apply clean_store | apply A] | | | | reflexivity].
  - intros a Ha _. apply Lo. lia.
  - cbn [snd]. eapply heap_put; [apply A | exact Ps | | exact H1]. intros a _ Ha. apply H4. lia.
  - cbn [set_depth depth]. lia.
  - cbn [set_depth depth]. lia.
Qed.

Lemma at_store l v d o p0 g (w : world) s : At g w s -> usable l -> has l v s -> 8 * depth g = 8 * d + taken l -> depth g0 <= d ->
  gp s Rdi + o = p0 -> available (snd w) p0 (List.length v) ->
  let c := store (Addr Rdi None o) l in
  let s' := run (fst c) s in
  At (set_depth (depth g + snd c) g) (fst w, put p0 v (snd w)) s' /\ depth g + snd c = d /\
  (forall a, a < start -> mem s' a = mem s a) /\ same_regs s s'.
Proof.
  intros A U V E D Ep Av. apply (at_store_to l v d (Addr Rdi None o) p0); try assumption; [apply rdi_ok|]. unfold ea. cbn [base index disp]. lia.
Qed.

(** ** Allocation *)
Lemma room_words_of k : 0 <= k -> room (memory k) = 8 * k.
Proof. intros H. unfold memory. rewrite room_memory. lia. Qed.
Lemma malloc_static g c og g' : gen_malloc g = Ret (c, og, g') -> og = Some tt /\ depth g' = depth g /\ conts g' = conts g.
Proof.
  unfold gen_malloc. intros H. apply emit_then in H. destruct H as (c2 & H & ->). apply out_then in H. destruct H as (c3 & H & ->).
  apply emit_inv in H. destruct H as (-> & -> & ->). split; [reflexivity|]. split; [|reflexivity]. cbn [set_depth depth].
  set (f := new_frame [] l_pointer (depth g)). assert (P : 0 <= padding f) by (apply Z.mod_pos_bound; reflexivity).
  pose proof (extend_static (padding_before_stack_args f)) as E1. pose proof (shrink_static (remnants_after_call f)) as E2.
  unfold padding_before_stack_args, remnants_after_call in *. change (ret_words f) with 0 in *. change (stack_args f) with 0 in *.
  rewrite room_words_of in E1, E2 by lia. lia.
Qed.
Lemma malloc_ok g c og g' (w w1 : world) nn pp p s Q : gen_malloc g = Ret (c, og, g') -> At g w s -> code_at p c -> gp s Rdi = Z.of_N nn ->
  allocates start (memo M) (alloc M) w nn w1 pp ->
  (forall s', At g' w1 s' -> gp s' Rax = pp -> leads Q (Config F (p + List.length c) s' (fst w1))) ->
  leads Q (Config F p s (fst w)).
Proof.
  intros H A C Ed (Ea & Pp & Pn & Fresh & Eh) HQ. unfold gen_malloc in H. apply emit_then in H. destruct H as (c2 & H & ->).
  apply out_then in H. destruct H as (c3 & H & ->). apply emit_inv in H. destruct H as (-> & -> & ->). setting.
  set (f := new_frame [] l_pointer (depth g)) in *. assert (P : padding f = depth g mod 2) by (unfold f, new_frame; cbn [padding fold_left]; f_equal; change (ret_on_stack l_pointer) with 0; lia).
  apply code_at_app in C. destruct C as [C1 C]. apply code_at_app in C. destruct C as [C2 C3].
  pose proof (Z.mod_pos_bound (depth g) 2 eq_refl) as Mb.
  assert (R1 : room (padding_before_stack_args f) = 8 * padding f) by (unfold padding_before_stack_args; change (ret_words f) with 0; apply room_words_of; lia).
  assert (R2 : room (remnants_after_call f) = 8 * padding f) by (unfold remnants_after_call; change (stack_args f) with 0; apply room_words_of; lia).
  eapply leads_emit; [exact C1|]. destruct (at_extend X (padding_before_stack_args f) A) as (A1 & D1 & M1 & G1).
  set (s1 := run (fst (extend_stack (padding_before_stack_args f))) s) in *. set (g1 := set_depth (depth g + snd (extend_stack (padding_before_stack_args f))) g) in *.
  assert (Dg : depth g1 = depth g + snd (extend_stack (padding_before_stack_args f))) by reflexivity.
  destruct (top X A1) as (T1 & T2 & T3 & T4 & T5 & T6).
  apply code_at_cons in C2. destruct C2 as [C2 _]. eapply leads_step.
  { unfold next_step. cbn [fn pc st al]. rewrite C2. unfold aligned.
    assert (Eal : gp s1 Rsp mod 16 =? 0 = true).
    { apply Z.eqb_eq. rewrite T1. pose proof (x_aligned X). Z.to_euclidean_division_equations. lia. }
    rewrite Eal. rewrite G1 by discriminate. rewrite Ed, Ea. reflexivity. }
  destruct (x_alloc X (fst w) s1) as (K1 & K2 & K3).
  set (s2 := set_gp Rax pp (clobber M (fst w) s1)) in *.
  assert (A2 : At g1 w1 s2).
  { eapply at_later; [exact A1 | | | | | | apply A1 | reflexivity].
    - intros a Ha _. unfold s2. cbn [set_gp mem]. apply K3. lia.
    - intros x Sv Dx. unfold s2. rewrite gp_set, gpr_eqb_neq by (intros ->; discriminate). now apply K1.
    - intros x Nx. unfold s2. rewrite gp_set. destruct (gpr_eqb x Rax) eqn:Ex; [lia|]. apply K2. destruct x; try discriminate Nx; reflexivity.
    - rewrite Eh. eapply heap_put; [apply A1 | intros _; exact Pp | | apply holds_undefined]. intros a Ha _. unfold s2. cbn [set_gp mem]. apply K3. lia.
    - unfold s2. rewrite gp_set, gpr_eqb_neq by discriminate. rewrite K1 by reflexivity. exact T1. }
  replace (S (p + List.length (map I (fst (extend_stack (padding_before_stack_args f)))))) with (p + List.length (map I (fst (extend_stack (padding_before_stack_args f)))) + 1)%nat by lia.
  eapply leads_emit; [exact C3|]. pose proof (a_depth A).
  destruct (at_shrink X (remnants_after_call f) A2) as (A3 & D3 & M3 & G3 & _); [lia|].
  eapply leads_pos; [|apply HQ].
  - rewrite !app_length. cbn [List.length]. lia.
  - exact A3.
  - rewrite G3 by discriminate. reflexivity.
Qed.
End Stores.

(** ** Forms that first evaluate an expression *)
Lemma in_jumpless x y o : (is_jump o -> ~ jumpless y) -> In y (children x) -> is_jump o -> ~ jumpless x.
Proof. intros H I J Jx. apply (H J). eapply jumpless_child; eassumption. Qed.
Lemma first_abrupt_code G ks x y w w' o {A} (k : layout -> gstate -> res A) used g c og g' gx ogx : Peval G ks y w w' o -> abrupt o ->
  andthen (gen y g) k = Ret (c, og, g') -> fine used x -> introduced x = [] -> Proofs.unbinding x = true -> incl (map fst (conts g)) used -> In y (children x) ->
  forall c', stat x o g ogx gx /\ Dyn G ks x w w' o g (c ++ c') gx.
Proof.
  intros Pa Ab H Fi Ei Un Iu Iy c'. destruct (sub_abrupt Pa Ab H (fine_of y Fi Ei Iy) Iu) as (c1 & g1 & c2 & -> & Ju & Dy). split.
  - apply stat_abrupt; [exact Ab|]. eapply in_jumpless; eassumption.
  - apply by_abrupt; [exact Ab|]. intros K n m p s C P At0. rewrite <- app_assoc in C. apply code_at_app in C. destruct C as [C _].
    eapply use_abrupt; [exact Dy | exact Ab | exact C | | exact At0]. apply plain in P; [|exact Un]. rewrite Forall_forall in P. auto.
Qed.
Lemma ev_first G ks x a w w' o : first x = Some a -> Peval G ks a w w' o -> abrupt o -> Peval G ks x w w' o.
Proof.
  intros Hx Pa Ab used g c og g' H Fi Iu. rewrite <- (app_nil_r c).
  destruct x as [id t|f t env|c0|f es|lb t es|k a0 t es|k es t|o0|o0 a0|o0 a0 b0|o0 a0 b0 c0|lc a0|lc t a0|lc es|t i es|t es|m0 a0|es a0|a0 b0 c0|a0 b0|a0 b0|a0 b0|a0 cs|a0| |vs b0|ks0 b0];
    cbn [first] in Hx; try discriminate Hx.
  - destruct env as [e|]; [|discriminate]. injection Hx as ->. cbn [Model.gen] in H. destruct f; try discriminate H.
    apply andthen_inv in H. destruct H as (c1 & o1 & g1 & H & H').
    destruct (sub_abrupt Pa Ab H (fine_of a Fi eq_refl (or_introl eq_refl)) Iu) as (c2 & g2 & c3 & E & Ju & Dy). subst c1.
    assert (Ec : exists c4, c = c2 ++ c4).
    { destruct o1 as [[]|]; [destruct H' as (c4 & _ & ->) | destruct H' as (-> & _)]; [exists (c3 ++ c4); now rewrite app_assoc | now exists c3]. }
    destruct Ec as [c4 ->]. rewrite app_nil_r. split.
    + apply stat_abrupt; [exact Ab|]. eapply in_jumpless; [exact Ju | now left].
    + apply by_abrupt; [exact Ab|]. intros K n m p s C P A0. apply code_at_app in C. destruct C as [C _].
      eapply use_abrupt; [exact Dy | exact Ab | exact C | | exact A0]. apply plain in P; [|reflexivity]. inversion P; assumption.
  - injection Hx as ->. cbn [Model.gen] in H. eapply first_abrupt_code; try eassumption; try reflexivity. now left.
  - injection Hx as ->. cbn [Model.gen] in H. eapply first_abrupt_code; try eassumption; try reflexivity. now left.
  - injection Hx as ->. cbn [Model.gen] in H. eapply first_abrupt_code; try eassumption; try reflexivity. now left.
  - injection Hx as ->. cbn [Model.gen] in H. destruct lc; try discriminate H;
      (apply need_then in H; destruct H as (l' & _ & H); eapply first_abrupt_code; try eassumption; try reflexivity; now left).
  - injection Hx as ->. cbn [Model.gen] in H. eapply first_abrupt_code; try eassumption; try reflexivity. now left.
  - injection Hx as ->. cbn [Model.gen] in H. eapply first_abrupt_code; try eassumption; try reflexivity. now left.
Qed.

Lemma ev_return G ks a w w' l v : Peval G ks a w w' (OVal l v) -> Peval G ks (RReturn a) w w' (ORet l v).
Proof.
  intros Pa used g c og g' H Fi Iu. cbn [Model.gen] in H.
  destruct (sub_val Pa H (fine_of a Fi eq_refl (or_introl eq_refl)) Iu) as (c1 & g1 & c2 & H1 & -> & Ga & De & Co & Dy).
  injection H1 as <- <- <-. split; [intros []|]. apply by_abrupt; [exact Logic.I|]. intros K n m p s C P A.
  apply code_at_app in C. destruct C as [C1 C2]. eapply use_val; [exact Dy | exact C1 | | exact A|].
  { apply plain in P; [|reflexivity]. inversion P; assumption. }
  intros s1 A1 _ _ V1. destruct (x_epilogue X) as [q Eq]. eapply leads_jmp; [exact C2 | exact Eq|]. apply leads_here.
  destruct (top X A1) as (T1 & T2 & T3 & T4 & T5 & T6).
  exists s1, q. split; [exact Eq|]. split; [reflexivity|]. split; [exact Ga|]. split; [exact V1|]. split; [apply A1|]. split; [apply A1|]. split; [apply A1|].
  split; [lia|]. intros a0 Ha. apply A1; unfold ProofsInv.lev in *; lia.
Qed.

(** ** Operators with two operands *)
Lemma ev_binary_second G ks o a b0 w w1 w2 al v x : Peval G ks a w w1 (OVal al v) -> Peval G ks b0 w1 w2 x -> abrupt x -> Peval G ks (RBinary o a b0) w w2 x.
Proof.
  intros Pa Pb Ab used g c og g' H Fi Iu. cbn [Model.gen] in H.
  destruct (sub_val Pa H (fine_of a Fi eq_refl (or_introl eq_refl)) Iu) as (c1 & g1 & c2 & H1 & -> & Ga & De & Co & Dy).
  apply emit_then in H1. destruct H1 as (c3 & H1 & ->).
  assert (Iu1 : incl (map fst (conts (set_depth (depth g1 + snd (push al)) g1))) used) by (cbn [set_depth conts]; now rewrite Co).
  destruct (sub_abrupt Pb Ab H1 (fine_of b0 Fi eq_refl (or_intror (or_introl eq_refl))) Iu1) as (c4 & g4 & c5 & -> & Ju & Dy2). split.
  - apply stat_abrupt; [exact Ab|]. eapply in_jumpless; [exact Ju | right; now left].
  - apply by_abrupt; [exact Ab|]. intros K n m p s C P A. apply code_at_app in C. destruct C as [C1 C]. apply code_at_app in C. destruct C as [C2 C].
    apply code_at_app in C. destruct C as [C3 _]. apply plain in P; [|reflexivity]. inversion P as [|? ? P1 P']; subst. inversion P' as [|? ? P2 _]; subst.
    eapply use_val; [exact Dy | exact C1 | exact P1 | exact A|]. intros s1 A1 _ _ V1. eapply leads_emit; [exact C2|].
    destruct (at_push X al v (depth g) A1 Ga V1 De ltac:(lia)) as (A2 & _). eapply use_abrupt; [exact Dy2 | exact Ab | exact C3 | exact P2 | exact A2].
Qed.
End Cases.
Arguments at_store_to {M r} known {start F b offs} X {K G ks n m g0 s0} l v d ad p0 {g w s}.
Arguments at_store {M r} known {start F b offs} X {K G ks n m g0 s0} l v d o p0 {g w s}.
Arguments malloc_ok {M r} known {start F b offs} X {K G ks n m g0 s0 g c og g' w w1 nn pp p s Q}.
Arguments malloc_static known m {g c og g'}.
