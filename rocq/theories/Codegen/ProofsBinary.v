(** Operators with two operands. *)
From Coq Require Import ZArith Lia.
From Verif.Base Require Import Base.
From Verif.Ir Require Import Model RtInd.
From Verif.Layout Require Import Model Spec Proofs ProofsResolve.
From Verif.Frame Require Model.
From Verif.Frame Require Spec Proofs.
From Verif.Stack Require Import Machine Model Spec Facts Proofs ProofsValue ProofsMove.
From Verif.Codegen Require Import Float Alu Operators Model Machine Spec Facts ProofsGen ProofsFrame ProofsRun ProofsInv ProofsNum ProofsBlock ProofsStatic ProofsEval ProofsSimple ProofsHeap.
Local Open Scope Z_scope.

Section Cases.
Variable M : machine.
Variable r : resolver.
Variable known : nat -> bool.
Variable start : Z.
Variable F : nat.
Variable b : Z.
Variable offs : list (nat * Z).
Hypothesis X : setting M r start F b.

Notation heap_ok := (heap_ok start).
Notation leads := (leads M).
Notation code_at := (code_at M F).
Notation chain := (chain (type_words r) offs).
Notation placed := (placed (type_words r) offs).
Notation placed_lets := (placed_lets (type_words r) offs).
Notation kept := (kept start b).
Notation lev := (lev b).
Notation vars_ok := (vars_ok start b offs).
Notation konts_ok := (konts_ok M r F offs).
Notation Inv := (Inv M r start F b offs).
Notation At := (At M r start F b offs).
Notation leaves := (leaves M start F b offs).
Notation gen := (gen r known offs).
Notation fine := (fine (balanced r)).
Notation world := (world (memo M)).
Notation fun_address := (fun f => address M f 0).

Notation Dyn := (Dyn M r start F b offs).
Notation Peval := (Peval M r start F b offs known).
Ltac setting := let a := fresh "Xb" in let c := fresh "Xs" in pose proof (x_below X) as a; pose proof (x_start X) as c.
Ltac pos := repeat rewrite app_length; cbn [fst keep map List.length]; unfold at_rdi; lia.


(** ** Popping to a given register *)
Section Pops.
Variables (K : konts) (G : env) (ks : Frame.Spec.conts) (n m : nat) (g0 : gstate) (s0 : state).
Notation At := (At K G ks n m g0 s0).
Lemma at_pop_gpr x g (w : world) s : At g w s -> saved x = false -> depth g0 + 1 <= depth g ->
  let c := pop_eightbyte (Gpr x) in
  let s' := run (fst c) s in
  At (set_depth (depth g + snd c) g) w s' /\ gp s' x = read 8 (mem s) (b - 8 * depth g) /\
  (forall y, y <> x -> y <> Rsp -> gp s' y = gp s y) /\ xm s' = xm s /\ mem s' = mem s.
Proof.
  clear known. intros A Sx D c s'. destruct (top X A) as (T1 & T2 & _).
  assert (Nx : Rsp <> x) by (intros <-; discriminate). assert (Nx' : x <> Rsp) by congruence.
  assert (Ex : gp s' x = read 8 (mem s) (b - 8 * depth g)) by (unfold s'; cbn [c pop_eightbyte fst run step]; rewrite gp_set, gpr_eqb_refl, T1; reflexivity).
  assert (Eo : forall y, y <> x -> y <> Rsp -> gp s' y = gp s y).
  { intros y Hy Hy'. unfold s'. cbn [c pop_eightbyte fst run step]. now rewrite gp_set, gpr_eqb_neq, gp_set, gpr_eqb_neq. }
  split; [|auto]. eapply (at_run X) with (lo := 0) (hi := b - 8 * depth g0); [exact A | apply clean_pop_eightbyte | intros a _; reflexivity | lia | | |].
  - intros y Sy Dy. apply Eo; [intros ->; congruence | exact Dy].
  - unfold s'. cbn [c pop_eightbyte fst snd run step]. rewrite gp_set, gpr_eqb_neq, gp_set by assumption. cbn [gpr_eqb]. rewrite gpr_eqb_refl. lia.
  - cbn [c pop_eightbyte snd]. lia.
Qed.
Lemma at_pop_xmm x g (w : world) s : At g w s -> depth g0 + 1 <= depth g ->
  let c := pop_eightbyte (Xmm x) in
  let s' := run (fst c) s in
  At (set_depth (depth g + snd c) g) w s' /\ xm s' x = read 8 (mem s) (b - 8 * depth g) /\ (forall y, y <> x -> xm s' y = xm s y) /\ mem s' = mem s.
Proof.
  clear known. intros A D c s'. destruct (top X A) as (T1 & T2 & _). split; [|split; [|split]].
  - eapply (at_run X) with (lo := 0) (hi := b - 8 * depth g0); [exact A | apply clean_pop_eightbyte | intros a _; reflexivity | lia | | |].
    + intros y Sy Dy. cbn [c pop_eightbyte fst run step set_xm gp]. rewrite gp_set, gpr_eqb_neq, gp_set, gpr_eqb_neq; [reflexivity | exact Dy | intros ->; discriminate].
    + cbn [c pop_eightbyte fst snd run step set_xm gp]. rewrite gp_set, gpr_eqb_neq, gp_set, gpr_eqb_refl by discriminate. lia.
    + cbn [c pop_eightbyte snd]. lia.
  - unfold s'. cbn [c pop_eightbyte fst run step set_xm xm]. rewrite Nat.eqb_refl, gp_set, gpr_eqb_refl, T1. reflexivity.
  - intros y Hy. unfold s'. cbn [c pop_eightbyte fst run step set_xm xm]. now rewrite (proj2 (Nat.eqb_neq y x) Hy).
  - reflexivity.
Qed.
End Pops.

(** ** The operator, when the left operand is on the stack and the right one is evaluated *)
Definition binary_done K G ks n m g0 s0 (w w' : world) g g' d c al bl l v v2 v' : Prop :=
  forall p s Q, At K G ks n m g0 s0 g w s -> code_at p c -> has bl v2 s -> holds (mem s) (b - 8 * d - room al) v -> List.length v = length_of al ->
  (forall s', At K G ks n m g0 s0 g' w' s' -> has l v' s' -> leads Q (Config F (p + List.length c) s' (fst w'))) -> leads Q (Config F p s (fst w)).
Definition binary_right o b0 al bl v v2 w w' l v' : Prop :=
  forall g c og g' d, gen_binary r o b0 al bl g = Ret (c, og, g') -> good al -> good bl -> 8 * depth g = 8 * d + room al + taken bl ->
  (og = Some l /\ good l /\ 8 * depth g' = 8 * d + taken l) /\
  forall K G ks n m g0 s0, depth g0 <= d -> binary_done K G ks n m g0 s0 w w' g g' d c al bl l v v2 v'.
Lemma ev_binary_with G ks o a b0 w w1 w2 w3 al v bl v2 l v' : Peval G ks a w w1 (OVal al v) -> Peval G ks b0 w1 w2 (OVal bl v2) ->
  binary_right o b0 al bl v v2 w2 w3 l v' -> Peval G ks (RBinary o a b0) w w3 (OVal l v').
Proof.
  intros Pa Pb Hv used g c og g' H Fi Iu. cbn [Model.gen] in H.
  destruct (sub_val Pa H (fine_of a Fi eq_refl (or_introl eq_refl)) Iu) as (c1 & g1 & c2 & H1 & -> & Ga & De & Co & Dy).
  apply emit_then in H1. destruct H1 as (c3 & H1 & ->).
  assert (Iu1 : incl (map fst (conts (set_depth (depth g1 + snd (push al)) g1))) used) by (cbn [set_depth conts]; now rewrite Co).
  destruct (sub_val Pb H1 (fine_of b0 Fi eq_refl (or_intror (or_introl eq_refl))) Iu1) as (c4 & g4 & c5 & H2 & -> & Gb & De2 & Co2 & Dy2).
  cbn [set_depth depth] in De2. pose proof (good_usable al Ga) as Ua. pose proof (push_static al Ua) as Ps. pose proof (taken_bounds al) as Tb.
  destruct (Hv g4 c5 og g' (depth g) H2 Ga Gb) as [(-> & Gl & De3) Do]; [lia|]. split.
  - cbn [stat]. auto.
  - apply by_value. intros K n m p s Q C P A HQ. apply code_at_app in C. destruct C as [C1 C]. apply code_at_app in C. destruct C as [C2 C].
    apply code_at_app in C. destruct C as [C3 C4]. apply plain in P; [|reflexivity]. inversion P as [|? ? P1 P']; subst. inversion P' as [|? ? P2 _]; subst.
    eapply use_val; [exact Dy | exact C1 | exact P1 | exact A|]. intros s1 A1 _ _ V1. eapply leads_emit; [exact C2|].
    destruct (at_push X al v (depth g) A1 Ga V1 De ltac:(lia)) as (A2 & D2 & Ho & _). eapply use_val; [exact Dy2 | exact C3 | exact P2 | exact A2|].
    intros s2 A3 Kp _ V2. pose proof (has_length _ _ _ V1) as Lv.
    destruct (top X A3) as (T1 & T2 & T3 & T4 & T5 & T6). pose proof (i_levels (a_inv A3)). pose proof (room_size al).
    eapply Do; [| exact A3 | exact C4 | exact V2 | | exact Lv|].
    + lia.
    + eapply (holds_kept X); [exact Kp | | | | assumption].
      * replace (b - 8 * depth g - room al) with (b - 8 * (depth g1 + snd (push al))) by lia. exact Ho.
      * cbn [set_depth depth]. lia.
      * unfold length_of in Lv. lia.
    + intros s3 A4 V4. eapply leads_pos; [|apply (HQ _ A4 V4)]. rewrite !app_length. lia.
Qed.

Lemma room_integral w l : integral w l -> room l = 8.
Proof. intros (_ & _ & S). unfold room. rewrite S. destruct w; reflexivity. Qed.
Lemma room_floating w l : floating w l -> room l = 8.
Proof. intros (_ & _ & S & _). unfold room. rewrite S. destruct w; reflexivity. Qed.
Lemma float_width_is w l w' : floating w l -> float_width (size l) = Ret w' -> w' = w.
Proof. intros (_ & _ & -> & O) H. destruct w; cbn in H; try congruence; destruct O; congruence. Qed.
Lemma good_bool : good (l_integer 1).
Proof. apply (layout_good X (t := CtU 8)). reflexivity. Qed.
Lemma integral_bool : integral B (l_integer 1). Proof. repeat split. Qed.
Lemma integral_pointer : integral Q l_pointer. Proof. repeat split. Qed.
Lemma truth_number t : truth t = number (bytes B) (if t then 1 else 0).
Proof. now destruct t. Qed.

(** Arithmetic on integers, comparisons of them and of pointers. *)
Lemma int_right o b0 al bl v v2 (w : world) l v' k x y z :
  is_int k al x v -> is_int k bl y v2 -> int_result o k x y = Some z -> l = bl -> v' = number (bytes k) z ->
  binary_right o b0 al bl v v2 w w l v'.
Proof.
  intros (Ia & Bx & ->) (Ib & By & ->) Hz -> ->. intros g c og g' d H Ga Gb De.
  assert (H' : andthen (emit (keep [Movq Rcx Rax]) g) (fun _ g => andthen (emit (pop_eightbyte (Gpr Rax)) g) (fun _ g => andthen (need (width_of (size bl)) g) (fun w g =>
     match arithmetic o w with None => Panic | Some is => andthen (out [Block is] g) (fun _ g => ret bl g) end))) = Ret (c, og, g')) by (destruct o; try discriminate Hz; exact H).
  clear H. apply emit_then in H'. destruct H' as (c2 & H & ->). apply emit_then in H. destruct H as (c3 & H & ->).
  apply need_then in H. destruct H as (w' & E & H). rewrite (width_of_int _ _ _ Ib E) in *. clear w' E.
  destruct (arithmetic o k) as [is|] eqn:Ar; [|discriminate]. apply out_then in H. destruct H as (c4 & H & ->). apply ret_inv in H. destruct H as (-> & -> & ->).
  rewrite (room_integral _ _ Ia) in De. rewrite (taken_integral _ _ Ib) in *. split.
  - split; [reflexivity|]. split; [exact Gb|]. cbn [set_depth depth keep snd pop_eightbyte]. lia.
  - intros K G ks n m g0 s0 Dl p s Q A C V Ho Lv HQ. rewrite app_nil_r in *. apply code_at_app in C. destruct C as [C1 C]. apply code_at_app in C. destruct C as [C2 C3].
    rewrite (room_integral _ _ Ia) in Ho. apply has_number in V; [|exact Ib]. rewrite (low_id _ _ By) in V.
    eapply leads_emit; [exact C1|]. cbn [fst keep run step].
    assert (A1 : At K G ks n m g0 s0 (set_depth (depth g + snd (keep [Movq Rcx Rax])) g) w (set_gp Rcx (gp s Rax) s)).
    { eapply same_next; [apply (at_set X); [exact A | reflexivity | discriminate] | cbn [set_depth depth keep snd]; lia | reflexivity]. }
    set (s1 := set_gp Rcx (gp s Rax) s) in *. eapply leads_emit; [exact C2|].
    destruct (at_pop_gpr K G ks n m g0 s0 Rax _ _ _ A1 eq_refl) as (A2 & R2 & O2 & _); [cbn [set_depth depth keep snd]; lia|].
    set (s2 := run (fst (pop_eightbyte (Gpr Rax))) s1) in *.
    assert (Ex : low k (gp s2 Rax) = x).
    { rewrite R2. change (mem s1) with (mem s). cbn [set_depth depth keep snd]. replace (b - 8 * (depth g + 0)) with (b - 8 * d - 8) by lia. rewrite (read_low k _ _ x Ho). now apply low_id. }
    assert (Ey : low k (gp s2 Rcx) = y) by (rewrite O2 by discriminate; exact V).
    destruct (int_block o k x y z is s2 Bx By Ex Ey Hz Ar) as (s3 & B3 & U3 & V3).
    eapply leads_block; [exact C3 | exact B3|]. eapply leads_pos; [|apply HQ].
    + rewrite !app_length. cbn [List.length map fst keep pop_eightbyte]. lia.
    + eapply (at_block X); [exact A2 | exact U3].
    + now apply has_number.
Qed.
Lemma test_right o b0 al bl v v2 (w : world) k x y t c0 :
  is_int k al x v -> is_int k bl y v2 -> condition o = Some c0 -> cond_holds c0 (subtracted k x y) = t ->
  binary_right o b0 al bl v v2 w w (l_integer 1) (truth t).
Proof.
  intros (Ia & Bx & ->) (Ib & By & ->) Hc Ht. intros g c og g' d H Ga Gb De.
  assert (H' : andthen (emit (pop_eightbyte (Gpr Rcx)) g) (fun _ g => andthen (need (width_of (size bl)) g) (fun w g =>
     andthen (out [Block [Cmp w Rcx Rax; SetAl c0]] g) (fun _ g => ret (l_integer 1) g))) = Ret (c, og, g')) by (destruct o; try discriminate Hc; injection Hc as <-; exact H).
  clear H. apply emit_then in H'. destruct H' as (c2 & H & ->).
  apply need_then in H. destruct H as (w' & E & H). rewrite (width_of_int _ _ _ Ib E) in *. clear w' E.
  apply out_then in H. destruct H as (c4 & H & ->). apply ret_inv in H. destruct H as (-> & -> & ->).
  rewrite (room_integral _ _ Ia) in De. rewrite (taken_integral _ _ Ib) in *. split.
  - split; [reflexivity|]. split; [apply good_bool|]. change (taken (l_integer 1)) with 0. cbn [set_depth depth keep snd pop_eightbyte]. lia.
  - intros K G ks n m g0 s0 Dl p s Q A C V Ho Lv HQ. rewrite app_nil_r in *. apply code_at_app in C. destruct C as [C2 C3].
    rewrite (room_integral _ _ Ia) in Ho. apply has_number in V; [|exact Ib]. eapply leads_emit; [exact C2|].
    destruct (at_pop_gpr K G ks n m g0 s0 Rcx _ _ _ A eq_refl) as (A2 & R2 & O2 & _); [lia|].
    set (s2 := run (fst (pop_eightbyte (Gpr Rcx))) s) in *.
    assert (Ex : low k (gp s2 Rcx) = low k x) by (rewrite R2; replace (b - 8 * depth g) with (b - 8 * d - 8) by lia; exact (read_low k _ _ x Ho)).
    assert (Ey : low k (gp s2 Rax) = low k y) by (rewrite O2 by discriminate; exact V).
    destruct (cmp_block k c0 x y t s2 Ex Ey Ht) as (s3 & B3 & U3 & V3).
    eapply leads_block; [exact C3 | exact B3|]. eapply leads_pos; [|apply HQ].
    + rewrite !app_length. cbn [List.length map fst keep pop_eightbyte]. lia.
    + eapply (at_block X); [exact A2 | exact U3].
    + rewrite truth_number. apply has_number; [apply integral_bool | exact V3].
Qed.

(** Floating-point numbers. *)
Lemma float_right o b0 al bl v v2 (w : world) v' k x y z :
  is_float k al x v -> is_float k bl y v2 -> float_result o k x y = Some z -> v' = number (bytes k) z ->
  binary_right o b0 al bl v v2 w w al v'.
Proof.
  intros (Ia & Bx & ->) (Ib & By & ->) Hz ->. intros g c og g' d H Ga Gb De.
  assert (H' : exists f, float_arithmetic o = Some f /\ andthen (out [Block [MovqXX 1 0]] g) (fun _ g => andthen (emit (pop_eightbyte (Xmm 0)) g) (fun _ g => andthen (need (float_width (size al)) g) (fun w g =>
     andthen (out [Block [FloatArith f w 0 1]] g) (fun _ g => ret al g)))) = Ret (c, og, g')) by (destruct o; try discriminate Hz; eexists; (split; [reflexivity | exact H])).
  clear H. destruct H' as (f & Hf & H'). apply out_then in H'. destruct H' as (c2 & H & ->). apply emit_then in H. destruct H as (c3 & H & ->).
  apply need_then in H. destruct H as (w' & E & H). rewrite (float_width_is _ _ _ Ia E) in *. clear w' E.
  apply out_then in H. destruct H as (c4 & H & ->). apply ret_inv in H. destruct H as (-> & -> & ->).
  rewrite (room_floating _ _ Ia) in De. rewrite (taken_floating _ _ Ib) in *. split.
  - split; [reflexivity|]. split; [exact Ga|]. rewrite (taken_floating _ _ Ia). cbn [set_depth depth snd pop_eightbyte]. lia.
  - intros K G ks n m g0 s0 Dl p s Q A C V Ho Lv HQ. rewrite app_nil_r in *. apply code_at_app in C. destruct C as [C1 C]. apply code_at_app in C. destruct C as [C2 C3].
    rewrite (room_floating _ _ Ia) in Ho. apply has_float in V; [|exact Ib].
    eapply leads_block; [exact C1 | reflexivity|]. set (s1 := set_xm 1 (xm s 0%nat) s).
    assert (A1 : At K G ks n m g0 s0 g w s1) by (eapply (at_block X); [exact A | now apply undisturbed_xm]).
    eapply leads_emit; [exact C2|].
    destruct (at_pop_xmm K G ks n m g0 s0 0%nat _ _ _ A1) as (A2 & R2 & O2 & _); [lia|].
    set (s2 := run (fst (pop_eightbyte (Xmm 0))) s1) in *.
    assert (Ex : low k (xm s2 0%nat) = low k x) by (rewrite R2; replace (b - 8 * depth g) with (b - 8 * d - 8) by lia; exact (read_low k _ _ x Ho)).
    assert (Ey : low k (xm s2 1%nat) = low k y) by (rewrite O2 by discriminate; exact V).
    destruct (float_block o f k x y z s2 Ex Ey Hf Hz) as (s3 & B3 & U3 & V3).
    eapply leads_block; [exact C3 | exact B3|]. eapply leads_pos; [|apply HQ].
    + rewrite !app_length. cbn [List.length map fst keep pop_eightbyte]. lia.
    + eapply (at_block X); [exact A2 | exact U3].
    + now apply has_float.
Qed.
Lemma float_test_right o b0 al bl v v2 (w : world) k x y t :
  is_float k al x v -> is_float k bl y v2 -> float_test o k x y = Some t ->
  binary_right o b0 al bl v v2 w w (l_integer 1) (truth t).
Proof.
  intros (Ia & Bx & ->) (Ib & By & ->) Ht. intros g c og g' d H Ga Gb De.
  assert (H' : exists c0, float_condition o = Some c0 /\ andthen (emit (pop_eightbyte (Xmm 1)) g) (fun _ g => andthen (need (float_width (size bl)) g) (fun w g =>
     andthen (out [Block [FloatCmp w 1 0; SetAl c0]] g) (fun _ g => ret (l_integer 1) g))) = Ret (c, og, g')).
  { unfold float_test in Ht. destruct o; try discriminate Ht; try (destruct (float_compare _ _ _); discriminate Ht); eexists; (split; [reflexivity | exact H]). }
  clear H. destruct H' as (c0 & Hc & H'). apply emit_then in H'. destruct H' as (c2 & H & ->).
  apply need_then in H. destruct H as (w' & E & H). rewrite (float_width_is _ _ _ Ib E) in *. clear w' E.
  apply out_then in H. destruct H as (c4 & H & ->). apply ret_inv in H. destruct H as (-> & -> & ->).
  rewrite (room_floating _ _ Ia) in De. rewrite (taken_floating _ _ Ib) in *. split.
  - split; [reflexivity|]. split; [apply good_bool|]. change (taken (l_integer 1)) with 0. cbn [set_depth depth snd pop_eightbyte]. lia.
  - intros K G ks n m g0 s0 Dl p s Q A C V Ho Lv HQ. rewrite app_nil_r in *. apply code_at_app in C. destruct C as [C2 C3].
    rewrite (room_floating _ _ Ia) in Ho. apply has_float in V; [|exact Ib]. eapply leads_emit; [exact C2|].
    destruct (at_pop_xmm K G ks n m g0 s0 1%nat _ _ _ A) as (A2 & R2 & O2 & _); [lia|].
    set (s2 := run (fst (pop_eightbyte (Xmm 1))) s) in *.
    assert (Ex : low k (xm s2 1%nat) = low k x) by (rewrite R2; replace (b - 8 * depth g) with (b - 8 * d - 8) by lia; exact (read_low k _ _ x Ho)).
    assert (Ey : low k (xm s2 0%nat) = low k y) by (rewrite O2 by discriminate; exact V).
    destruct (float_cmp_block o c0 k x y t s2 Ex Ey Hc Ht) as (s3 & B3 & U3 & V3).
    eapply leads_block; [exact C3 | exact B3|]. eapply leads_pos; [|apply HQ].
    + rewrite !app_length. cbn [List.length map fst keep pop_eightbyte]. lia.
    + eapply (at_block X); [exact A2 | exact U3].
    + rewrite truth_number. apply has_number; [apply integral_bool | exact V3].
Qed.

(** Offsets. *)
Lemma as_i32_small k : (k < 2 ^ 31)%N -> as_i32 k = Z.of_N k.
Proof. clear. intros H. apply signed_id. change (2 ^ (bits L - 1)) with (Z.of_N (2 ^ 31)). lia. Qed.
Lemma offset_right b0 al bl v v2 (w : world) v' x pp t lt :
  is_int Q al x v -> bl = l_pointer -> v2 = pointer pp -> rt_ty b0 = Ret (Some (CtPtr t)) -> get r t = Ret lt -> (size lt < 2 ^ 31)%N ->
  v' = pointer (pp + signed Q x * Z.of_N (size lt)) -> binary_right BOffset b0 al bl v v2 w w l_pointer v'.
Proof.
  intros (Ia & Bx & ->) -> -> Ht Hg Sz ->. intros g c og g' d H Ga Gb De. cbn [gen_binary] in H.
  apply need_then in H. destruct H as (t' & E & H). rewrite Ht in E. injection E as <-. cbn iota in H.
  apply need_then in H. destruct H as (l' & E & H). cbn [ptr_elem] in E. unfold bind in E. rewrite Hg in E. injection E as <-.
  apply emit_then in H. destruct H as (c2 & H & ->). apply out_then in H. destruct H as (c3 & H & ->). apply ret_inv in H. destruct H as (-> & -> & ->).
  rewrite (room_integral _ _ Ia) in De. change (taken l_pointer) with 0 in *. split.
  - split; [reflexivity|]. split; [exact Gb|]. cbn [set_depth depth snd pop_eightbyte]. lia.
  - intros K G ks n m g0 s0 Dl p s Q' A C V Ho Lv HQ. rewrite app_nil_r in *. apply code_at_app in C. destruct C as [C2 C3].
    rewrite (room_integral _ _ Ia) in Ho. apply (has_number Q) in V; [|apply integral_pointer]. eapply leads_emit; [exact C2|].
    destruct (at_pop_gpr K G ks n m g0 s0 Rdi _ _ _ A eq_refl) as (A2 & R2 & O2 & _); [lia|].
    set (s2 := run (fst (pop_eightbyte (Gpr Rdi))) s) in *.
    assert (Ex : low Q (gp s2 Rdi) = low Q x) by (rewrite R2; replace (b - 8 * depth g) with (b - 8 * d - 8) by lia; exact (read_low Q _ _ x Ho)).
    assert (Ey : low Q (gp s2 Rax) = low Q pp) by (rewrite O2 by discriminate; exact V).
    set (s3 := set_low Q Rdi (gp s2 Rdi * as_i32 (size lt)) s2). set (s4 := set_low Q Rax (gp s3 Rax + gp s3 Rdi) s3).
    assert (B3 : block [ImulImm Rdi Rdi (as_i32 (size lt)); Arith Add Q Rax Rdi] s2 = Some s4) by reflexivity.
    eapply leads_block; [exact C3 | exact B3|]. eapply leads_pos; [|apply HQ].
    + rewrite !app_length. cbn [List.length map fst keep pop_eightbyte]. lia.
    + eapply (at_block X); [exact A2 | eapply block_safe; [|exact B3]; repeat constructor].
    + apply (has_number Q); [apply integral_pointer|]. unfold s4. rewrite gp_low. apply low_add; [exact Ey|].
      unfold s3. rewrite gp_low. rewrite (as_i32_small _ Sz). apply low_mul; [|reflexivity]. now rewrite low_signed.
Qed.

(** Elements of arrays. *)
Lemma rsi_rdi_ok : address_ok (Addr Rsi (Some Rdi) 0).
Proof. repeat split; discriminate. Qed.
Lemma array_has p0 n0 s : norm s -> in_bits Q p0 -> has l_array (pointer p0 ++ number 8 n0) s -> gp s Rax = p0.
Proof.
  clear. intros N B0 V. apply has_two in V; [|reflexivity | reflexivity | reflexivity]. destruct V as (_ & V & _).
  unfold pointer in V. rewrite firstn_app, number_length, firstn_all2 in V by (rewrite number_length; lia). cbn [Nat.sub firstn] in V. rewrite app_nil_r in V.
  rewrite <- (low_id Q p0 B0), <- (low_id Q (gp s Rax)) by (apply N; reflexivity). apply (byte_low Q). intros i Hi. apply V. apply nth_number. auto.
Qed.
Lemma array_load_right b0 al bl v v2 (w : world) l v' x pp n0 t :
  is_int Q al x v -> is_array pp n0 bl v2 -> rt_ty b0 = Ret (Some (CtArray t)) -> get r t = Ret l -> (size l < 2 ^ 31)%N ->
  pp + x * Z.of_N (size l) < 2 ^ 64 -> List.length v' = size_nat l -> reads (snd w) (pp + x * Z.of_N (size l)) v' ->
  binary_right BArrayLoad b0 al bl v v2 w w l v'.
Proof.
  intros (Ia & Bx & ->) (-> & Bp & ->) Ht Hg Sz Fit Lv' Rd. intros g c og g' d H Ga Gb De. cbn [gen_binary] in H.
  apply need_then in H. destruct H as (t' & E & H). rewrite Ht in E. injection E as <-. cbn iota in H.
  apply need_then in H. destruct H as (l' & E & H). cbn [array_elem] in E. unfold bind in E. rewrite Hg in E. injection E as <-.
  apply emit_then in H. destruct H as (c2 & H & ->). apply emit_then in H. destruct H as (c3 & H & ->). apply out_then in H. destruct H as (c4 & H & ->).
  apply emit_then in H. destruct H as (c5 & H & ->). apply ret_inv in H. destruct H as (-> & -> & ->).
  pose proof (layout_good X Hg) as Gl. pose proof (good_usable l Gl) as U. pose proof (load_static (Addr Rsi (Some Rdi) 0) l U rsi_rdi_ok) as Sd. pose proof (taken_bounds l) as Tb.
  rewrite (room_integral _ _ Ia) in De. change (taken l_array) with 0 in *. split.
  - split; [reflexivity|]. split; [exact Gl|]. cbn [set_depth depth keep snd pop_eightbyte]. lia.
  - intros K G ks n m g0 s0 Dl p s Q' A C V Ho Lv HQ. rewrite app_nil_r in *. apply code_at_app in C. destruct C as [C1 C]. apply code_at_app in C. destruct C as [C2 C]. apply code_at_app in C. destruct C as [C3 C4].
    rewrite (room_integral _ _ Ia) in Ho.
    assert (Er : gp s Rax = pp) by (eapply array_has; [apply A | exact Bp | exact V]).
    eapply leads_emit; [exact C1|]. cbn [fst keep run step]. rewrite Er.
    assert (A1 : At K G ks n m g0 s0 (set_depth (depth g + snd (keep [Movq Rsi Rax])) g) w (set_gp Rsi pp s)).
    { eapply same_next; [apply (at_set X); [exact A | reflexivity | discriminate] | cbn [set_depth depth keep snd]; lia | reflexivity]. }
    set (s1 := set_gp Rsi pp s) in *. eapply leads_emit; [exact C2|].
    destruct (at_pop_gpr K G ks n m g0 s0 Rdi _ _ _ A1 eq_refl) as (A2 & R2 & O2 & _); [cbn [set_depth depth keep snd]; lia|].
    set (s2 := run (fst (pop_eightbyte (Gpr Rdi))) s1) in *.
    assert (Ex : low Q (gp s2 Rdi) = x).
    { rewrite R2. change (mem s1) with (mem s). cbn [set_depth depth keep snd]. replace (b - 8 * (depth g + 0)) with (b - 8 * d - 8) by lia. rewrite (read_low Q _ _ x Ho). now apply low_id. }
    set (s3 := set_low Q Rdi (gp s2 Rdi * as_i32 (size l)) s2).
    assert (B3 : block [ImulImm Rdi Rdi (as_i32 (size l))] s2 = Some s3) by reflexivity.
    eapply leads_block; [exact C3 | exact B3|].
    assert (A3 : At K G ks n m g0 s0 (set_depth (depth (set_depth (depth g + snd (keep [Movq Rsi Rax])) g) + snd (pop_eightbyte (Gpr Rdi))) (set_depth (depth g + snd (keep [Movq Rsi Rax])) g)) w s3).
    { eapply (at_block X); [exact A2 | eapply block_safe; [|exact B3]; repeat constructor]. }
    assert (E3 : gp s3 Rdi = x * Z.of_N (size l)).
    { unfold s3. rewrite gp_low_q, (as_i32_small _ Sz). rewrite (low_mul Q _ x _ (Z.of_N (size l))); [|rewrite Ex; symmetry; apply low_id, Bx | reflexivity].
      apply low_id. unfold in_bits in *. change (2 ^ bits Q) with (2 ^ 64) in *. nia. }
    assert (Ea : ea (Addr Rsi (Some Rdi) 0) s3 = pp + x * Z.of_N (size l)).
    { unfold ea. cbn [base index disp]. rewrite E3. unfold s3. rewrite gp_low_other by discriminate. rewrite O2 by discriminate.
      unfold s1. rewrite gp_set, gpr_eqb_refl. lia. }
    destruct (top X A3) as (T1 & T2 & T3 & T4 & T5 & T6). setting.
    destruct (load_has (Addr Rsi (Some Rdi) 0) l v' s3 U rsi_rdi_ok Lv') as (H1 & H2 & H3 & H4 & H5).
    { rewrite Ea. eapply heap_reads; [apply A3 | exact Rd]. }
    { rewrite Ea. destruct v' as [|y v']; [intros z Hz; unfold size_nat in Lv'; cbn in Lv'; lia|].
      assert (start <= pp + x * Z.of_N (size l)) by (eapply reads_start; [apply A3 | exact Rd | discriminate]). intros z Hz. cbn [set_depth depth] in *. lia. }
    eapply leads_emit; [exact C4|]. eapply leads_pos; [|apply HQ].
    + rewrite !app_length. cbn [List.length map fst keep pop_eightbyte]. lia.
    + eapply same_next; [eapply (at_run X _ _ _ A3); [apply (clean_load (Addr Rsi (Some Rdi) 0) l) | exact H4 | cbn [set_depth depth keep snd pop_eightbyte] in *; lia | now apply rest_same | lia | cbn [set_depth depth keep snd pop_eightbyte] in *; lia] | reflexivity | reflexivity].
    + exact H1.
Qed.

(** Stores, and pairs of a pointer and a length. *)
Lemma store_right b0 al bl v v2 (w : world) pp : bl = l_pointer -> 0 <= pp < 2 ^ 64 -> v2 = pointer pp -> available (snd w) pp (List.length v) ->
  binary_right BStore b0 al bl v v2 w (fst w, put pp v (snd w)) l_unit [].
Proof.
  intros -> Rp -> Av. intros g c og g' d H Ga Gb De. cbn [gen_binary] in H. pose proof (good_usable al Ga) as Ua. pose proof (taken_bounds al) as Tb.
  apply emit_then in H. destruct H as (c6 & H & ->). apply emit_then in H. destruct H as (c7 & H & ->).
  apply emit_then in H. destruct H as (c8 & H & ->). apply ret_inv in H. destruct H as (-> & -> & ->). change (taken l_pointer) with 0 in De.
  pose proof (pop_static al Ua) as Po. pose proof (store_static at_rdi al Ua (rdi_ok 0)) as So. split.
  - split; [reflexivity|]. split; [apply (layout_good X (t := CtUnit)); reflexivity|]. change (taken l_unit) with 0. cbn [set_depth depth keep snd]. lia.
  - intros K G ks n m g0 s0 Dl p s Q A C V Ho Lv HQ. rewrite app_nil_r in *. apply code_at_app in C. destruct C as [C5 C6]. apply code_at_app in C6. destruct C6 as [C6 C7].
    eapply leads_emit; [exact C5|]. cbn [fst keep run step].
    assert (Er : gp s Rax = pp) by (apply has_pointer; [apply A | exact Rp | exact V]). rewrite Er.
    assert (A3 : At K G ks n m g0 s0 (set_depth (depth g + snd (keep [Movq Rdi Rax])) g) w (set_gp Rdi pp s)).
    { eapply same_next; [apply (at_set X); [exact A | reflexivity | discriminate] | cbn [set_depth depth keep snd]; lia | reflexivity]. }
    eapply leads_emit; [exact C6|].
    destruct (at_pop X al v A3 Ga Lv) as (A4 & D4 & V4 & M4 & R4).
    { cbn [set_depth depth keep snd]. replace (b - 8 * (depth g + 0)) with (b - 8 * d - room al) by lia. exact Ho. }
    { cbn [set_depth depth keep snd]. lia. }
    eapply leads_emit; [exact C7|].
    destruct (at_store known X al v d 0 pp A4 Ua V4) as (A5 & D5 & _); [cbn [set_depth depth keep snd] in *; lia | lia | | exact Av|].
    { rewrite R4 by reflexivity. change (gp (set_gp Rdi pp s) Rdi) with pp. lia. }
    eapply leads_pos; [|apply (HQ _ A5 (has_unit _))]. pos.
Qed.
Lemma construct_right o b0 al bl v v2 (w : world) l : o = BStringConstruct /\ l = l_string \/ o = BArrayConstruct /\ l = l_array -> al = l_pointer -> bl = l_integer 8 ->
  binary_right o b0 al bl v v2 w w l (v ++ v2).
Proof.
  intros Hl -> ->. intros g c og g' d H Ga Gb De.
  assert (H' : andthen (emit (keep [Movq Rdx Rax]) g) (fun _ g => andthen (emit (pop l_pointer) g) (fun _ g => ret l g)) = Ret (c, og, g')) by (destruct Hl as [[-> ->] | [-> ->]]; exact H).
  assert (Lp : good l /\ taken l = 0 /\ composite l = None /\ cls l = Integer /\ size l = 16%N).
  { destruct Hl as [[_ ->] | [_ ->]]; (split; [|repeat split]); [apply (layout_good X (t := CtString)); reflexivity | apply (layout_good X (t := CtArray CtUnit)); reflexivity]. }
  clear H Hl. destruct Lp as (Gl & Tl & L1 & L2 & L3). apply emit_then in H'. destruct H' as (c6 & H & ->). apply emit_then in H. destruct H as (c7 & H & ->).
  apply ret_inv in H. destruct H as (-> & -> & ->). change (taken (l_integer 8)) with 0 in De. pose proof (pop_static l_pointer (good_usable _ Ga)) as Po.
  change (room l_pointer) with 8 in *. change (taken l_pointer) with 0 in *. split.
  - split; [reflexivity|]. split; [exact Gl|]. rewrite Tl. cbn [set_depth depth keep snd]. lia.
  - intros K G ks n m g0 s0 Dl p s Q A C V2 Ho Lv HQ. rewrite app_nil_r in *. apply code_at_app in C. destruct C as [C5 C6].
    eapply leads_emit; [exact C5|]. cbn [fst keep run step].
    assert (A3 : At K G ks n m g0 s0 (set_depth (depth g + snd (keep [Movq Rdx Rax])) g) w (set_gp Rdx (gp s Rax) s)).
    { eapply same_next; [apply (at_set X); [exact A | reflexivity | intros _; apply A; reflexivity] | cbn [set_depth depth keep snd]; lia | reflexivity]. }
    eapply leads_emit; [exact C6|].
    destruct (at_pop X l_pointer v A3 Ga Lv) as (A4 & D4 & V4 & M4 & R4).
    { cbn [set_depth depth keep snd]. replace (b - 8 * (depth g + 0)) with (b - 8 * d - 8) by lia. exact Ho. }
    { cbn [set_depth depth keep snd]. change (room l_pointer) with 8. change (taken l_pointer) with 0. lia. }
    eapply leads_pos; [|apply HQ].
    + pos.
    + exact A4.
    + pose proof (has_length _ _ _ V2) as L2'. change (length_of (l_integer 8)) with 8%nat in L2'. change (length_of l_pointer) with 8%nat in Lv.
      apply has_small in V2; [|reflexivity | reflexivity | split; discriminate]. apply has_small in V4; [|reflexivity | reflexivity | split; discriminate].
      apply has_two; try assumption. rewrite app_length. split; [lia|].
      rewrite firstn_app, firstn_all2, skipn_app, skipn_all2 by lia. replace (8 - List.length v)%nat with 0%nat by lia. cbn [firstn skipn]. rewrite app_nil_r.
      split; [apply V4|]. intros i z Hz. apply V2 in Hz. exact Hz.
Qed.

Lemma ev_binary G ks o a b0 w w1 w2 al v bl v2 h l v' : Peval G ks a w w1 (OVal al v) -> Peval G ks b0 w1 w2 (OVal bl v2) ->
  binary_value r (snd w2) o b0 al v bl v2 h l v' -> Peval G ks (RBinary o a b0) w (fst w2, h) (OVal l v').
Proof.
  intros Pa Pb Hv. eapply ev_binary_with; [exact Pa | exact Pb|].
  assert (E : forall h', h' = snd w2 -> (fst w2, h') = w2) by (intros h' ->; now destruct w2).
  destruct o; cbn [binary_value] in Hv; try contradiction.
  1: { destruct Hv as (-> & pp & Rp & -> & Av & -> & -> & ->). now apply store_right. }
  1: { destruct Hv as (x & pp & t & lt & Ix & -> & -> & Ht & Hg & Sz & Eh & -> & ->). rewrite (E _ Eh). eapply offset_right; eauto. }
  1-5: destruct Hv as (x & y & t & Ix & Iy & Ht & Eh & -> & ->); rewrite (E _ Eh); (eapply test_right; [exact Ix | exact Iy | reflexivity|]); (eapply ptr_condition; [apply Ix | apply Iy | exact Ht | reflexivity]).
  1: destruct Hv as (k & x & y & t & Ix & Iy & Ht & Eh & -> & ->); rewrite (E _ Eh); (eapply test_right; [exact Ix | exact Iy | reflexivity|]); (eapply int_condition; [apply Ix | apply Iy | exact Ht | reflexivity]).
  all: try (destruct Hv as (k & x & y & z & Ix & Iy & Hz & Eh & -> & ->); rewrite (E _ Eh);
    first [ eapply int_right; [exact Ix | exact Iy | exact Hz | reflexivity | reflexivity]
          | eapply float_right; [exact Ix | exact Iy | exact Hz | reflexivity]
          | eapply float_test_right; [exact Ix | exact Iy | exact Hz]
          | eapply test_right; [exact Ix | exact Iy | reflexivity|]; eapply int_condition; [apply Ix | apply Iy | exact Hz | reflexivity] ]).
  - destruct Hv as (-> & -> & -> & -> & ->). rewrite (E _ eq_refl). apply construct_right; auto.
  - destruct Hv as (-> & -> & -> & -> & ->). rewrite (E _ eq_refl). apply construct_right; auto.
  - destruct Hv as (x & pp & n0 & t & Ix & Iy & Ht & Hg & Sz & Eh & Fit & Lv & Rd). rewrite (E _ Eh). eapply array_load_right; eauto.
Qed.
End Cases.
