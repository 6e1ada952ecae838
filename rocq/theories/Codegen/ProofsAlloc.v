(** Allocation of single values. *)
From Coq Require Import ZArith Lia.
From Verif.Base Require Import Base.
From Verif.Ir Require Import Model RtInd.
From Verif.Layout Require Import Model Spec Proofs ProofsResolve.
From Verif.Frame Require Model.
From Verif.Frame Require Spec Proofs.
From Verif.Stack Require Import Machine Model Spec Facts Proofs ProofsValue ProofsMove.
From Verif.Codegen Require Import Model Machine Spec Facts ProofsGen ProofsFrame ProofsRun ProofsInv ProofsStatic ProofsEval ProofsSimple ProofsHeap.
Local Open Scope Z_scope.

Section Cases.
Variable M : machine.
Variable r : resolver.
Variable known : nat -> bool.
Variable start : Z.
Variable F : nat.
Variable b : Z.
Variable offs : list (nat * Z).
Hypothesis X : setting M r start F b.

Notation heap_ok := (heap_ok start).
Notation leads := (leads M).
Notation code_at := (code_at M F).
Notation chain := (chain (type_words r) offs).
Notation placed := (placed (type_words r) offs).
Notation placed_lets := (placed_lets (type_words r) offs).
Notation kept := (kept start b).
Notation lev := (lev b).
Notation vars_ok := (vars_ok start b offs).
Notation konts_ok := (konts_ok M r F offs).
Notation Inv := (Inv M r start F b offs).
Notation At := (At M r start F b offs).
Notation leaves := (leaves M start F b offs).
Notation gen := (gen r known offs).
Notation fine := (fine (balanced r)).
Notation world := (world (memo M)).
Notation fun_address := (fun f => address M f 0).

Notation Dyn := (Dyn M r start F b offs).
Notation Peval := (Peval M r start F b offs known).
Ltac setting := let a := fresh "Xb" in let c := fresh "Xs" in pose proof (x_below X) as a; pose proof (x_start X) as c.
Ltac pos := repeat rewrite app_length; cbn [fst keep map List.length]; unfold at_rdi; lia.

Lemma in_regs_set q z bs s : scratch q = false -> forall es gs xs, Forall (fun g => scratch g = true) gs -> in_regs es gs xs bs s -> in_regs es gs xs bs (set_gp q z s).
Proof.
  intros Hq. induction es as [|e es IH]; intros gs xs Hg H; [exact Logic.I|]. cbn [in_regs] in *.
  destruct (e_class e); try contradiction; [destruct gs as [|g gs]; [contradiction|] | destruct xs as [|x xs]; [contradiction|]]; destruct H as [H1 H2].
  - inversion Hg as [|? ? G1 G2]; subst. split; [|now apply IH]. cbn [set_gp gp]. destruct (gpr_eqb_spec g q) as [E|E]; [congruence | exact H1].
  - split; [exact H1 | now apply IH].
Qed.
Lemma has_set l v s q z : scratch q = false -> has l v s -> has l v (set_gp q z s).
Proof.
  intros Hq (bs & Hm & L & V). exists bs. split; [exact Hm|]. split; [exact L|]. destruct (cls l); try exact V.
  - apply in_regs_set; [exact Hq | repeat constructor | exact V].
  - apply in_regs_set; [exact Hq | repeat constructor | exact V].
  - cbn [set_gp gp mem]. destruct q; try discriminate; exact V.
Qed.

(** A block is allocated, and its address is pushed. *)
Lemma block_ok K G ks n m nn pp g cm gm cr (w w1 : world) p s Q : gen_malloc g = Ret (cm, Some tt, gm) ->
  code_at p ([Imm Rdi (Z.of_N nn)] ++ cm ++ map I (fst (push l_pointer)) ++ cr) -> At K G ks n m g s g w s ->
  allocates start (memo M) (alloc M) w nn w1 pp ->
  (forall s3, At K G ks n m g s (set_depth (depth gm + snd (push l_pointer)) gm) w1 s3 -> holds (mem s3) (b - 8 * depth g - 8) (pointer pp) ->
    code_at (p + 1 + List.length cm + List.length (map I (fst (push l_pointer)))) cr ->
    leads Q (Config F (p + 1 + List.length cm + List.length (map I (fst (push l_pointer)))) s3 (fst w1))) ->
  leads Q (Config F p s (fst w)).
Proof.
  intros Hm C A Hal HQ. apply code_at_app in C. destruct C as [C1 C]. apply code_at_app in C. destruct C as [C2 C]. apply code_at_app in C. destruct C as [C3 C4].
  destruct Hal as (Ea & Pp & Pn & Fresh & Eh) eqn:EH; clear EH. setting.
  eapply leads_set; [exact C1|].
  assert (A1 : At K G ks n m g s g w (set_gp Rdi (wrap (Z.of_N nn)) s)) by (apply (at_set X); [exact A | reflexivity | discriminate]).
  destruct (malloc_static known 0%nat Hm) as (_ & Dm & Cm).
  eapply (malloc_ok known X (nn := nn) (pp := pp) Hm A1 C2).
  { change (gp (set_gp Rdi (wrap (Z.of_N nn)) s) Rdi) with (wrap (Z.of_N nn)). apply wrap_small. lia. }
  { repeat (split; [eassumption|]). exact Eh. }
  intros s2 A2 Er. eapply leads_emit; [exact C3|].
  destruct (at_push X l_pointer (pointer pp) (depth g) A2 good_pointer (pointer_has _ _ Er)) as (A3 & D3 & Ho & _).
  { change (taken l_pointer) with 0. lia. }
  { lia. }
  apply HQ; [exact A3 | | exact C4]. change (room l_pointer) with 8 in D3. replace (b - 8 * depth g - 8) with (b - 8 * (depth gm + snd (push l_pointer))) by lia. exact Ho.
Qed.
(** The address is read from below the value. *)
Lemma reload K G ks n m g0 s0 l d pp g (w : world) s : At K G ks n m g0 s0 g w s -> 8 * depth g = 8 * d + 8 + taken l ->
  holds (mem s) (b - 8 * d - 8) (pointer pp) -> 0 <= pp < 2 ^ 64 ->
  run (fst (keep [Load Q Rdi (at_rsp (Z.of_N (size_in_stack l true)))])) s = set_gp Rdi pp s.
Proof.
  intros A D Ho Rp. cbn [keep fst run step]. f_equal. unfold merge_low. change (bytes Q) with 8%nat. apply read_le; [|exact Rp].
  destruct (top X A) as (T1 & _). assert (Ee : ea (at_rsp (Z.of_N (size_in_stack l true))) s = b - 8 * d - 8).
  { unfold ea. cbn [at_rsp base index disp]. rewrite value_taken. lia. }
  rewrite Ee. now apply holds_number_inv.
Qed.

Lemma ev_alloc_never G ks loc a w w' o : loc <> LStackStatic -> rt_ty a = Ret None -> Peval G ks a w w' o -> abrupt o -> Peval G ks (RAlloc loc a) w w' o.
Proof.
  intros Hl Ht Pa Ab used g c og g' H Fi Iu. cbn [Model.gen] in H. rewrite Ht in H. rewrite <- (app_nil_r c).
  destruct loc; try congruence; cbn [bind] in H; (eapply first_abrupt_code; [exact Pa | exact Ab | exact H | exact Fi | reflexivity | reflexivity | exact Iu | now left]).
Qed.
Lemma ev_alloc G ks loc a t l w w1 w2 p v : loc <> LStackStatic -> rt_ty a = Ret (Some t) -> get r t = Ret l ->
  allocates start (memo M) (alloc M) w (size l) w1 p -> Peval G ks a w1 w2 (OVal l v) -> available (snd w2) p (List.length v) ->
  Peval G ks (RAlloc loc a) w (fst w2, put p v (snd w2)) (OVal l_pointer (pointer p)).
Proof.
  intros Hl Ht Hg Hal Pa Av used g c og g' H Fi Iu. cbn [Model.gen] in H. rewrite Ht in H. cbn [bind] in H.
  assert (H' : (do l, g <- need (get r t) g; do _, g <- out [Imm Rdi (Z.of_N (size l))] g; do _, g <- gen_malloc g;
          do _, g <- emit (push l_pointer) g; do l, g <- gen a g;
          do _, g <- emit (keep [Load Q Rdi (at_rsp (Z.of_N (size_in_stack l true)))]) g;
          do _, g <- emit (store at_rdi l) g; do _, g <- emit (pop l_pointer) g; ret l_pointer g) = Ret (c, og, g')) by (destruct loc; [exact H | now elim Hl | exact H]).
  clear H. apply need_then in H'. destruct H' as (l' & E & H). rewrite Hg in E. injection E as <-.
  apply out_then in H. destruct H as (c0 & H & ->). apply andthen_inv in H. destruct H as (cm & om & gm & Hm & H).
  destruct (malloc_static known 0%nat Hm) as (-> & Dm & Cm). destruct H as (c1 & H & ->).
  apply emit_then in H. destruct H as (c2 & H & ->).
  assert (Iu1 : incl (map fst (conts (set_depth (depth gm + snd (push l_pointer)) gm))) used) by (cbn [set_depth conts]; now rewrite Cm).
  destruct (sub_val Pa H (fine_of a Fi eq_refl (or_introl eq_refl)) Iu1) as (c3 & g3 & c4 & H1 & -> & Gl & De & Co & Dy).
  apply emit_then in H1. destruct H1 as (c5 & H1 & ->). apply emit_then in H1. destruct H1 as (c6 & H1 & ->). apply emit_then in H1. destruct H1 as (c7 & H1 & ->).
  apply ret_inv in H1. destruct H1 as (-> & -> & ->). cbn [set_depth depth] in De. pose proof (good_usable l Gl) as U.
  pose proof (push_static l_pointer (good_usable _ good_pointer)) as Ps. pose proof (pop_static l_pointer (good_usable _ good_pointer)) as Po.
  pose proof (store_static at_rdi l U (rdi_ok 0)) as Ss. change (taken l_pointer) with 0 in *. change (room l_pointer) with 8 in *. split.
  - cbn [stat]. split; [reflexivity|]. split; [apply good_pointer|]. change (taken l_pointer) with 0. cbn [set_depth depth keep snd]. lia.
  - apply by_value. intros K n m q s Q C P A HQ. setting. assert (Rp : 0 <= p < 2 ^ 64) by (destruct Hal as (_ & Hp & Hp' & _); lia).
    eapply block_ok; [exact Hm | exact C | exact A | exact Hal|]. intros s3 A3 Ho C3.
    apply code_at_app in C3. destruct C3 as [C3 C4]. apply code_at_app in C4. destruct C4 as [C4 C5]. apply code_at_app in C5. destruct C5 as [C5 C6]. rewrite app_nil_r in *.
    apply plain in P; [|reflexivity]. inversion P as [|? ? P1 _]; subst.
    eapply use_val; [exact Dy | exact C3 | exact P1 | exact A3|]. intros s4 A4 Kp _ V4.
    destruct (top X A4) as (T1 & T2 & T3 & T4 & T5 & T6). pose proof (i_levels (a_inv A4)).
    assert (Ho4 : holds (mem s4) (b - 8 * depth g - 8) (pointer p)).
    { eapply (holds_kept X); [exact Kp | exact Ho | cbn [set_depth depth]; lia | unfold pointer; rewrite number_length; lia | assumption]. }
    eapply leads_emit; [exact C4|]. erewrite reload; [|exact A4 | | exact Ho4 | exact Rp]; [|lia].
    assert (A5 : At K G ks n m g s (set_depth (depth g3 + snd (keep [Load Machine.Q Rdi (at_rsp (Z.of_N (size_in_stack l true)))])) g3) w2 (set_gp Rdi p s4)).
    { eapply same_next; [apply (at_set X); [exact A4 | reflexivity | discriminate] | cbn [set_depth depth keep snd]; lia | reflexivity]. }
    eapply leads_emit; [exact C5|].
    destruct (at_store known X l v (depth g + 1) 0 p A5 U (has_set _ _ _ Rdi _ eq_refl V4)) as (A6 & D6 & M6 & _).
    { cbn [set_depth depth keep snd]. lia. }
    { lia. }
    { change (gp (set_gp Rdi p s4) Rdi) with p. lia. }
    { exact Av. }
    eapply leads_emit; [exact C6|].
    destruct (at_pop X l_pointer (pointer p) A6 good_pointer) as (A7 & D7 & V7 & _).
    { apply number_length. }
    { replace (b - 8 * depth _) with (b - 8 * depth g - 8) by (cbn [set_depth depth] in *; lia).
      eapply holds_ext; [exact Ho4|]. intros i Hi. unfold pointer in Hi. rewrite number_length in Hi. rewrite M6 by lia. reflexivity. }
    { change (taken l_pointer) with 0. change (room l_pointer) with 8. cbn [set_depth depth] in *. lia. }
    eapply leads_pos; [|apply (HQ _ A7 V7)]. pos.
Qed.
Lemma ev_alloc_abrupt G ks loc a t l w w1 w2 p o : loc <> LStackStatic -> rt_ty a = Ret (Some t) -> get r t = Ret l ->
  allocates start (memo M) (alloc M) w (size l) w1 p -> Peval G ks a w1 w2 o -> abrupt o -> Peval G ks (RAlloc loc a) w w2 o.
Proof.
  intros Hl Ht Hg Hal Pa Ab used g c og g' H Fi Iu. cbn [Model.gen] in H. rewrite Ht in H. cbn [bind] in H.
  assert (H' : (do l, g <- need (get r t) g; do _, g <- out [Imm Rdi (Z.of_N (size l))] g; do _, g <- gen_malloc g;
          do _, g <- emit (push l_pointer) g; do l, g <- gen a g;
          do _, g <- emit (keep [Load Q Rdi (at_rsp (Z.of_N (size_in_stack l true)))]) g;
          do _, g <- emit (store at_rdi l) g; do _, g <- emit (pop l_pointer) g; ret l_pointer g) = Ret (c, og, g')) by (destruct loc; [exact H | now elim Hl | exact H]).
  clear H. apply need_then in H'. destruct H' as (l' & E & H). rewrite Hg in E. injection E as <-.
  apply out_then in H. destruct H as (c0 & H & ->). apply andthen_inv in H. destruct H as (cm & om & gm & Hm & H).
  destruct (malloc_static known 0%nat Hm) as (-> & Dm & Cm). destruct H as (c1 & H & ->).
  apply emit_then in H. destruct H as (c2 & H & ->).
  assert (Iu1 : incl (map fst (conts (set_depth (depth gm + snd (push l_pointer)) gm))) used) by (cbn [set_depth conts]; now rewrite Cm).
  destruct (sub_abrupt Pa Ab H (fine_of a Fi eq_refl (or_introl eq_refl)) Iu1) as (c3 & g3 & c4 & -> & Ju & Dy). split.
  - apply stat_abrupt; [exact Ab|]. eapply in_jumpless; [exact Ju | now left].
  - apply by_abrupt; [exact Ab|]. intros K n m q s C P A.
    eapply block_ok; [exact Hm | exact C | exact A | exact Hal|]. intros s3 A3 Ho C3. apply code_at_app in C3. destruct C3 as [C3 C4].
    apply plain in P; [|reflexivity]. inversion P as [|? ? P1 _]; subst. eapply use_abrupt; [exact Dy | exact Ab | exact C3 | exact P1 | exact A3].
Qed.
End Cases.
Arguments reload {M r} known {start F b offs} X {K G ks n m g0 s0} l d {pp g w s}.
Arguments block_ok {M r} known {start F b offs} X {K G ks n m} nn pp {g cm gm cr w w1 p s Q}.
