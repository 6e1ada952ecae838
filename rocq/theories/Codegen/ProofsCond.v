(** Conditions and loops. *)
From Coq Require Import ZArith Lia.
From Verif.Base Require Import Base.
From Verif.Ir Require Import Model RtInd.
From Verif.Layout Require Import Model Spec Proofs ProofsResolve.
From Verif.Frame Require Model.
From Verif.Frame Require Spec Proofs.
From Verif.Stack Require Import Machine Model Spec Facts Proofs ProofsValue ProofsMove.
From Verif.Codegen Require Import Model Machine Spec Facts ProofsGen ProofsFrame ProofsRun ProofsInv ProofsStatic ProofsEval ProofsSimple.
Local Open Scope Z_scope.

Section Cases.
Variable M : machine.
Variable r : resolver.
Variable known : nat -> bool.
Variable start : Z.
Variable F : nat.
Variable b : Z.
Variable offs : list (nat * Z).
Hypothesis X : setting M r start F b.

Notation heap_ok := (heap_ok start).
Notation leads := (leads M).
Notation code_at := (code_at M F).
Notation chain := (chain (type_words r) offs).
Notation placed := (placed (type_words r) offs).
Notation placed_lets := (placed_lets (type_words r) offs).
Notation kept := (kept start b).
Notation lev := (lev b).
Notation vars_ok := (vars_ok start b offs).
Notation konts_ok := (konts_ok M r F offs).
Notation Inv := (Inv M r start F b offs).
Notation At := (At M r start F b offs).
Notation leaves := (leaves M start F b offs).
Notation gen := (gen r known offs).
Notation fine := (fine (balanced r)).
Notation world := (world (memo M)).
Notation fun_address := (fun f => address M f 0).

Notation Dyn := (Dyn M r start F b offs).
Notation Peval := (Peval M r start F b offs known).
Ltac setting := let a := fresh "Xb" in let c := fresh "Xs" in pose proof (x_below X) as a; pose proof (x_start X) as c.
Ltac pos := repeat rewrite app_length; cbn [fst keep map List.length]; unfold at_rdi; lia.
(** The code of an expression whose result is that of a part. *)
Lemma use_end G ks y w1 w2 o g1 c g1' K n m g0 s0 g' p' p s : Dyn G ks y w1 w2 o g1 c g1' -> code_at p c -> placed n m y -> At K G ks n m g0 s0 g1 w1 s ->
  (forall l v s', o = OVal l v -> At K G ks n m g0 s0 g1' w2 s' -> has l v s' ->
    leads (ending M r start F b offs K G ks n m g0 s0 g' p' o w2) (Config F (p + List.length c) s' (fst w2))) ->
  leads (ending M r start F b offs K G ks n m g0 s0 g' p' o w2) (Config F p s (fst w1)).
Proof.
  intros D C P A H. destruct o as [l v|k vs|l v].
  - eapply use_val; [exact D | exact C | exact P | exact A|]. intros s' A' _ _ V. now apply (H l v).
  - eapply use_abrupt; [exact D | exact Logic.I | exact C | exact P | exact A].
  - eapply use_abrupt; [exact D | exact Logic.I | exact C | exact P | exact A].
Qed.
Lemma at_conts K G ks n m g0 s0 g (w : world) s g' : At K G ks n m g0 s0 g w s -> depth g' = depth g -> conts g' = conts g -> At K G ks n m g0 s0 g' w s.
Proof.
  intros A D C. eapply at_later; [exact A | apply kept_refl | apply rest_refl | apply A | apply A | rewrite D; apply A | rewrite D; apply A | exact C].
Qed.
Lemma meet_first a p m : meet (Some p) a = Ret m -> m = Some p.
Proof.
  destruct p as [l d], a as [[l' d']|]; cbn; [|congruence]. destruct (layout_eq_dec l l'); [|discriminate]. destruct (d =? d'); [congruence | discriminate].
Qed.
Lemma meet_second a p m : meet a (Some p) = Ret m -> m = Some p.
Proof.
  destruct p as [l d], a as [[l' d']|]; cbn; [|congruence]. destruct (layout_eq_dec l' l) as [->|]; [|discriminate]. destruct (Z.eqb_spec d' d) as [->|]; [congruence | discriminate].
Qed.
Lemma flag z s : has (l_integer 1) [Some z] s -> byte (gp s Rax) 0 = z.
Proof. intros V. apply has_small in V; [|reflexivity | reflexivity | cbn; lia]. now apply V. Qed.

Lemma ev_if G ks c t e z w w1 w2 o : Peval G ks c w w1 (OVal (l_integer 1) [Some z]) -> Peval G ks (if z =? 0 then e else t) w1 w2 o -> Peval G ks (RIf c t e) w w2 o.
Proof.
  intros Pc Pb used g cc og g' H Fi Iu. cbn [Model.gen] in H.
  assert (Fc : forall y, In y [c; t; e] -> fine used y) by (intros y Hy; exact (fine_of y Fi eq_refl Hy)).
  destruct (sub_val Pc H (Fc c (or_introl eq_refl)) Iu) as (c1 & g1 & c2 & Hk & -> & _ & D1 & Co1 & Dc). clear H.
  change (taken (l_integer 1)) with 0 in D1. cbv zeta in Hk.
  apply Frame.Proofs.bind_ret in Hk. destruct Hk as ([[ct ot] gt] & Ht & Hk).
  apply Frame.Proofs.bind_ret in Hk. destruct Hk as ([[ce oe] ge] & He & Hk).
  apply Frame.Proofs.bind_ret in Hk. destruct Hk as (mm & Hm & Hk).
  destruct (finish mm ge) as [of gf] eqn:Ef. injection Hk as <- <- <-.
  assert (Iu1 : incl (map fst (conts (skip_labels 2 g1))) used) by (cbn [skip_labels conts]; now rewrite Co1).
  assert (Ft : fine used t) by (apply Fc; cbn; auto). assert (Fe : fine used e) by (apply Fc; cbn; auto).
  pose proof (st_conts _ _ _ (gen_sound r known offs (balanced r) t used _ Ft Iu1 _ _ _ Ht)) as Cot. cbn [skip_labels conts] in Cot.
  assert (Iu2 : incl (map fst (conts (set_depth (depth (skip_labels 2 g1)) gt))) used) by (cbn [set_depth conts]; now rewrite Cot, Co1).
  pose proof (st_conts _ _ _ (gen_sound r known offs (balanced r) e used _ Fe Iu2 _ _ _ He)) as Coe. cbn [set_depth conts] in Coe.
  assert (Cf : conts gf = conts g). { destruct mm as [[l d]|]; injection Ef as <- <-; cbn [set_depth conts]; congruence. }
  assert (Ch : (z = 0 -> stat e o (set_depth (depth (skip_labels 2 g1)) gt) oe ge /\ Dyn G ks e w1 w2 o (set_depth (depth (skip_labels 2 g1)) gt) ce ge) /\
               (z <> 0 -> stat t o (skip_labels 2 g1) ot gt /\ Dyn G ks t w1 w2 o (skip_labels 2 g1) ct gt)).
  { split; intros Hz.
    - rewrite (proj2 (Z.eqb_eq z 0) Hz) in Pb. exact (Pb used _ _ _ _ He Fe Iu2).
    - rewrite (proj2 (Z.eqb_neq z 0) Hz) in Pb. exact (Pb used _ _ _ _ Ht Ft Iu1). }
  destruct Ch as [Ce Ct].
  assert (Fin : forall l v, o = OVal l v -> of = Some l /\ good l /\ 8 * depth gf = 8 * depth g + taken l /\ (z = 0 -> depth gf = depth ge) /\ (z <> 0 -> depth gf = depth gt)).
  { intros l v ->. destruct (Z.eq_dec z 0) as [Hz|Hz].
    - destruct (Ce Hz) as [(-> & Gl & De) _]. cbn [ends] in Hm. apply meet_second in Hm. subst mm. injection Ef as <- <-. cbn [set_depth depth skip_labels] in *.
      split; [reflexivity|]. split; [exact Gl|]. split; [lia|]. split; [reflexivity | contradiction].
    - destruct (Ct Hz) as [(-> & Gl & De) _]. cbn [ends] in Hm. apply meet_first in Hm. subst mm. injection Ef as <- <-. cbn [set_depth depth skip_labels] in *.
      split; [reflexivity|]. split; [exact Gl|]. split; [lia|]. split; [contradiction | reflexivity]. }
  split.
  - destruct o as [l v|k vs|l v]; cbn [stat].
    + destruct (Fin l v eq_refl) as (-> & Gl & De & _). auto.
    + intros J N. destruct (Z.eq_dec z 0) as [Hz|Hz].
      * apply (proj1 (Ce Hz) J). eapply jumpless_child; [exact N | cbn; auto].
      * apply (proj1 (Ct Hz) J). eapply jumpless_child; [exact N | cbn; auto].
    + intros [].
  - intros K n m p s C P Iv. apply plain in P; [|reflexivity]. inversion P as [|? ? Pc' P2]; subst. inversion P2 as [|? ? Pt' P3]; subst. inversion P3 as [|? ? Pe' _]; subst.
    pose proof (at_refl Iv) as A. pose proof (x_labels X) as Nl.
    apply code_at_app in C. destruct C as [C1 C]. change (JumpIfZero (next g1) :: ct ++ jump_if ot (Datatypes.S (next g1)) ++ Lab (next g1) :: ce ++ [Lab (Datatypes.S (next g1))])
      with ([JumpIfZero (next g1)] ++ ct ++ jump_if ot (Datatypes.S (next g1)) ++ [Lab (next g1)] ++ ce ++ [Lab (Datatypes.S (next g1))]) in *.
    apply code_at_app in C. destruct C as [Cz C]. apply code_at_app in C. destruct C as [C2 C]. apply code_at_app in C. destruct C as [Cj C].
    apply code_at_app in C. destruct C as [Cl C]. apply code_at_app in C. destruct C as [C3 Cn].
    eapply use_val; [exact Dc | exact C1 | exact Pc' | exact A|]. intros s1 A1 _ _ V1. apply flag in V1.
    pose proof (code_at_label _ _ _ _ _ Cl Nl) as Ll. pose proof (code_at_label _ _ _ _ _ Cn Nl) as Ln.
    eapply leads_zero; [exact Cz | exact Ll | |]; intros Hz; rewrite V1 in Hz.
    + eapply leads_label; [exact Cl|]. destruct (Ce Hz) as [_ De]. eapply use_end; [exact De | exact C3 | exact Pe' | |].
      * eapply at_conts; [exact A1 | reflexivity | cbn [set_depth conts]; congruence].
      * intros l v s2 -> A2 V2. destruct (Fin l v eq_refl) as (_ & _ & _ & Df & _). eapply leads_label; [exact Cn|]. apply leads_here. exists s2.
        split; [f_equal; pos|]. split; [|exact V2]. eapply at_conts; [exact A2 | exact (Df Hz) | congruence].
    + destruct (Ct Hz) as [St Dt]. eapply use_end; [exact Dt | exact C2 | exact Pt' | |].
      * eapply at_conts; [exact A1 | reflexivity | reflexivity].
      * intros l v s2 -> A2 V2. destruct (Fin l v eq_refl) as (_ & _ & _ & _ & Df). destruct St as (-> & _). cbn [jump_if] in Cj.
        eapply leads_jmp; [exact Cj | exact Ln|]. eapply leads_label; [exact Cn|]. apply leads_here. exists s2.
        split; [f_equal; cbn [jump_if]; pos|]. split; [|exact V2]. eapply at_conts; [exact A2 | exact (Df Hz) | congruence].
Qed.

Lemma while_code c bd used g cc og g' : gen (RWhile c bd) g = Ret (cc, og, g') -> fine used (RWhile c bd) ->
  exists c1 o1 g1 c2, gen c (skip_labels 2 g) = Ret (c1, o1, g1) /\ cc = [Lab (next g)] ++ c1 ++ c2 /\
  forall l1, o1 = Some l1 -> exists cb lb gb, gen bd g1 = Ret (cb, Some lb, gb) /\ depth gb + snd (discard lb) = depth g1 /\
    c2 = [JumpIfZero (Datatypes.S (next g))] ++ cb ++ map I (fst (discard lb)) ++ [Jmp (next g)] ++ [Lab (Datatypes.S (next g))] /\
    og = Some l_unit /\ g' = set_depth (depth gb + snd (discard lb)) gb.
Proof.
  intros H Fi. cbn [Model.gen] in H. cbv zeta in H. apply out_then in H. destruct H as (c0 & H & ->).
  apply andthen_inv in H. destruct H as (c1 & o1 & g1 & Hc & H). exists c1, o1, g1. destruct o1 as [l1|].
  - destruct H as (c2 & H & ->). exists c2. split; [exact Hc|]. split; [reflexivity|]. intros _ _. apply out_then in H. destruct H as (c3 & H & ->).
    apply Frame.Proofs.bind_ret in H. destruct H as ([[cb ob] gb] & Hb & H). injection H as <- <- <-. inversion Fi as [? ? [O _] _]; subst. cbn in O.
    apply andthen_inv in Hb. destruct Hb as (cb1 & ob1 & gb1 & Hb & Hr). destruct (O _ _ _ _ _ _ Hb) as (lb & -> & De). destruct Hr as (c4 & Hr & ->).
    apply emit_then in Hr. destruct Hr as (c5 & Hr & ->). injection Hr as <- <- <-. exists cb1, lb, gb1. split; [exact Hb|]. split; [exact De|].
    split; [|auto]. cbn [app]. now rewrite <- !app_assoc.
  - destruct H as (-> & -> & ->). exists []. rewrite app_nil_r. split; [exact Hc|]. split; [reflexivity|]. discriminate.
Qed.

Section While.
Variables (G : env) (ks : Spec.conts) (c bd : rt).

Lemma while_cond_fine used : fine used (RWhile c bd) -> fine used c /\ fine used bd.
Proof. intros Fi. split; apply (fine_of _ Fi eq_refl); cbn; auto. Qed.

Lemma ev_while_cond w w1 o : Peval G ks c w w1 o -> abrupt o -> Peval G ks (RWhile c bd) w w1 o.
Proof.
  intros Pc Ab used g cc og g' H Fi Iu. destruct (while_code _ _ _ _ _ _ _ H Fi) as (c1 & o1 & g1 & c2 & Hc & -> & _).
  destruct (while_cond_fine _ Fi) as [Fc _]. destruct (Pc used _ _ _ _ Hc Fc Iu) as [St Dc]. split.
  - apply stat_abrupt; [exact Ab|]. intros J N. apply jumpless_child with (y := c) in N; [|now left]. destruct o; [destruct Ab | exact (St J N) | exact (St J N)].
  - apply by_abrupt; [exact Ab|]. intros K n m p s C P A. apply plain in P; [|reflexivity]. inversion P as [|? ? Pc' _]; subst.
    apply code_at_app in C. destruct C as [C0 C]. apply code_at_app in C. destruct C as [C1 _].
    eapply leads_label; [exact C0|]. eapply use_abrupt; [exact Dc | exact Ab | exact C1 | exact Pc'|]. eapply at_conts; [exact A | reflexivity | reflexivity].
Qed.

(** The code up to the body. *)
Lemma while_start w w1 z used g cc og g' : Peval G ks c w w1 (OVal (l_integer 1) [Some z]) -> gen (RWhile c bd) g = Ret (cc, og, g') -> fine used (RWhile c bd) -> incl (map fst (conts g)) used ->
  og = Some l_unit /\ depth g' = depth g /\ conts g' = conts g /\
  exists g1 cb lb gb, gen bd g1 = Ret (cb, Some lb, gb) /\ depth gb + snd (discard lb) = depth g1 /\ depth g1 = depth g /\ conts g1 = conts g /\ conts gb = conts g /\
  forall K n m p s Q, code_at p cc -> placed n m (RWhile c bd) -> At K G ks n m g s g w s ->
    (forall q s1, code_at q cb -> code_at (q + List.length cb) (map I (fst (discard lb))) -> placed n m bd -> At K G ks n m g s g1 w1 s1 ->
       (z = 0 -> leads Q (Config F (p + List.length cc) s1 (fst w1))) /\
       ((forall s2 (w2 : world), leads Q (Config F p s2 (fst w2)) -> leads Q (Config F (q + List.length cb + List.length (map I (fst (discard lb)))) s2 (fst w2))) -> z <> 0 -> leads Q (Config F q s1 (fst w1)))) -> leads Q (Config F p s (fst w)).
Proof.
  intros Pc H Fi Iu. destruct (while_code _ _ _ _ _ _ _ H Fi) as (c1 & o1 & g1 & c2 & Hc & -> & Hr).
  destruct (while_cond_fine _ Fi) as [Fc Fb]. destruct (Pc used _ _ _ _ Hc Fc Iu) as [(-> & _ & De) Dc].
  destruct (Hr _ eq_refl) as (cb & lb & gb & Hb & Db & -> & -> & ->). clear Hr.
  pose proof (st_conts _ _ _ (gen_sound r known offs (balanced r) c used (skip_labels 2 g) Fc Iu _ _ _ Hc)) as Co1. cbn [skip_labels conts depth] in Co1, De.
  change (taken (l_integer 1)) with 0 in De.
  assert (Iu1 : incl (map fst (conts g1)) used) by now rewrite Co1.
  pose proof (st_conts _ _ _ (gen_sound r known offs (balanced r) bd used g1 Fb Iu1 _ _ _ Hb)) as Cob.
  split; [reflexivity|]. split; [cbn [set_depth depth]; lia|]. split; [cbn [set_depth conts]; congruence|].
  exists g1, cb, lb, gb. split; [exact Hb|]. split; [exact Db|]. split; [lia|]. split; [exact Co1|]. split; [congruence|].
  intros K n m p s Q C P A HQ. apply plain in P; [|reflexivity]. inversion P as [|? ? Pc' P2]; subst. inversion P2 as [|? ? Pb' _]; subst. pose proof (x_labels X) as Nl.
  pose proof C as C'. apply code_at_app in C. destruct C as [C0 C]. pose proof (code_at_label _ _ _ _ _ C0 Nl) as Li.
  apply code_at_app in C. destruct C as [C1 C]. apply code_at_app in C. destruct C as [Cz C]. apply code_at_app in C. destruct C as [Cb C].
  apply code_at_app in C. destruct C as [Cd C]. apply code_at_app in C. destruct C as [Cj Cn]. pose proof (code_at_label _ _ _ _ _ Cn Nl) as Ln.
  eapply leads_label; [exact C0|]. eapply use_val; [exact Dc | exact C1 | exact Pc' | eapply at_conts; [exact A | reflexivity | reflexivity] |]. intros s1 A1 _ _ V1. apply flag in V1.
  destruct (HQ _ s1 Cb Cd Pb' A1) as [H0 H1].
  eapply leads_zero; [exact Cz | exact Ln | |]; intros Hz; rewrite V1 in Hz.
  - eapply leads_label; [exact Cn|]. eapply leads_pos; [|exact (H0 Hz)]. pos.
  - apply H1; [|exact Hz]. intros s2 w2 L. eapply leads_jmp; [exact Cj | exact Li | exact L].
Qed.

Lemma ev_while_end w w1 : Peval G ks c w w1 (OVal (l_integer 1) [Some 0]) -> Peval G ks (RWhile c bd) w w1 (OVal l_unit []).
Proof.
  intros Pc used g cc og g' H Fi Iu. destruct (while_start _ _ _ _ _ _ _ _ Pc H Fi Iu) as (-> & D' & Co' & g1 & cb & lb & gb & _ & _ & D1 & Co1 & _ & Go). split.
  - split; [reflexivity|]. split; [eapply (base_good CtUnit); constructor|]. change (taken l_unit) with 0. lia.
  - apply by_value. intros K n m p s Q C P A HQ. eapply Go; [exact C | exact P | exact A|]. intros q s1 _ _ _ A1. split; [|contradiction]. intros _.
    apply HQ; [|apply has_unit]. eapply at_conts; [exact A1 | lia | congruence].
Qed.
Lemma ev_while_body z w w1 w2 o : Peval G ks c w w1 (OVal (l_integer 1) [Some z]) -> z <> 0 -> Peval G ks bd w1 w2 o -> abrupt o -> Peval G ks (RWhile c bd) w w2 o.
Proof.
  intros Pc Hz Pb Ab used g cc og g' H Fi Iu. destruct (while_start _ _ _ _ _ _ _ _ Pc H Fi Iu) as (_ & _ & _ & g1 & cb & lb & gb & Hb & _ & D1 & Co1 & _ & Go).
  destruct (while_cond_fine _ Fi) as [_ Fb]. assert (Iu1 : incl (map fst (conts g1)) used) by now rewrite Co1. destruct (Pb used _ _ _ _ Hb Fb Iu1) as [St Db]. split.
  - apply stat_abrupt; [exact Ab|]. intros J N. apply jumpless_child with (y := bd) in N; [|cbn; auto]. destruct o; [destruct Ab | exact (St J N) | exact (St J N)].
  - apply by_abrupt; [exact Ab|]. intros K n m p s C P A. eapply Go; [exact C | exact P | exact A|]. intros q s1 Cb _ Pb' A1. split; [contradiction|]. intros _ _.
    eapply use_abrupt; [exact Db | exact Ab | exact Cb | exact Pb' | exact A1].
Qed.
Lemma ev_while_again z l v w w1 w2 w3 o : Peval G ks c w w1 (OVal (l_integer 1) [Some z]) -> z <> 0 -> Peval G ks bd w1 w2 (OVal l v) -> Peval G ks (RWhile c bd) w2 w3 o ->
  Peval G ks (RWhile c bd) w w3 o.
Proof.
  intros Pc Hz Pb Pw used g cc og g' H Fi Iu. destruct (while_start _ _ _ _ _ _ _ _ Pc H Fi Iu) as (_ & _ & _ & g1 & cb & lb & gb & Hb & _ & D1 & Co1 & Cob & Go).
  destruct (while_cond_fine _ Fi) as [_ Fb]. assert (Iu1 : incl (map fst (conts g1)) used) by now rewrite Co1. destruct (Pb used _ _ _ _ Hb Fb Iu1) as [(El & Gl & De) Db].
  injection El as ->. destruct (Pw used _ _ _ _ H Fi Iu) as [St Dw]. split; [exact St|].
  intros K n m p s C P Iv. eapply Go; [exact C | exact P | exact (at_refl Iv)|]. intros q s1 Cb Cd Pb' A1. split; [contradiction|]. intros Back _.
  eapply use_val; [exact Db | exact Cb | exact Pb' | exact A1|]. intros s2 A2 _ _ V2. eapply leads_emit; [exact Cd|]. apply Back.
  destruct (at_discard X l (depth g1) A2 Gl De) as (A3 & D3 & _); [rewrite D1; lia|].
  eapply use_end; [exact Dw | exact C | exact P | |].
  - eapply at_conts; [exact A3 | |]; cbn [set_depth depth conts]; [lia | congruence].
  - intros l' v' s' -> A' V'. apply leads_here. exists s'. auto.
Qed.
End While.
End Cases.
