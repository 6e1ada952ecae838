(** Expressions evaluated one after the other. *)
From Coq Require Import ZArith Lia.
From Verif.Base Require Import Base.
From Verif.Ir Require Import Model RtInd.
From Verif.Layout Require Import Model Spec Proofs ProofsResolve.
From Verif.Frame Require Model.
From Verif.Frame Require Spec Proofs.
From Verif.Stack Require Import Machine Model Spec Facts Proofs ProofsValue ProofsMove.
From Verif.Codegen Require Import Model Machine Spec Facts ProofsGen ProofsFrame ProofsRun ProofsInv ProofsStatic ProofsEval ProofsSimple ProofsHeap ProofsAlloc.
Local Open Scope Z_scope.

Section Cases.
Variable M : machine.
Variable r : resolver.
Variable known : nat -> bool.
Variable start : Z.
Variable F : nat.
Variable b : Z.
Variable offs : list (nat * Z).
Hypothesis X : setting M r start F b.

Notation heap_ok := (heap_ok start).
Notation leads := (leads M).
Notation code_at := (code_at M F).
Notation chain := (chain (type_words r) offs).
Notation placed := (placed (type_words r) offs).
Notation placed_lets := (placed_lets (type_words r) offs).
Notation kept := (kept start b).
Notation lev := (lev b).
Notation vars_ok := (vars_ok start b offs).
Notation konts_ok := (konts_ok M r F offs).
Notation Inv := (Inv M r start F b offs).
Notation At := (At M r start F b offs).
Notation leaves := (leaves M start F b offs).
Notation gen := (gen r known offs).
Notation fine := (fine (balanced r)).
Notation world := (world (memo M)).
Notation fun_address := (fun f => address M f 0).

Notation Dyn := (Dyn M r start F b offs).
Notation Peval := (Peval M r start F b offs known).
Ltac setting := let a := fresh "Xb" in let c := fresh "Xs" in pose proof (x_below X) as a; pose proof (x_start X) as c.
Ltac pos := repeat rewrite app_length; cbn [fst keep map List.length]; unfold at_rdi; lia.

Lemma at_trans K G ks n m g0 s0 g (w : world) s g1 (w1 : world) s1 : At K G ks n m g0 s0 g w s -> At K G ks n m g s g1 w1 s1 -> At K G ks n m g0 s0 g1 w1 s1.
Proof. clear known.
  intros A A'. eapply at_later; [exact A | | apply A' | apply A' | apply A' | apply A' | | apply A'].
  - eapply kept_mono; [apply (a_kept A') | lia | lia | apply A].
  - pose proof (a_depth A). pose proof (a_depth A'). lia.
Qed.

(** ** Expressions evaluated one after the other *)
Inductive Evs G ks : list rt -> world -> world -> list (layout * val) -> option result -> Prop :=
| Evs_nil w : Evs G ks [] w w [] None
| Evs_stop e es w w' o : Peval G ks e w w' o -> abrupt o -> Evs G ks (e :: es) w w' [] (Some o)
| Evs_cons e es w w1 w2 l v vs x :
    Peval G ks e w w1 (OVal l v) -> Evs G ks es w1 w2 vs x -> Evs G ks (e :: es) w w2 ((l, v) :: vs) x.

Lemma Evs_abrupt G ks es w w' vs o : Evs G ks es w w' vs (Some o) -> abrupt o.
Proof. intros H. remember (Some o) as x eqn:E. induction H; [discriminate | congruence | auto]. Qed.
Lemma Evs_length G ks es w w' vs : Evs G ks es w w' vs None -> List.length vs = List.length es.
Proof. intros H. remember None as x eqn:E. induction H; [reflexivity | discriminate | cbn; auto]. Qed.
Lemma Evs_app G ks fs es : forall w w2 vs x, Evs G ks (es ++ fs) w w2 vs x ->
  (exists o, x = Some o /\ Evs G ks es w w2 vs x) \/
  (exists w1 vs1 vs2, Evs G ks es w w1 vs1 None /\ Evs G ks fs w1 w2 vs2 x /\ vs = vs1 ++ vs2 /\ List.length vs1 = List.length es).
Proof.
  induction es as [|e es IH]; intros w w2 vs x H.
  - right. exists w, [], vs. split; [constructor | auto].
  - cbn [app] in H. inversion H as [| ? ? ? ? o P Ab | ? ? ? w1 ? l v vs' ? P H']; subst.
    + left. exists o. split; [reflexivity | now constructor].
    + destruct (IH _ _ _ _ H') as [(o & -> & H1) | (w3 & vs1 & vs2 & H1 & H2 & -> & L)].
      * left. exists o. split; [reflexivity | econstructor; eassumption].
      * right. exists w3, ((l, v) :: vs1), vs2. split; [econstructor; eassumption|]. split; [exact H2|]. cbn. auto.
Qed.

(** The recorded depth after each of them is [D]. *)
Lemma each_static G ks es w w' vs x : Evs G ks es w w' vs x -> forall after D used g c og g',
  gen_each gen after es g = Ret (c, og, g') -> List.length after = List.length es -> Forall (fine used) es -> incl (map fst (conts g)) used ->
  8 * depth g = 8 * D 0%nat ->
  (forall i k l v cc, nth_error after i = Some k -> nth_error vs i = Some (l, v) -> good l -> k l = Ret cc ->
    8 * D i + taken l + 8 * snd cc = 8 * D (Datatypes.S i)) ->
  match x with
  | None => og = Some tt /\ depth g' = D (List.length es) /\ conts g' = conts g
  | Some o => is_jump o -> ~ Forall jumpless es
  end.
Proof.
  induction 1 as [w | e es w w' o P Ab | e es w w1 w2 l v vs x P _ IH]; intros after D used g c og g' H L Fi Iu Hd Hs.
  - cbn in H. destruct after; (apply ret_inv in H; destruct H as (_ & -> & ->); split; [reflexivity|]; cbn [List.length]; split; [lia | reflexivity]).
  - destruct after as [|k after]; [discriminate|]. cbn [gen_each] in H. inversion Fi as [|? ? F1 F2]; subst.
    destruct (sub_abrupt P Ab H F1 Iu) as (c1 & g1 & c2 & _ & Ju & _). intros J Fj. inversion Fj; subst. now apply Ju.
  - destruct after as [|k after]; [discriminate|]. cbn [gen_each] in H. inversion Fi as [|? ? F1 F2]; subst.
    destruct (sub_val P H F1 Iu) as (c1 & g1 & c2 & H1 & _ & Gl & De & Co & _). apply need_then in H1. destruct H1 as (cc & Hk & H1).
    apply emit_then in H1. destruct H1 as (c3 & H1 & _). pose proof (Hs 0%nat k l v cc eq_refl eq_refl Gl Hk) as H0.
    assert (R : match x with None => og = Some tt /\ depth g' = D (Datatypes.S (List.length es)) /\ conts g' = conts g1 | Some o => is_jump o -> ~ Forall jumpless es end).
    { refine (IH after (fun i => D (Datatypes.S i)) used _ c3 og g' H1 _ F2 _ _ _).
      - cbn in L. lia.
      - cbn [set_depth conts]. now rewrite Co.
      - cbn [set_depth depth]. lia.
      - intros i k' l' v' cc' A1 A2. now apply (Hs (Datatypes.S i) k' l' v' cc'). }
    destruct x as [o|]; [|destruct R as (R1 & R2 & R3); split; [exact R1|]; split; [exact R2 | congruence]].
    intros J Fj. inversion Fj; subst. now apply R.
Qed.

(** A relation that holds at first, and that evaluating one of them with what is written after it keeps. *)
Lemma each_ok G ks es w w' vs x : Evs G ks es w w' vs x -> forall after used g c og g',
  gen_each gen after es g = Ret (c, og, g') -> List.length after = List.length es -> Forall (fine used) es -> incl (map fst (conts g)) used ->
  forall K n m p s (R : nat -> gstate -> world -> state -> Prop), code_at p c -> Forall (placed n m) es ->
  (forall i g w s, R i g w s -> Inv K G ks n m g w s) ->
  (forall i k l v cc g w s g1 w1 s1, nth_error after i = Some k -> nth_error vs i = Some (l, v) -> good l -> k l = Ret cc ->
    R i g w s -> At K G ks n m g s g1 w1 s1 -> 8 * depth g1 = 8 * depth g + taken l -> has l v s1 ->
    R (Datatypes.S i) (set_depth (depth g1 + snd cc) g1) w1 (run (fst cc) s1)) ->
  R 0%nat g w s ->
  leads (fun cf => match x with
                   | None => exists s', cf = Config F (p + List.length c) s' (fst w') /\ R (List.length es) g' w' s'
                   | Some o => exists i g1 w1 s1, R i g1 w1 s1 /\ leaves K n o w' s1 cf
                   end) (Config F p s (fst w)).
Proof.
  induction 1 as [w | e es w w' o P Ab | e es w w1 w2 l v vs x P Hx IH]; intros after used g c og g' H L Fi Iu K n m p s R C Pl Hi Hs R0.
  - apply leads_here. cbn in H. destruct after; (apply ret_inv in H; destruct H as (-> & _ & ->); exists s; split; [f_equal; cbn; lia | exact R0]).
  - destruct after as [|k after]; [discriminate|]. cbn [gen_each] in H. inversion Fi as [|? ? F1 F2]; subst.
    destruct (sub_abrupt P Ab H F1 Iu) as (c1 & g1 & c2 & -> & _ & Dy). apply code_at_app in C. destruct C as [C _]. inversion Pl as [|? ? P1 P2]; subst.
    eapply leads_trans; [eapply use_abrupt; [exact Dy | exact Ab | exact C | exact P1 | apply at_refl, (Hi _ _ _ _ R0)]|].
    intros cf Hl. apply leads_here. exists 0%nat, g, w, s. auto.
  - destruct after as [|k after]; [discriminate|]. cbn [gen_each] in H. inversion Fi as [|? ? F1 F2]; subst. inversion Pl as [|? ? P1 P2]; subst.
    destruct (sub_val P H F1 Iu) as (c1 & g1 & c2 & H1 & -> & Gl & De & Co & Dy). apply need_then in H1. destruct H1 as (cc & Hk & H1).
    apply emit_then in H1. destruct H1 as (c3 & H1 & ->). apply code_at_app in C. destruct C as [C C1]. apply code_at_app in C1. destruct C1 as [C1 C2].
    eapply use_val; [exact Dy | exact C | exact P1 | apply at_refl, (Hi _ _ _ _ R0)|]. intros s' A' _ _ V.
    eapply leads_emit; [exact C1|].
    pose proof (Hs 0%nat k l v cc g w s g1 w1 s' eq_refl eq_refl Gl Hk R0 A' De V) as R1.
    eapply leads_trans; [refine (IH after used _ c3 og g' H1 _ F2 _ K n m _ _ (fun i => R (Datatypes.S i)) C2 P2 _ _ R1)|].
    + cbn in L. lia.
    + cbn [set_depth conts]. now rewrite Co.
    + intros i. apply Hi.
    + intros i k' l' v' cc' g2 w3 s2 g3 w4 s3 A1 A2. now apply (Hs (Datatypes.S i) k' l' v' cc').
    + intros cf Hc. apply leads_here. destruct x as [o|].
      * destruct Hc as (i & Hc). exists (Datatypes.S i). exact Hc.
      * destruct Hc as (s2 & -> & R2). exists s2. split; [f_equal; pos | exact R2].
Qed.

(** ** Sequences *)
Lemma seq_step K G ks n m g0 s0 l v g (w : world) s g1 (w1 : world) s1 :
  At K G ks n m g0 s0 g w s /\ depth g = depth g0 -> good l -> At K G ks n m g s g1 w1 s1 -> 8 * depth g1 = 8 * depth g + taken l -> has l v s1 ->
  At K G ks n m g0 s0 (set_depth (depth g1 + snd (discard l)) g1) w1 (run (fst (discard l)) s1) /\ depth (set_depth (depth g1 + snd (discard l)) g1) = depth g0.
Proof.
  intros [A D] Gl A' De V. destruct (at_discard X l (depth g0) (at_trans _ _ _ _ _ _ _ _ _ _ _ _ _ A A') Gl) as (A2 & D2 & _); [lia | lia|].
  split; [exact A2 | exact D2].
Qed.
Lemma after_discard es i k l cc : nth_error (map (fun (_ : rt) l => Ret (discard l)) es) i = Some k -> k l = Ret cc -> cc = discard l.
Proof. intros H. rewrite nth_error_map in H. destruct (nth_error es i); [|discriminate]. injection H as <-. congruence. Qed.
Lemma seq_static G ks es w w' vs x used g c og g' : Evs G ks es w w' vs x -> gen_seq gen es g = Ret (c, og, g') -> Forall (fine used) es -> incl (map fst (conts g)) used ->
  match x with
  | None => og = Some tt /\ depth g' = depth g /\ conts g' = conts g
  | Some o => is_jump o -> ~ Forall jumpless es
  end.
Proof.
  intros E H Fi Iu. apply (each_static _ _ _ _ _ _ _ E _ (fun _ => depth g) used _ _ _ _ H); [apply map_length | exact Fi | exact Iu | reflexivity|].
  intros i k l v cc Hk _ Gl Hc. rewrite (after_discard _ _ _ _ _ Hk Hc). pose proof (discard_static l (good_usable l Gl)). lia.
Qed.
Lemma seq_ok G ks es w w' vs x used g c og g' K n m g0 s0 p s : Evs G ks es w w' vs x -> gen_seq gen es g = Ret (c, og, g') -> Forall (fine used) es -> incl (map fst (conts g)) used ->
  code_at p c -> Forall (placed n m) es -> At K G ks n m g0 s0 g w s -> depth g = depth g0 ->
  leads (fun cf => match x with
                   | None => exists s', cf = Config F (p + List.length c) s' (fst w') /\ At K G ks n m g0 s0 g' w' s'
                   | Some o => leaves K n o w' s0 cf
                   end) (Config F p s (fst w)).
Proof.
  intros E H Fi Iu C Pl A D.
  eapply leads_trans; [refine (each_ok _ _ _ _ _ _ _ E _ used _ _ _ _ H _ Fi Iu K n m p s (fun _ g w s => At K G ks n m g0 s0 g w s /\ depth g = depth g0) C Pl _ _ (conj A D))|].
  - apply map_length.
  - intros i g1 w1 s1 [A1 _]. apply A1.
  - intros i k l v cc g1 w1 s1 g2 w2 s2 Hk _ Gl Hc R A2 De V. rewrite (after_discard _ _ _ _ _ Hk Hc). eapply seq_step; eassumption.
  - intros cf Hc. apply leads_here. destruct x as [o|].
    + destruct Hc as (i & g1 & w1 & s1 & [A1 _] & Hl). eapply leaves_from; eassumption.
    + destruct Hc as (s' & -> & A1 & _). exists s'. auto.
Qed.

Lemma ev_seq_stop G ks es a w w' vs o : Evs G ks es w w' vs (Some o) -> Peval G ks (RSeq es a) w w' o.
Proof.
  intros E used g c og g' H Fi Iu. pose proof (Evs_abrupt _ _ _ _ _ _ _ E) as Ab. cbn [Model.gen] in H.
  apply andthen_inv in H. destruct H as (c1 & o1 & g1 & H & Hr).
  assert (Fe : Forall (fine used) es). { apply Forall_forall. intros y Hy. apply (fine_of y Fi eq_refl). apply in_or_app. now left. }
  assert (C' : exists c2, c = c1 ++ c2). { destruct o1; [destruct Hr as (c2 & _ & ->); eauto | exists []; rewrite app_nil_r; apply Hr]. }
  destruct C' as (c2 & ->). split.
  - apply stat_abrupt; [exact Ab|]. intros J N. apply (seq_static _ _ _ _ _ _ _ _ _ _ _ _ E H Fe Iu J). apply Forall_forall. intros y Hy. eapply jumpless_child; [exact N|]. apply in_or_app. now left.
  - apply by_abrupt; [exact Ab|]. intros K n m p s C P A. apply code_at_app in C. destruct C as [C _]. apply plain in P; [|reflexivity].
    apply Forall_app in P. destruct P as [P _]. exact (seq_ok _ _ _ _ _ _ _ _ _ _ _ _ _ _ _ _ _ _ _ E H Fe Iu C P A eq_refl).
Qed.
Lemma ev_seq G ks es a vs w w1 w2 o : Evs G ks es w w1 vs None -> Peval G ks a w1 w2 o -> Peval G ks (RSeq es a) w w2 o.
Proof.
  intros E Pa used g c og g' H Fi Iu. cbn [Model.gen] in H.
  apply andthen_inv in H. destruct H as (c1 & o1 & g1 & H & Hr).
  assert (Fe : Forall (fine used) es). { apply Forall_forall. intros y Hy. apply (fine_of y Fi eq_refl). apply in_or_app. now left. }
  destruct (seq_static _ _ _ _ _ _ _ _ _ _ _ _ E H Fe Iu) as (-> & D1 & Co). destruct Hr as (c2 & Hr & ->).
  assert (Fa : fine used a) by (apply (fine_of a Fi eq_refl); apply in_or_app; right; now left).
  assert (Iu1 : incl (map fst (conts g1)) used) by now rewrite Co.
  destruct (Pa used g1 c2 og g' Hr Fa Iu1) as [St Dy].
  assert (Go : forall K n m p s Q, code_at p (c1 ++ c2) -> placed n m (RSeq es a) -> At K G ks n m g s g w s ->
    (forall s', code_at (p + List.length c1) c2 -> placed n m a -> At K G ks n m g s g1 w1 s' -> leads Q (Config F (p + List.length c1) s' (fst w1))) -> leads Q (Config F p s (fst w))).
  { intros K n m p s Q C P A HQ. apply code_at_app in C. destruct C as [C C2]. apply plain in P; [|reflexivity]. apply Forall_app in P. destruct P as [P P2]. inversion P2; subst.
    eapply leads_trans; [exact (seq_ok _ _ _ _ _ _ _ _ _ _ _ _ _ _ _ _ _ _ _ E H Fe Iu C P A eq_refl)|].
    intros cf (s' & -> & A'). now apply HQ. }
  destruct o as [l v|k vs'|l v]; (split; [|first [apply by_value | apply by_abrupt; [exact Logic.I|]]]).
  - cbn [stat] in *. destruct St as (-> & Gl & De). split; [reflexivity|]. split; [exact Gl | lia].
  - intros K n m p s Q C P A HQ. eapply Go; [exact C | exact P | exact A|]. intros s' C2 P2 A'.
    eapply use_val; [exact Dy | exact C2 | exact P2 | exact A'|]. intros s2 A2 _ _ V. eapply leads_pos; [|apply (HQ _ A2 V)]. pos.
  - cbn [stat] in *. intros J N. apply (St J). eapply jumpless_child; [exact N|]. apply in_or_app. right. now left.
  - intros K n m p s C P A. eapply Go; [exact C | exact P | exact A|]. intros s' C2 P2 A'. eapply use_abrupt; [exact Dy | exact Logic.I | exact C2 | exact P2 | exact A'].
  - cbn [stat] in *. intros J. destruct J.
  - intros K n m p s C P A. eapply Go; [exact C | exact P | exact A|]. intros s' C2 P2 A'. eapply use_abrupt; [exact Dy | exact Logic.I | exact C2 | exact P2 | exact A'].
Qed.
End Cases.
Arguments at_trans {M r start F b offs K G ks n m g0 s0 g w s g1 w1 s1}.
