(** Environments of closures. *)
From Coq Require Import ZArith Lia.
From Verif.Base Require Import Base.
From Verif.Ir Require Import Model RtInd.
From Verif.Layout Require Import Model Spec Proofs ProofsResolve.
From Verif.Frame Require Model.
From Verif.Frame Require Spec Proofs.
From Verif.Stack Require Import Machine Model Spec Facts Proofs ProofsValue ProofsMove.
From Verif.Codegen Require Import Model Machine Spec Facts ProofsGen ProofsFrame ProofsRun ProofsInv ProofsStatic ProofsEval ProofsSimple ProofsHeap ProofsAlloc ProofsEach.
Local Open Scope Z_scope.

Section Cases.
Variable M : machine.
Variable r : resolver.
Variable known : nat -> bool.
Variable start : Z.
Variable F : nat.
Variable b : Z.
Variable offs : list (nat * Z).
Hypothesis X : setting M r start F b.

Notation heap_ok := (heap_ok start).
Notation leads := (leads M).
Notation code_at := (code_at M F).
Notation chain := (chain (type_words r) offs).
Notation placed := (placed (type_words r) offs).
Notation placed_lets := (placed_lets (type_words r) offs).
Notation kept := (kept start b).
Notation lev := (lev b).
Notation vars_ok := (vars_ok start b offs).
Notation konts_ok := (konts_ok M r F offs).
Notation Inv := (Inv M r start F b offs).
Notation At := (At M r start F b offs).
Notation leaves := (leaves M start F b offs).
Notation gen := (gen r known offs).
Notation fine := (fine (balanced r)).
Notation world := (world (memo M)).
Notation fun_address := (fun f => address M f 0).

Notation Dyn := (Dyn M r start F b offs).
Notation Peval := (Peval M r start F b offs known).
Ltac setting := let a := fresh "Xb" in let c := fresh "Xs" in pose proof (x_below X) as a; pose proof (x_start X) as c.
Ltac pos := repeat rewrite app_length; cbn [fst keep map List.length]; unfold at_rdi; lia.

(** ** Environments *)
Inductive Fill G ks : Z -> list rt -> world -> world -> option result -> Prop :=
| Fill_nil p w : Fill G ks p [] w w None
| Fill_stop p e es w w' o : Peval G ks e w w' o -> abrupt o -> Fill G ks p (e :: es) w w' (Some o)
| Fill_cons p e es w w1 w2 t l v x :
    rt_ty e = Ret (Some t) -> get r t = Ret l ->
    Peval G ks e w w1 (OVal l v) -> available (snd w1) p (Z.to_nat (room l)) ->
    Fill G ks (p + room l) es (fst w1, put p (v ++ undefined (Z.to_nat (room l) - List.length v)) (snd w1)) w2 x ->
    Fill G ks p (e :: es) w w2 x.

Lemma Fill_abrupt G ks p es w w' o : Fill G ks p es w w' (Some o) -> abrupt o.
Proof. intros H. remember (Some o) as x eqn:E. induction H; [discriminate | congruence | auto]. Qed.
Lemma reload_static l : snd (keep [Load Q Rdi (at_rsp (Z.of_N (size_in_stack l true)))]) = 0. Proof. reflexivity. Qed.
Lemma fill_static G ks p es w w' x : Fill G ks p es w w' x -> forall offset used g c og g',
  gen_env gen offset es g = Ret (c, og, g') -> Forall (fine used) es -> incl (map fst (conts g)) used ->
  match x with
  | None => og = Some tt /\ depth g' = depth g /\ conts g' = conts g
  | Some o => is_jump o -> ~ Forall jumpless es
  end.
Proof.
  induction 1 as [p w | p e es w w' o P Ab | p e es w w1 w2 t l v x Ht Hg P Av Hx IH]; intros offset used g c og g' H Fi Iu.
  - cbn in H. apply ret_inv in H. destruct H as (_ & -> & ->). auto.
  - cbn [gen_env] in H. inversion Fi as [|? ? F1 F2]; subst.
    destruct (sub_abrupt P Ab H F1 Iu) as (c1 & g1 & c2 & _ & Ju & _). intros J Fj. inversion Fj; subst. now apply Ju.
  - cbn [gen_env] in H. inversion Fi as [|? ? F1 F2]; subst.
    destruct (sub_val P H F1 Iu) as (c1 & g1 & c2 & H1 & _ & Gl & De & Co & _). cbv zeta in H1.
    apply emit_then in H1. destruct H1 as (c3 & H1 & _). apply emit_then in H1. destruct H1 as (c4 & H1 & _).
    pose proof (store_var_static (plus at_rdi (Z.of_N offset)) l (good_usable l Gl) (rdi_ok _)) as Ss.
    specialize (IH _ used _ _ _ _ H1 F2). cbn [set_depth depth conts keep snd] in IH. rewrite Co in IH. specialize (IH Iu).
    destruct x as [o|]; [|destruct IH as (R1 & R2 & R3); split; [exact R1|]; split; [lia | exact R3]].
    intros J Fj. inversion Fj; subst. now apply IH.
Qed.
Lemma fill_ok G ks p es w w' x : Fill G ks p es w w' x -> forall offset used g c og g' p0 d,
  gen_env gen offset es g = Ret (c, og, g') -> Forall (fine used) es -> incl (map fst (conts g)) used ->
  p = p0 + Z.of_N offset -> 0 <= p0 < 2 ^ 64 -> depth g = d + 1 ->
  forall K n m g0 s0 q s, depth g0 <= d -> code_at q c -> Forall (placed n m) es -> At K G ks n m g0 s0 g w s ->
  holds (mem s) (b - 8 * d - 8) (pointer p0) ->
  leads (fun cf => match x with
                   | None => exists s', cf = Config F (q + List.length c) s' (fst w') /\ At K G ks n m g0 s0 g' w' s' /\ holds (mem s') (b - 8 * d - 8) (pointer p0)
                   | Some o => leaves K n o w' s0 cf
                   end) (Config F q s (fst w)).
Proof.
  induction 1 as [p w | p e es w w' o P Ab | p e es w w1 w2 t l v x Ht Hg P Av Hx IH];
    intros offset used g c og g' p0 d H Fi Iu Ep Rp D K n m g0 s0 q s D0 C Pl A Ho; setting.
  - cbn in H. apply ret_inv in H. destruct H as (-> & -> & ->). apply leads_here. exists s. split; [f_equal; cbn; lia | auto].
  - cbn [gen_env] in H. inversion Fi as [|? ? F1 F2]; subst. inversion Pl as [|? ? P1 P2]; subst.
    destruct (sub_abrupt P Ab H F1 Iu) as (c1 & g1 & c2 & -> & _ & Dy). apply code_at_app in C. destruct C as [C _].
    eapply use_abrupt; [exact Dy | exact Ab | exact C | exact P1 | exact A].
  - cbn [gen_env] in H. inversion Fi as [|? ? F1 F2]; subst. inversion Pl as [|? ? P1 P2]; subst.
    destruct (sub_val P H F1 Iu) as (c1 & g1 & c2 & H1 & -> & Gl & De & Co & Dy). cbv zeta in H1.
    apply emit_then in H1. destruct H1 as (c3 & H1 & ->). apply emit_then in H1. destruct H1 as (c4 & H1 & ->).
    apply code_at_app in C. destruct C as [C C1]. apply code_at_app in C1. destruct C1 as [C1 C2]. apply code_at_app in C2. destruct C2 as [C2 C3].
    pose proof (good_usable l Gl) as U. pose proof (usable_in_stack l U) as Ui. pose proof (taken_in_stack l) as Ti. pose proof (size_in_stack_room l) as Sr.
    eapply use_val; [exact Dy | exact C | exact P1 | exact A|]. intros s1 A1 Kp _ V1.
    destruct (top X A1) as (T1 & T2 & T3 & T4 & T5 & T6). pose proof (i_levels (a_inv A1)).
    assert (Ho1 : holds (mem s1) (b - 8 * d - 8) (pointer p0)).
    { eapply (holds_kept X); [exact Kp | exact Ho | lia | unfold pointer; rewrite number_length; lia | assumption]. }
    eapply leads_emit; [exact C1|]. rewrite (reload known X (in_stack l) d A1 ltac:(lia) Ho1 Rp).
    assert (A2 : At K G ks n m g0 s0 (set_depth (depth g1 + snd (keep [Load Machine.Q Rdi (at_rsp (Z.of_N (size_in_stack (in_stack l) true)))])) g1) w1 (set_gp Rdi p0 s1)).
    { eapply same_next; [apply (at_set X); [exact A1 | reflexivity | discriminate] | cbn [set_depth depth keep snd]; lia | reflexivity]. }
    eapply leads_emit; [exact C2|]. change (plus at_rdi (Z.of_N offset)) with (Addr Rdi None (Z.of_N offset)) in *.
    pose proof (has_widen l v s1 U V1) as V2. pose proof (has_length _ _ _ V2) as Lv. unfold length_of in Lv.
    destruct (at_store known X (in_stack l) _ (d + 1) (Z.of_N offset) (p0 + Z.of_N offset) A2 Ui (has_set _ _ _ Rdi p0 eq_refl V2)) as (A3 & D3 & M3 & _).
    { cbn [set_depth depth keep snd]. lia. }
    { lia. }
    { reflexivity. }
    { replace (List.length _) with (Z.to_nat (room l)) by lia. exact Av. }
    eapply leads_trans; [refine (IH _ used _ _ _ _ p0 d H1 F2 _ _ Rp _ K n m g0 s0 _ _ D0 C3 P2 A3 _)|].
    + cbn [set_depth conts]. now rewrite Co.
    + lia.
    + exact D3.
    + eapply holds_ext; [exact Ho1|]. intros i Hi. unfold pointer in Hi. rewrite number_length in Hi. rewrite M3 by lia. reflexivity.
    + intros cf Hc. apply leads_here. destruct x as [o|]; [exact Hc|]. destruct Hc as (s' & -> & Hc). exists s'. split; [f_equal; pos | exact Hc].
Qed.

Lemma env_size_room es n : env_room r es n -> env_size r es = Ret (Some n).
Proof.
  induction 1 as [|e es t l n Ht Hg _ IH]; [reflexivity|]. cbn [env_size]. rewrite Ht. cbn [bind]. rewrite Hg. cbn [bind]. rewrite IH. cbn [bind].
  now rewrite eightbytes_room.
Qed.
Lemma env_size_never es n : Exists (fun e => rt_ty e = Ret None) es -> env_size r es = Ret n -> n = None.
Proof.
  intros H. revert n. induction H as [e es Ht | e es H IH]; intros n E; cbn [env_size] in E.
  - rewrite Ht in E. cbn [bind] in E. congruence.
  - destruct (rt_ty e) as [[t|]| |]; cbn [bind] in E; try congruence. destruct (get r t); cbn [bind] in E; try discriminate.
    destruct (env_size r es) as [n'| |]; cbn [bind] in E; try discriminate. rewrite (IH n' eq_refl) in E. congruence.
Qed.

Lemma gen_env_code loc es g : loc <> LStackStatic -> gen (RConstructEnv loc es) g =
  (let* n := env_size r es in
   match n with
   | None => do _, g <- gen_seq gen es g; Panic
   | Some n =>
          do _, g <- out [Imm Rdi (Z.of_N n)] g;
          do _, g <- gen_malloc g;
          do _, g <- emit (push l_pointer) g;
          do _, g <- gen_env gen 0 es g;
          do _, g <- emit (pop l_pointer) g;
          ret l_pointer g
   end).
Proof. intros Hl. destruct loc; [reflexivity | now elim Hl | reflexivity]. Qed.

Lemma ev_env_never G ks loc es w w' vs o : loc <> LStackStatic -> Exists (fun e => rt_ty e = Ret None) es -> Evs M r known start F b offs G ks es w w' vs (Some o) ->
  Peval G ks (RConstructEnv loc es) w w' o.
Proof.
  intros Hl Hn E used g c og g' H Fi Iu. rewrite gen_env_code in H by exact Hl. pose proof (Evs_abrupt _ _ _ _ _ _ _ _ _ _ _ _ _ _ E) as Ab.
  destruct (env_size r es) as [n'| |] eqn:En; cbn [bind] in H; try discriminate. rewrite (env_size_never _ _ Hn En) in H.
  apply andthen_inv in H. destruct H as (c1 & o1 & g1 & H & Hr).
  assert (Fe : Forall (fine used) es). { apply Forall_forall. intros y Hy. apply (fine_of y Fi eq_refl Hy). }
  destruct o1; [destruct Hr as (c2 & Hr & _); discriminate|]. destruct Hr as (-> & _ & _). split.
  - apply stat_abrupt; [exact Ab|]. intros J N. apply (seq_static _ _ _ _ _ _ _ _ _ _ _ _ _ _ _ _ _ _ _ E H Fe Iu J). apply Forall_forall. intros y Hy. eapply jumpless_child; [exact N | exact Hy].
  - apply by_abrupt; [exact Ab|]. intros K n m p s C P A. apply plain in P; [|reflexivity].
    exact (seq_ok M r known start F b offs X _ _ _ _ _ _ _ _ _ _ _ _ _ _ _ _ _ _ _ E H Fe Iu C P A eq_refl).
Qed.
Lemma ev_env G ks loc es nn w w1 w2 pp : loc <> LStackStatic -> env_room r es nn -> allocates start (memo M) (alloc M) w nn w1 pp -> Fill G ks pp es w1 w2 None ->
  Peval G ks (RConstructEnv loc es) w w2 (OVal l_pointer (pointer pp)).
Proof.
  intros Hl Hn Hal Hf used g c og g' H Fi Iu. rewrite gen_env_code in H by exact Hl. rewrite (env_size_room _ _ Hn) in H. cbn [bind] in H.
  assert (Fe : Forall (fine used) es). { apply Forall_forall. intros y Hy. apply (fine_of y Fi eq_refl Hy). }
  apply out_then in H. destruct H as (c0 & H & ->). apply andthen_inv in H. destruct H as (cm & om & gm & Hm & H).
  destruct (malloc_static known 0%nat Hm) as (-> & Dm & Cm). destruct H as (c1 & H & ->). apply emit_then in H. destruct H as (c2 & H & ->).
  assert (Iu1 : incl (map fst (conts (set_depth (depth gm + snd (push l_pointer)) gm))) used) by (cbn [set_depth conts]; now rewrite Cm).
  apply andthen_inv in H. destruct H as (c3 & o3 & g3 & H3 & H). destruct (fill_static _ _ _ _ _ _ _ Hf _ _ _ _ _ _ H3 Fe Iu1) as (-> & D3 & C3).
  destruct H as (c4 & H & ->). apply emit_then in H. destruct H as (c5 & H & ->). apply ret_inv in H. destruct H as (-> & -> & ->).
  pose proof (push_static l_pointer (good_usable _ good_pointer)) as Ps. pose proof (pop_static l_pointer (good_usable _ good_pointer)) as Po.
  change (taken l_pointer) with 0 in *. change (room l_pointer) with 8 in *. cbn [set_depth depth] in D3. split.
  - cbn [stat]. split; [reflexivity|]. split; [apply good_pointer|]. change (taken l_pointer) with 0. cbn [set_depth depth]. lia.
  - apply by_value. intros K n m q s Q C P A HQ. setting. assert (Rp : 0 <= pp < 2 ^ 64) by (destruct Hal as (_ & Hp & Hp' & _); lia).
    eapply (block_ok known X nn pp); [exact Hm | exact C | exact A | exact Hal|]. intros s3 A3 Ho C5.
    apply code_at_app in C5. destruct C5 as [C5 C6]. rewrite app_nil_r in *. apply plain in P; [|reflexivity].
    eapply leads_trans; [refine (fill_ok _ _ _ _ _ _ _ Hf _ _ _ _ _ _ pp (depth g) H3 Fe Iu1 _ Rp _ K n m g s _ _ _ C5 P A3 Ho)|].
    + cbn. lia.
    + cbn [set_depth depth]. lia.
    + lia.
    + intros cf (s4 & -> & A4 & Ho4). eapply leads_emit; [exact C6|].
      destruct (at_pop X l_pointer (pointer pp) A4 good_pointer) as (A7 & D7 & V7 & _).
      { apply number_length. }
      { replace (b - 8 * depth g3) with (b - 8 * depth g - 8) by lia. exact Ho4. }
      { change (taken l_pointer) with 0. change (room l_pointer) with 8. lia. }
      eapply leads_pos; [|apply (HQ _ A7 V7)]. pos.
Qed.
Lemma ev_env_abrupt G ks loc es nn w w1 w2 pp o : loc <> LStackStatic -> env_room r es nn -> allocates start (memo M) (alloc M) w nn w1 pp -> Fill G ks pp es w1 w2 (Some o) ->
  Peval G ks (RConstructEnv loc es) w w2 o.
Proof.
  intros Hl Hn Hal Hf used g c og g' H Fi Iu. rewrite gen_env_code in H by exact Hl. rewrite (env_size_room _ _ Hn) in H. cbn [bind] in H.
  pose proof (Fill_abrupt _ _ _ _ _ _ _ Hf) as Ab.
  assert (Fe : Forall (fine used) es). { apply Forall_forall. intros y Hy. apply (fine_of y Fi eq_refl Hy). }
  apply out_then in H. destruct H as (c0 & H & ->). apply andthen_inv in H. destruct H as (cm & om & gm & Hm & H).
  destruct (malloc_static known 0%nat Hm) as (-> & Dm & Cm). destruct H as (c1 & H & ->). apply emit_then in H. destruct H as (c2 & H & ->).
  assert (Iu1 : incl (map fst (conts (set_depth (depth gm + snd (push l_pointer)) gm))) used) by (cbn [set_depth conts]; now rewrite Cm).
  pose proof (push_static l_pointer (good_usable _ good_pointer)) as Ps. change (taken l_pointer) with 0 in *. change (room l_pointer) with 8 in *.
  apply andthen_inv in H. destruct H as (c3 & o3 & g3 & H3 & H). pose proof (fill_static _ _ _ _ _ _ _ Hf _ _ _ _ _ _ H3 Fe Iu1) as St. cbn in St.
  assert (C' : exists c4, c2 = c3 ++ c4). { destruct o3; [destruct H as (c4 & _ & ->); eauto | exists []; rewrite app_nil_r; apply H]. }
  destruct C' as (c4 & ->). split.
  - apply stat_abrupt; [exact Ab|]. intros J N. apply (St J). apply Forall_forall. intros y Hy. eapply jumpless_child; [exact N | exact Hy].
  - apply by_abrupt; [exact Ab|]. intros K n m q s C P A. setting. assert (Rp : 0 <= pp < 2 ^ 64) by (destruct Hal as (_ & Hp & Hp' & _); lia).
    eapply (block_ok known X nn pp); [exact Hm | exact C | exact A | exact Hal|]. intros s3 A3 Ho C5.
    apply code_at_app in C5. destruct C5 as [C5 C6]. apply plain in P; [|reflexivity].
    refine (fill_ok _ _ _ _ _ _ _ Hf _ _ _ _ _ _ pp (depth g) H3 Fe Iu1 _ Rp _ K n m g s _ _ _ C5 P A3 Ho).
    + cbn. lia.
    + cbn [set_depth depth]. lia.
    + lia.
Qed.
End Cases.
