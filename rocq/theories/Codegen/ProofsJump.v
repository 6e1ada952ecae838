(** Jumps to local continuations. *)
From Coq Require Import ZArith Lia.
From Verif.Base Require Import Base.
From Verif.Ir Require Import Model RtInd.
From Verif.Layout Require Import Model Spec Proofs ProofsResolve.
From Verif.Frame Require Model.
From Verif.Frame Require Spec Proofs.
From Verif.Stack Require Import Machine Model Spec Facts Proofs ProofsValue ProofsMove.
From Verif.Codegen Require Import Model Machine Spec Facts ProofsGen ProofsFrame ProofsRun ProofsInv ProofsStatic ProofsEval ProofsSimple ProofsHeap ProofsAlloc ProofsEach ProofsStruct.
Local Open Scope Z_scope.

Section Cases.
Variable M : machine.
Variable r : resolver.
Variable known : nat -> bool.
Variable start : Z.
Variable F : nat.
Variable b : Z.
Variable offs : list (nat * Z).
Hypothesis X : setting M r start F b.

Notation heap_ok := (heap_ok start).
Notation leads := (leads M).
Notation code_at := (code_at M F).
Notation chain := (chain (type_words r) offs).
Notation placed := (placed (type_words r) offs).
Notation placed_lets := (placed_lets (type_words r) offs).
Notation kept := (kept start b).
Notation lev := (lev b).
Notation vars_ok := (vars_ok start b offs).
Notation konts_ok := (konts_ok M r F offs).
Notation Inv := (Inv M r start F b offs).
Notation At := (At M r start F b offs).
Notation leaves := (leaves M start F b offs).
Notation gen := (gen r known offs).
Notation fine := (fine (balanced r)).
Notation world := (world (memo M)).
Notation fun_address := (fun f => address M f 0).

Notation Dyn := (Dyn M r start F b offs).
Notation Peval := (Peval M r start F b offs known).
Ltac setting := let a := fresh "Xb" in let c := fresh "Xs" in pose proof (x_below X) as a; pose proof (x_start X) as c.
Ltac pos := repeat rewrite app_length; cbn [fst keep map List.length]; unfold at_rdi; lia.

(** ** Storing variables *)
Lemma type_room t l : get r t = Ret l -> 8 * Z.of_nat (type_words r t) = room l.
Proof. clear known. intros H. unfold type_words, layout_or_void. rewrite H. rewrite room_words. unfold words. lia. Qed.
Lemma store_level l v j s : gp s Rbp = b -> usable l -> has l v s -> gp s Rsp + taken l <= lev j ->
  let c := store (at_rbp (Frame.Model.offset_of j)) (in_stack l) in
  let s' := run (fst c) s in
  holds (mem s') (lev j) v /\ gp s' Rsp = gp s Rsp + taken l /\ snd c * 8 = - taken l /\
  same_outside (lev j) (lev j + room l) s s' /\ rest s s' /\ (norm s -> norm s').
Proof.
  clear known. intros Rb U V Le c s'. assert (Ea : ea (at_rbp (Frame.Model.offset_of j)) s = lev j).
  { unfold ea. cbn [at_rbp base index disp]. unfold Frame.Model.offset_of, ProofsInv.lev. lia. }
  destruct (store_var (at_rbp (Frame.Model.offset_of j)) l v s U (rbp_ok _) V) as (H1 & H2 & H3 & H4 & H5).
  { rewrite Ea. intros x Hx. lia. }
  rewrite Ea in *. repeat (split; [assumption|]). split; [apply rest_same, H5|]. apply run_norm, clean_store.
Qed.
Lemma inv_store K G ks n m g g1 g' (w1 : world) s1 s' lo hi : konts_ok K ks n m g -> depth g' = depth g -> conts g' = conts g ->
  Z.of_nat m <= depth g -> Inv K G ks n m g1 w1 s1 -> same_outside lo hi s1 s' -> hi <= lev n -> rest s1 s' -> norm s' -> gp s' Rsp = b - 8 * depth g' ->
  Inv K G ks n m g' w1 s'.
Proof.
  clear known. intros Ko D Co Lm Iv So Hi Re No Rs. setting. destruct Iv as [Rb _ Le _ _ He Va _]. unfold ProofsInv.lev in *. split; try assumption.
  - rewrite Re by (reflexivity || discriminate). exact Rb.
  - lia.
  - eapply heap_same; [|exact He]. intros a Ha. apply So. lia.
  - intros id v Hf. destruct (Va id v Hf) as (o & E & A & B & C). exists o. unfold ProofsInv.lev in *. repeat (split; [assumption|]).
    eapply holds_ext; [exact C|]. intros i Hi'. apply So. lia.
  - eapply konts_later; [exact Ko | lia | exact Co].
Qed.

Lemma Forall2_impl' {A B} (P Q : A -> B -> Prop) xs ys : (forall x y, P x y -> Q x y) -> Forall2 P xs ys -> Forall2 Q xs ys.
Proof. intros H. induction 1; constructor; auto. Qed.

(** ** Jumps *)
Lemma after_params (ps : list param) i k l cc : nth_error (map (set_param offs) (map fst ps)) i = Some k -> k l = Ret cc ->
  exists id t o, nth_error ps i = Some (id, t) /\ find offs id = Some o /\ cc = store (at_rbp o) (in_stack l).
Proof.
  intros H Hc. unfold param in *. rewrite map_map, nth_error_map in H. destruct (nth_error ps i) as [[id t]|]; [|discriminate]. injection H as <-.
  exists id, t. cbn [fst] in Hc. unfold set_param, offset_for in Hc. destruct (find offs id) as [o|]; cbn [bind] in Hc; [|discriminate]. exists o. split; [reflexivity|]. split; [reflexivity | congruence].
Qed.
Lemma skipn_nth {A} (l : list A) i x : nth_error l i = Some x -> skipn i l = x :: skipn (Datatypes.S i) l.
Proof. revert i. induction l as [|y l IH]; intros [|i] H; cbn in H; try discriminate; [injection H as ->; reflexivity|]. cbn [skipn]. now apply IH. Qed.
Lemma param_later mm mm' j hi hi' p v : param_at b offs mm j hi p v -> (hi <= hi')%nat -> (forall a, lev hi <= a < lev j -> mm' a = mm a) -> param_at b offs mm' j hi' p v.
Proof.
  clear known. intros (o & E & A & B & C) L H. exists o. unfold ProofsInv.lev in *. split; [exact E|]. split; [lia|]. split; [exact B|].
  eapply holds_ext; [exact C|]. intros i Hi. apply H. lia.
Qed.

Section Jump.
Variables (G : env) (ks : Frame.Spec.conts) (k : nat) (ps : list param) (es : list rt).
Variables (vs : list (layout * val)) (w w' : world) (x : option result).
Hypothesis Hk : find ks k = Some ps.
Hypothesis Hl : List.length es = List.length ps.
Hypothesis Ht : Forall2 (fun p v => get r (snd p) = Ret (fst v)) (firstn (List.length vs) ps) vs.
Hypothesis E : Evs M r known start F b offs G ks es w w' vs x.

Lemma jump_layout i id t l v : nth_error ps i = Some (id, t) -> nth_error vs i = Some (l, v) -> get r t = Ret l.
Proof.
  intros Hp Hv. pose proof (nth_bound _ _ _ Hv) as Bv. assert (Hp' : nth_error (firstn (List.length vs) ps) i = Some (id, t)).
  { rewrite nth_firstn. destruct (Nat.ltb_spec i (List.length vs)); [exact Hp | lia]. }
  pose proof Ht as Ht'. clear -Ht' Hp' Hv. revert i Hp' Hv. induction Ht' as [|p u ps' vs' H _ IH]; intros [|i] Hp Hv; cbn in *; try discriminate; eauto.
  injection Hp as ->. injection Hv as ->. exact H.
Qed.
Definition moved (c : kont) (hi : nat) (n m : nat) (K : konts) (g0 : gstate) (s0 : state) (i : nat) (g : gstate) (w : world) (s : state) : Prop :=
  Inv K G ks n m g w s /\ depth g = depth g0 /\ conts g = conts g0 /\ rest s0 s /\ kept (k_lo c) (c_depth (k_cont c)) (k_hi c) s0 s /\
  (forall a, lev n <= a < start -> mem s a = mem s0 a) /\
  exists j, chain j (skipn i ps) hi /\ (k_j c <= j)%nat /\ Forall2 (param_at b offs (mem s) (k_j c) j) (firstn i ps) (firstn i (map snd vs)).

Lemma jump_step c hi n m K g0 s0 i id t o l v g w1 s g1 w2 s1 : kont_ok M r F offs n m (depth g0) c -> k_params c = ps -> (hi <= k_hi c)%nat -> konts_ok K ks n m g0 -> Z.of_nat m <= depth g0 ->
  nth_error ps i = Some (id, t) -> find offs id = Some o -> nth_error vs i = Some (l, v) -> good l ->
  moved c hi n m K g0 s0 i g w1 s -> At K G ks n m g s g1 w2 s1 -> 8 * depth g1 = 8 * depth g + taken l -> has l v s1 ->
  let cc := store (at_rbp o) (in_stack l) in
  moved c hi n m K g0 s0 (Datatypes.S i) (set_depth (depth g1 + snd cc) g1) w2 (run (fst cc) s1).
Proof.
  intros (Kp & Klo & Kj & (i' & Kc & Ki) & (Kd1 & Kd2) & _) Eps Hhi Ko Lm Hp Ho Hv Gl (Iv & D & Co & Re & Kt & Ks & j & Ch & Lj & Pa) A De V cc. setting.
  pose proof (jump_layout _ _ _ _ _ Hp Hv) as Hg. pose proof (type_room _ _ Hg) as Tr. pose proof (good_usable _ Gl) as U.
  rewrite (skipn_nth _ _ _ Hp) in Ch. inversion Ch as [|? ? ? ? j2 ? [A1 A2] Ch']; subst. rewrite Ho in A1. injection A1 as ->.
  pose proof (chain_le _ _ _ _ _ Ch') as Lc.
  destruct (top X A) as (T1 & T2 & T3 & T4 & T5 & T6). pose proof (i_levels Iv) as Lnm. unfold ProofsInv.lev in T4, T5, T6.
  destruct (store_level l v j2 s1 (i_rbp (a_inv A)) U V) as (H1 & H2 & H3 & H4 & H5 & H6).
  { unfold ProofsInv.lev. lia. }
  fold cc in H1, H2, H3, H4, H5, H6. set (s' := run (fst cc) s1) in *. unfold ProofsInv.lev in H4.
  pose proof (a_kept A) as Ka. unfold ProofsInv.kept, ProofsInv.lev in Ka. unfold ProofsInv.kept, ProofsInv.lev in Kt. unfold ProofsInv.lev in Ks.
  split; [|split; [|split; [|split; [|split; [|split]]]]].
  - eapply inv_store; [exact Ko | | | exact Lm | exact (a_inv A) | exact H4 | | exact H5 | apply H6, (i_norm (a_inv A)) |]; cbn [set_depth depth conts].
    + lia.
    + rewrite (a_conts A). exact Co.
    + unfold ProofsInv.lev. lia.
    + lia.
  - cbn [set_depth depth]. lia.
  - cbn [set_depth conts]. rewrite (a_conts A). exact Co.
  - eapply rest_trans; [exact Re|]. eapply rest_trans; [apply (a_rest A) | exact H5].
  - intros a Ha Hn. unfold ProofsInv.lev in Hn. rewrite H4 by lia. rewrite Ka by lia. apply Kt; lia.
  - intros a Ha. unfold ProofsInv.lev in Ha. rewrite H4 by lia. rewrite Ka by lia. apply Ks; lia.
  - exists j2. split; [exact Ch'|]. split; [lia|].
    rewrite (firstn_snoc _ _ _ Hp), (firstn_snoc (map snd vs) i v) by (apply (map_nth_error snd) in Hv; exact Hv). apply Forall2_app.
    + eapply Forall2_impl'; [|exact Pa]. intros p u Hpu. eapply param_later; [exact Hpu | lia|]. unfold ProofsInv.lev. intros a Ha. rewrite H4 by lia. apply Ka; lia.
    + constructor; [|constructor]. exists (Frame.Model.offset_of j2). cbn [fst]. split; [exact Ho|]. pose proof (has_length _ _ _ V) as Lv. unfold length_of in Lv. pose proof (room_size l).
      unfold Frame.Model.offset_of, ProofsInv.lev in *. split; [lia|]. split; [lia|]. replace (b + Z.of_nat j2 * -8) with (b - 8 * Z.of_nat j2) by lia. exact H1.
Qed.

Lemma jump_ok used g c0 og g' K n m c p s : gen_each gen (map (set_param offs) (map fst ps)) es g = Ret (c0, og, g') -> Forall (fine used) es -> incl (map fst (conts g)) used ->
  code_at p c0 -> Forall (placed n m) es -> Inv K G ks n m g w s -> find K k = Some c -> k_params c = ps ->
  leads (fun cf => match x with
                   | None => exists s' hi, cf = Config F (p + List.length c0) s' (fst w') /\ (hi <= k_hi c)%nat /\ moved c hi n m K g s (List.length ps) g' w' s'
                   | Some o => exists i g1 w1 s1 hi, moved c hi n m K g s i g1 w1 s1 /\ leaves K n o w' s1 cf
                   end) (Config F p s (fst w)).
Proof.
  intros H Fi Iu C Pl Iv Hc Ep. destruct (proj1 (i_konts Iv) k c Hc) as [_ Kok]. pose proof Kok as (Kp & Klo & Kj & (hi & Kc & Ki) & Kd & _).
  eapply leads_trans; [refine (each_ok _ _ _ _ _ _ _ _ _ _ _ _ _ _ E _ used _ _ _ _ H _ Fi Iu K n m p s (moved c hi n m K g s) C Pl _ _ _)|].
  - rewrite !map_length. symmetry. exact Hl.
  - intros i g1 w1 s1 R. apply R.
  - intros i k0 l v cc g1 w1 s1 g2 w2 s2 Hk0 Hv Gl Hcc R A De V. destruct (after_params _ _ _ _ _ Hk0 Hcc) as (id & t & o & Hp & Ho & ->).
    eapply jump_step; try eassumption; [apply Iv | apply Iv].
  - split; [exact Iv|]. repeat (split; [reflexivity || apply rest_refl || apply kept_refl|]). exists (k_j c). rewrite Ep in Kc. split; [exact Kc|]. split; [lia | constructor].
  - intros cf Hcf. apply leads_here. destruct x as [o|].
    + destruct Hcf as (i & g1 & w1 & s1 & R). exists i, g1, w1, s1, hi. exact R.
    + destruct Hcf as (s' & -> & R). exists s', hi. rewrite <- Hl. auto.
Qed.
End Jump.

Lemma jump_code k es t g c og g' : gen (RContCall k es t) g = Ret (c, og, g') -> exists k0 c1 o1 g1 c2, find (conts g) k = Some k0 /\
  gen_each gen (map (set_param offs) (c_params k0)) es g = Ret (c1, o1, g1) /\ c = c1 ++ c2 /\
  (o1 = Some tt -> c2 = [Jmp (c_label k0)] /\ c_depth k0 = depth g1).
Proof.
  intros H. cbn [Model.gen] in H. destruct (find (conts g) k) as [k0|]; [|discriminate]. apply andthen_inv in H. destruct H as (c1 & o1 & g1 & H & Hr).
  exists k0, c1, o1, g1. destruct o1 as [[]|].
  - destruct Hr as (c2 & Hr & ->). exists c2. split; [reflexivity|]. split; [exact H|]. split; [reflexivity|]. intros _.
    destruct (Z.eqb_spec (c_depth k0) (depth g1)); [|discriminate]. injection Hr as <- _ _. auto.
  - destruct Hr as (-> & _). exists []. rewrite app_nil_r. split; [reflexivity|]. split; [exact H|]. split; [reflexivity | discriminate].
Qed.
Lemma ev_jump G ks k ps es t w w' ls vs : find ks k = Some ps -> Evs M r known start F b offs G ks es w w' (combine ls vs) None -> List.length vs = List.length ls ->
  Forall2 (fun p l => get r (snd p) = Ret l) ps ls -> Peval G ks (RContCall k es t) w w' (OJump k vs).
Proof.
  intros Hk E Lv Ht used g c og g' H Fi Iu. split; [apply stat_abrupt; [exact Logic.I|]; intros _ N; inversion N as [? N1 _]; now elim (N1 k es t)|].
  destruct (jump_code _ _ _ _ _ _ _ H) as (k0 & c1 & o1 & g1 & c2 & Hf & He & -> & Hr).
  assert (Fe : Forall (fine used) es). { apply Forall_forall. intros y Hy. apply (fine_of y Fi eq_refl Hy). }
  pose proof (Evs_length _ _ _ _ _ _ _ _ _ _ _ _ _ E) as Le. rewrite combine_length in Le.
  assert (Lp : List.length ps = List.length ls) by (clear -Ht; induction Ht; cbn; congruence).
  assert (Ht' : Forall2 (fun p v => get r (snd p) = Ret (fst v)) (firstn (List.length (combine ls vs)) ps) (combine ls vs)).
  { rewrite combine_length, firstn_all2 by lia. clear -Ht Lv. revert vs Lv. induction Ht as [|p l ps ls H _ IH]; intros [|v vs] L; cbn in *; try discriminate; constructor; auto. }
  apply by_abrupt; [exact Logic.I|]. intros K n m p s C P A. pose proof (a_inv A) as Iv. apply code_at_app in C. destruct C as [C C2]. apply plain in P; [|reflexivity].
  destruct (proj2 (i_konts Iv) k ps Hk) as (c & Hc & Ep). destruct (proj1 (i_konts Iv) k c Hc) as [Hfc Kok]. rewrite Hf in Hfc. injection Hfc as ->.
  destruct Kok as (Kp & Klo & Kj & Kc & Kd & q & Hq). rewrite Kp, Ep in He.
  assert (O1 : o1 = Some tt). { refine (proj1 (each_static _ _ _ _ _ _ _ _ _ _ _ _ _ _ E _ (fun _ => depth g) used _ _ _ _ He _ Fe Iu eq_refl _)).
    - rewrite !map_length. unfold param in *. lia.
    - intros i k1 l v cc Hk1 Hv Gl Hcc. destruct (after_params _ _ _ _ _ Hk1 Hcc) as (id & t0 & o & _ & _ & ->).
      pose proof (store_var_static (at_rbp o) l (good_usable l Gl) (rbp_ok _)). lia. }
  assert (Le2 : List.length es = List.length ps) by (unfold param in *; lia). destruct (Hr O1) as [-> Ed]. eapply leads_trans; [exact (jump_ok _ _ _ _ _ _ _ _ _ Le2 Ht' E used _ _ _ _ K n m c p s He Fe Iu C P Iv Hc Ep)|].
  intros cf (s' & hi & -> & Lhi & Iv' & D & Co & Re & Kt & _ & j & Ch & Lj & Pa).
  rewrite skipn_all in Ch. inversion Ch; subst. eapply leads_jmp; [exact C2 | exact Hq|]. apply leads_here. exists s', c, q.
  split; [exact Hc|]. split; [exact Hq|]. split; [reflexivity|]. split; [rewrite Ed; apply Iv'|]. split; [apply Iv'|]. split; [apply Iv'|]. split; [exact Kt|]. split; [exact Re|].
  rewrite map_snd_combine, !firstn_all2 in Pa by (unfold param in *; lia). eapply Forall2_impl'; [|exact Pa]. intros p0 u Hu. eapply param_later; [exact Hu | exact Lhi|]. reflexivity.
Qed.
Lemma ev_jump_abrupt G ks k ps es t w w' vs o : find ks k = Some ps -> List.length es = List.length ps -> Evs M r known start F b offs G ks es w w' vs (Some o) ->
  Forall2 (fun p v => get r (snd p) = Ret (fst v)) (firstn (List.length vs) ps) vs -> Peval G ks (RContCall k es t) w w' o.
Proof.
  intros Hk Le E Ht used g c og g' H Fi Iu. pose proof (Evs_abrupt _ _ _ _ _ _ _ _ _ _ _ _ _ _ E) as Ab.
  split; [apply stat_abrupt; [exact Ab|]; intros _ N; inversion N as [? N1 _]; now elim (N1 k es t)|].
  destruct (jump_code _ _ _ _ _ _ _ H) as (k0 & c1 & o1 & g1 & c2 & Hf & He & -> & _).
  assert (Fe : Forall (fine used) es). { apply Forall_forall. intros y Hy. apply (fine_of y Fi eq_refl Hy). }
  assert (Je : Forall jumpless es). { inversion Fi as [? ? [O _] _]; subst. exact O. }
  apply by_abrupt; [exact Ab|]. intros K n m p s C P A. pose proof (a_inv A) as Iv. apply code_at_app in C. destruct C as [C C2]. apply plain in P; [|reflexivity].
  destruct (proj2 (i_konts Iv) k ps Hk) as (c & Hc & Ep). destruct (proj1 (i_konts Iv) k c Hc) as [Hfc Kok]. rewrite Hf in Hfc. injection Hfc as ->.
  destruct Kok as (Kp & Klo & Kj & Kc & Kd & q & Hq). rewrite Kp, Ep in He.
  assert (O1 : ~ is_jump o). { intros J. refine (each_static _ _ _ _ _ _ _ _ _ _ _ _ _ _ E _ (fun _ => depth g) used _ _ _ _ He _ Fe Iu eq_refl _ J Je).
    - rewrite !map_length. unfold param in *. lia.
    - intros i k1 l v cc Hk1 Hv Gl Hcc. destruct (after_params _ _ _ _ _ Hk1 Hcc) as (id & t0 & o' & _ & _ & ->).
      pose proof (store_var_static (at_rbp o') l (good_usable l Gl) (rbp_ok _)). lia. }
  eapply leads_trans; [exact (jump_ok _ _ _ _ _ _ _ _ _ Le Ht E used _ _ _ _ K n m c p s He Fe Iu C P Iv Hc Ep)|].
  intros cf (i & g2 & w2 & s2 & hi & (Iv' & D & Co & Re & Kt & Ks & _) & Hlv). apply leads_here.
  destruct o as [|k' vs'|l v]; [destruct Ab | now elim O1|]. destruct Hlv as (s' & q' & E1 & E2 & Gl & V & No & He' & Re' & Rs & Km).
  exists s', q'. repeat (split; [assumption|]). split; [eapply rest_trans; eassumption|]. split; [exact Rs|]. intros a Ha. rewrite Km by exact Ha. now apply Ks.
Qed.
End Cases.
