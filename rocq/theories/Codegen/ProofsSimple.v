(** Variables, functions, constants and operators of one operand. *)
From Coq Require Import ZArith Lia.
From Verif.Base Require Import Base.
From Verif.Ir Require Import Model RtInd.
From Verif.Layout Require Import Model Spec Proofs ProofsResolve.
From Verif.Frame Require Model.
From Verif.Frame Require Spec Proofs.
From Verif.Stack Require Import Machine Model Spec Facts Proofs ProofsValue ProofsMove.
From Verif.Codegen Require Import Float Alu Operators Model Machine Spec Facts ProofsGen ProofsFrame ProofsRun ProofsInv ProofsNum ProofsBlock ProofsStatic ProofsEval.
Local Open Scope Z_scope.

Section Cases.
Variable M : machine.
Variable r : resolver.
Variable known : nat -> bool.
Variable start : Z.
Variable F : nat.
Variable b : Z.
Variable offs : list (nat * Z).
Hypothesis X : setting M r start F b.

Notation heap_ok := (heap_ok start).
Notation leads := (leads M).
Notation code_at := (code_at M F).
Notation chain := (chain (type_words r) offs).
Notation placed := (placed (type_words r) offs).
Notation placed_lets := (placed_lets (type_words r) offs).
Notation kept := (kept start b).
Notation lev := (lev b).
Notation vars_ok := (vars_ok start b offs).
Notation konts_ok := (konts_ok M r F offs).
Notation Inv := (Inv M r start F b offs).
Notation At := (At M r start F b offs).
Notation leaves := (leaves M start F b offs).
Notation gen := (gen r known offs).
Notation fine := (fine (balanced r)).
Notation world := (world (memo M)).
Notation fun_address := (fun f => address M f 0).

Notation Dyn := (Dyn M r start F b offs).
Notation Peval := (Peval M r start F b offs known).
Ltac setting := let a := fresh "Xb" in let c := fresh "Xs" in pose proof (x_below X) as a; pose proof (x_start X) as c.
Ltac pos := repeat rewrite app_length; cbn [fst keep map List.length]; unfold at_rdi; lia.

Lemma plain n m x : placed n m x -> Proofs.unbinding x = true -> Forall (placed n m) (children x).
Proof. intros P U. destruct P; try discriminate U. assumption. Qed.
Lemma fine_of used x y : fine used x -> introduced x = [] -> In y (children x) -> fine used y.
Proof. intros H E I. apply fine_children in H; [|exact E]. rewrite Forall_forall in H. auto. Qed.
Lemma layout_good t l : get r t = Ret l -> good l.
Proof. apply (reached_good r (x_layouts X)). Qed.

(** Values in registers that are set directly. *)
Lemma has_imm l s z : composite l = None -> cls l = Integer -> (1 <= size l <= 8)%N -> gp s Rax = wrap z -> has l (number (length_of l) z) s.
Proof.
  intros C E S H. apply has_small; try assumption. split; [apply number_length|]. intros i y Hi. apply nth_number in Hi. destruct Hi as [Hi ->].
  rewrite H. apply byte_wrap. unfold length_of in Hi. lia.
Qed.
Lemma taken_integer l : cls l = Integer -> taken l = 0.
Proof. unfold taken. now intros ->. Qed.

Lemma ev_var G ks id t w l v : find G id = Some v -> get r t = Ret l -> List.length v = size_nat l -> Peval G ks (RVar id t) w w (OVal l v).
Proof.
  intros Hf Hg Hl used g c og g' H Fi Iu. cbn [Model.gen] in H. apply need_then in H. destruct H as (l' & E & H). rewrite Hg in E. injection E as <-.
  apply need_then in H. destruct H as (o & Eo & H). apply emit_then in H. destruct H as (c2 & H & ->). apply ret_inv in H. destruct H as (-> & -> & ->).
  rewrite app_nil_r. pose proof (layout_good t l Hg) as Gl. pose proof (good_usable l Gl) as U.
  pose proof (load_var_static (at_rbp o) l U (rbp_ok o)) as Sd. pose proof (taken_bounds l) as Tb. split.
  - cbn [stat]. repeat (split; [reflexivity || assumption|]). cbn [set_depth depth]. lia.
  - apply by_value. intros K n m p s Q C P A HQ. eapply leads_run; [exact C|]. rewrite map_length in HQ.
    destruct (top X A) as (T1 & T2 & T3 & T4 & T5 & T6).
    destruct (i_vars (a_inv A) id v Hf) as (o' & Ef & V1 & V2 & V3).
    unfold offset_for in Eo. rewrite Ef in Eo. injection Eo as <-.
    assert (Ea : ea (at_rbp o') s = b + o') by (unfold ea; cbn [at_rbp base index disp]; rewrite (i_rbp (a_inv A)); lia).
    destruct (load_var (at_rbp o') l v s U (rbp_ok o') Hl) as (H1 & H2 & H3 & H4 & H5).
    + now rewrite Ea.
    + rewrite Ea. unfold ProofsInv.lev in *. lia.
    + apply HQ; [|exact H1]. eapply (at_run X _ _ _ A); [apply clean_load | exact H4 | lia | now apply rest_same | lia | lia].
Qed.

Lemma ev_fun G ks f t w : Peval G ks (RStaticFun (CtId f) t None) w w (OVal l_clos (pointer (fun_address f) ++ pointer 0)).
Proof.
  intros used g c og g' H Fi Iu. cbn [Model.gen] in H. apply out_then in H. destruct H as (c2 & H & ->). destruct (known f); [|discriminate].
  apply out_then in H. destruct H as (c3 & H & ->). apply ret_inv in H. destruct H as (-> & -> & ->). split.
  - cbn [stat]. split; [reflexivity|]. split; [apply (layout_good (CtClos [] CtUnit)); reflexivity | change (taken l_clos) with 0; lia].
  - apply by_value. intros K n m p s Q C P A HQ. apply code_at_app in C. destruct C as [C1 C2]. rewrite app_nil_r in *.
    eapply leads_set; [exact C1|]. eapply leads_address; [exact C2|]. eapply leads_pos; [|apply HQ].
    + cbn. lia.
    + apply (at_set X); [apply (at_set X); [exact A | reflexivity | intros _; apply Z.mod_pos_bound; reflexivity] | reflexivity | intros _; apply (x_addresses X)].
    + apply has_two; [reflexivity | reflexivity | reflexivity|]. rewrite app_length. unfold pointer. rewrite !number_length. split; [reflexivity|].
      rewrite firstn_app, number_length, firstn_all2 by (rewrite number_length; lia). rewrite skipn_app, number_length, skipn_all2 by (rewrite number_length; lia).
      cbn [Nat.sub firstn skipn]. rewrite app_nil_r. split; intros i z Hz; apply nth_number in Hz; destruct Hz as [_ ->]; reflexivity.
Qed.
Lemma ev_fun_env G ks f t a w w' v : Peval G ks a w w' (OVal l_pointer v) ->
  Peval G ks (RStaticFun (CtId f) t (Some a)) w w' (OVal l_clos (pointer (fun_address f) ++ v)).
Proof.
  intros Pa used g c og g' H Fi Iu. cbn [Model.gen] in H. apply andthen_inv in H. destruct H as (ca & oa & ga & Ha & H).
  destruct (sub_val Pa Ha (fine_of _ _ _ Fi eq_refl (or_introl eq_refl)) Iu)
    as (c1 & g1 & c2 & H1 & -> & Gl & De & Co & Dy).
  apply emit_inv in H1. destruct H1 as (-> & -> & ->). destruct H as (c3 & H & ->). destruct (known f); [|discriminate].
  apply out_then in H. destruct H as (c4 & H & ->). apply ret_inv in H. destruct H as (-> & -> & ->). change (taken l_pointer) with 0 in De. split.
  - cbn [stat]. split; [reflexivity|]. split; [apply (layout_good (CtClos [] CtUnit)); reflexivity | change (taken l_clos) with 0; cbn [set_depth depth keep snd]; lia].
  - apply by_value. intros K n m p s Q C P A HQ. rewrite app_nil_r in *. rewrite <- app_assoc in C. apply code_at_app in C. destruct C as [C Cm].
    apply code_at_app in Cm. destruct Cm as [Cm Cf].
    eapply use_val; [exact Dy | exact C | | exact A|].
    { apply plain in P; [|reflexivity]. inversion P; assumption. }
    intros s1 A1 _ _ V1. eapply leads_emit; [exact Cm|]. eapply leads_address; [exact Cf|]. eapply leads_pos; [|apply HQ].
    + rewrite !app_length. cbn [List.length]. lia.
    + cbn [fst keep run step]. apply (at_set X); [|reflexivity | intros _; apply (x_addresses X)].
      eapply same_next; [apply (at_set X); [exact A1 | reflexivity|] | cbn [set_depth depth keep snd]; lia | reflexivity]. intros _. apply A1. reflexivity.
    + pose proof (has_length _ _ _ V1) as Lv. apply has_small in V1; [|reflexivity | reflexivity | cbn; lia]. destruct V1 as [_ V1].
      change (length_of l_pointer) with 8%nat in Lv.
      apply has_two; [reflexivity | reflexivity | reflexivity|]. rewrite app_length. unfold pointer. rewrite !number_length. split; [lia|].
      rewrite firstn_app, number_length, firstn_all2 by (rewrite number_length; lia). rewrite skipn_app, number_length, skipn_all2 by (rewrite number_length; lia).
      cbn [Nat.sub firstn skipn]. rewrite app_nil_r. split; intros i z Hz.
      * apply nth_number in Hz. destruct Hz as [_ ->]. reflexivity.
      * apply V1 in Hz. exact Hz.
Qed.

(** ** Constants *)
Lemma integer_layout t s l : t = CtS s \/ t = CtU s -> get r t = Ret l -> (size l <= 8)%N -> composite l = None /\ cls l = Integer /\ (1 <= size l <= 8)%N.
Proof.
  intros Ht H S. assert (E : l = l_integer (next_power_of_two ((N.of_nat s + 7) / 8))) by (destruct Ht as [-> | ->]; cbn in H; congruence).
  destruct (npow_spec s) as (k & Ek & _). rewrite Ek in E. subst l. unfold l_integer, new in *. cbn [size cls composite] in *.
  assert (P : (0 < 2 ^ k)%N) by (apply N.neq_0_lt_0, N.pow_nonzero; lia).
  destruct (N.eqb_spec (2 ^ k) 0) as [|_]; [lia|]. 
  destruct (N.eqb_spec (2 ^ k + pad (2 ^ k) (2 ^ k)) 0); [lia|]. destruct (N.ltb_spec 16 (2 ^ k + pad (2 ^ k) (2 ^ k))); [lia|].
  split; [reflexivity|]. split; [reflexivity | lia].
Qed.
Lemma put_rax G ks x w l v g z : composite l = None -> cls l = Integer -> (1 <= size l <= 8)%N -> v = number (length_of l) z -> good l ->
  stat x (OVal l v) g (Some l) g /\ Dyn G ks x w w (OVal l v) g [Imm Rax z] g.
Proof.
  intros C1 C2 C3 -> Gl. split.
  - cbn [stat]. split; [reflexivity|]. split; [exact Gl|]. rewrite taken_integer by exact C2. lia.
  - apply by_value. intros K n m p s Q C P A HQ. eapply leads_set; [exact C|]. apply HQ.
    + apply (at_set X); [exact A | reflexivity | intros _; apply Z.mod_pos_bound; reflexivity].
    + apply has_imm; try assumption. reflexivity.
Qed.
Lemma nothing_done G ks x w g : stat x (OVal l_unit []) g (Some l_unit) g /\ Dyn G ks x w w (OVal l_unit []) g [] g.
Proof.
  split.
  - cbn [stat]. split; [reflexivity|]. split; [apply (layout_good CtUnit); reflexivity | change (taken l_unit) with 0; lia].
  - apply by_value. intros K n m p s Q C P A HQ. eapply leads_pos; [|apply HQ; [exact A | apply has_unit]]. cbn. lia.
Qed.
Lemma ev_const G ks c w l v : const_value r c l v -> Peval G ks (RConst c) w w (OVal l v).
Proof.
  intros Hc used g cc og g' H Fi Iu. cbn [Model.gen] in H. destruct c as [t sg z|t z|z|z|t z|]; cbn [const_value gen_const] in Hc, H; try contradiction.
  - destruct t; try contradiction; destruct Hc as (Hg & Sz & ->); apply out_then in H; destruct H as (c2 & H & ->);
      apply need_inv in H; destruct H as (l' & E & -> & -> & ->); rewrite Hg in E; injection E as <-;
      (destruct (integer_layout _ _ _ ltac:(eauto) Hg Sz) as (C1 & C2 & C3)); rewrite app_nil_r; apply put_rax; auto; eapply layout_good; exact Hg.
  - destruct Hc as [-> ->]. apply out_then in H. destruct H as (c2 & H & ->). apply ret_inv in H. destruct H as (-> & -> & ->).
    rewrite app_nil_r. apply put_rax; try reflexivity; [split; discriminate | apply (layout_good CtChar); reflexivity].
  - destruct Hc as [-> ->]. apply ret_inv in H. destruct H as (-> & -> & ->). apply nothing_done.
Qed.
Lemma ev_nullary G ks o w l v : nullary_value r o l v -> Peval G ks (RNullary o) w w (OVal l v).
Proof.
  intros Hc used g cc og g' H Fi Iu. cbn [Model.gen] in H. destruct o as [t|t| |t|t]; cbn [nullary_value gen_nullary] in Hc, H; try contradiction.
  - destruct Hc as (Hg & ->). apply need_then in H. destruct H as (l' & E & H). rewrite Hg in E. injection E as <-.
    apply emit_then in H. destruct H as (c2 & H & ->). apply ret_inv in H. destruct H as (-> & -> & ->). rewrite app_nil_r.
    pose proof (layout_good t l Hg) as Gl. pose proof (good_usable l Gl) as U. unfold is_memory.
    destruct (cls l) eqn:Ec; cbn [class_eqb]; (split; [cbn [stat]; split; [reflexivity|]; split; [exact Gl|] | apply by_value; intros K n m p s Q C P A HQ]).
    all: try (unfold taken; rewrite Ec; cbn [set_depth depth nothing snd]; lia).
    all: try (eapply leads_pos; [|apply HQ; [eapply same_next; [exact A | cbn [set_depth depth nothing snd]; lia | reflexivity] | apply has_any, U]]; cbn; lia).
    + cbn [set_depth depth]. pose proof (extend_static l). unfold taken. rewrite Ec. lia.
    + eapply leads_emit; [exact C|]. apply HQ; [apply (at_extend X l A) | apply has_any, U].
  - destruct Hc as (-> & ->). apply out_then in H. destruct H as (c2 & H & ->). apply ret_inv in H. destruct H as (-> & -> & ->).
    rewrite app_nil_r. apply put_rax; try reflexivity; [split; discriminate | apply good_pointer].
  - destruct Hc as (lt & Ht & Hg & ->). apply need_then in H. destruct H as (l' & E & H). rewrite Ht in E. injection E as <-.
    apply out_then in H. destruct H as (c2 & H & ->). apply need_inv in H. destruct H as (l' & E & -> & -> & ->). rewrite Hg in E. injection E as <-.
    cbn in Hg. injection Hg as <-. rewrite app_nil_r. apply put_rax; try reflexivity; [split; discriminate | apply (layout_good (CtU 64)); reflexivity].
  - destruct Hc as (lt & Ht & Hg & ->). apply need_then in H. destruct H as (l' & E & H). rewrite Ht in E. injection E as <-.
    apply out_then in H. destruct H as (c2 & H & ->). apply need_inv in H. destruct H as (l' & E & -> & -> & ->). rewrite Hg in E. injection E as <-.
    cbn in Hg. injection Hg as <-. rewrite app_nil_r. apply put_rax; try reflexivity; [split; discriminate | apply (layout_good (CtU 64)); reflexivity].
Qed.

(** ** Operators *)
Lemma size_pos l : good l -> cls l = Integer -> (1 <= size l)%N.
Proof.
  intros Gl E. destruct (proj1 (good_usable l Gl)) as [_ Z]. destruct (N.eq_dec (size l) 0) as [H|H]; [|lia]. apply Z in H. congruence.
Qed.
Lemma same_value al l v v' o (g : gstate) w K G ks n m g0 s0 p s Q : At K G ks n m g0 s0 g w s -> has al v s -> (has al v s -> has l v' s) ->
  (forall s', At K G ks n m g0 s0 g w s' -> has l v' s' -> leads Q (Config F (p + List.length (o : list item)) s' (fst w))) -> o = [] -> leads Q (Config F p s (fst w)).
Proof. intros A V H HQ ->. eapply leads_pos; [|apply HQ; [exact A | auto]]. cbn. lia. Qed.

Lemma lxor_land x y z : Z.land (Z.lxor x y) z = Z.lxor (Z.land x z) (Z.land y z).
Proof.
  apply Z.bits_inj'. intros k _. rewrite Z.lxor_spec, !Z.land_spec, Z.lxor_spec.
  destruct (Z.testbit x k), (Z.testbit y k), (Z.testbit z k); reflexivity.
Qed.
Definition unary_done K G ks n m g0 s0 (w : world) g g' c al l v v' : Prop :=
  forall p s Q, At K G ks n m g0 s0 g w s -> 8 * depth g0 + taken al <= 8 * depth g -> code_at p c -> has al v s ->
  (forall s', At K G ks n m g0 s0 g' w s' -> has l v' s' -> leads Q (Config F (p + List.length c) s' (fst w))) -> leads Q (Config F p s (fst w)).
Lemma at_block K G ks n m g0 s0 g (w : world) s s' : At K G ks n m g0 s0 g w s -> undisturbed s s' -> At K G ks n m g0 s0 g w s'.
Proof.
  clear known. intros A (U1 & U2 & U3 & U4). setting. eapply at_regs; [lia | exact A | exact U1 | exact U2 | exact U3 | apply U4, A].
Qed.
Lemma unary_block K G ks n m g0 s0 w g is al l v v' :
  (forall s, has al v s -> exists s', block is s = Some s' /\ undisturbed s s' /\ has l v' s') -> unary_done K G ks n m g0 s0 w g g [Block is] al l v v'.
Proof.
  intros H p s Q A De C V HQ. destruct (H s V) as (s' & B & U & V'). eapply leads_block; [exact C | exact B|]. apply HQ; [eapply at_block; eassumption | exact V'].
Qed.
Lemma width_of_int w l w' : integral w l -> width_of (size l) = Ret w' -> w' = w.
Proof. intros (_ & _ & ->) H. destruct w; cbn in H; congruence. Qed.
Lemma taken_floating w l : floating w l -> taken l = 0.
Proof. intros (_ & E & _). unfold taken. now rewrite E. Qed.
Lemma taken_integral w l : integral w l -> taken l = 0.
Proof. intros (_ & E & _). now apply taken_integer. Qed.
Lemma unary_ok o a al v l v' (w : world) g c og g' : gen_unary r o a al g = Ret (c, og, g') -> good al -> unary_value r (snd w) o a al v l v' ->
  (og = Some l /\ good l /\ 8 * depth g' + taken al = 8 * depth g + taken l) /\
  forall K G ks n m g0 s0, unary_done K G ks n m g0 s0 w g g' c al l v v'.
Proof.
  intros H Ga Hu. pose proof (good_usable al Ga) as Ua.
  destruct o as [ | |t0 i|t| | |t| |t| |t| |t|t|t|t|t|t|t|t| | | | | | | | | | | | | ]; cbn [gen_unary unary_value] in H, Hu; try contradiction.
  - (* not *)
    destruct Hu as (-> & -> & z & -> & ->). apply out_then in H. destruct H as (c2 & H & ->). apply ret_inv in H. destruct H as (-> & -> & ->).
    rewrite app_nil_r. split; [repeat (split; [reflexivity || assumption|]); lia|]. intros K G ks n m g0 s0 p s Q A De C V HQ.
    eapply leads_flip; [exact C|]. apply HQ.
    + apply (at_set X); [exact A | reflexivity|]. intros _. apply lxor_bound; [apply A; reflexivity | lia].
    + apply has_small in V; [|reflexivity | reflexivity | split; discriminate]. destruct V as [_ V]. specialize (V 0%nat z eq_refl).
      apply has_small; [reflexivity | reflexivity | split; discriminate|]. split; [reflexivity|].
      intros [|[|i]] y Hy; cbn in Hy; try discriminate. injection Hy as <-. change (gp (set_gp Rax (Z.lxor (gp s Rax) 1) s) Rax) with (Z.lxor (gp s Rax) 1).
      rewrite <- V. unfold byte. cbn [Z.of_nat Z.mul]. rewrite !Z.shiftr_0_r, lxor_land. reflexivity.
  - (* load *)
    destruct Hu as (-> & t & pp & Ht & Hg & Rp & -> & Lv & Rd). apply need_then in H. destruct H as (t' & E & H). rewrite Ht in E. injection E as <-. cbn iota in H.
    apply need_then in H. destruct H as (l' & E & H). cbn [ptr_elem] in E. unfold bind in E. rewrite Hg in E. injection E as <-.
    apply emit_then in H. destruct H as (c2 & H & ->). apply emit_then in H. destruct H as (c3 & H & ->). apply ret_inv in H. destruct H as (-> & -> & ->).
    pose proof (layout_good t l Hg) as Gl. pose proof (good_usable l Gl) as U. pose proof (load_static at_rdi l U (rdi_ok 0)) as Sd.
    pose proof (taken_bounds l) as Tb. rewrite app_nil_r. change (taken l_pointer) with 0 in *. split; [repeat (split; [reflexivity || assumption|]); cbn [set_depth depth keep snd]; lia|].
    intros K G ks n m g0 s0 p s Q A De C V HQ. apply code_at_app in C. destruct C as [C1 C2]. eapply leads_emit; [exact C1|]. eapply leads_emit; [exact C2|].
    eapply leads_pos; [|apply HQ]; [rewrite app_length; lia | |]; cbn [fst keep run step].
    all: assert (Er : gp s Rax = pp) by (apply has_pointer; [apply A | exact Rp | exact V]); rewrite Er.
    all: assert (A1 : At K G ks n m g0 s0 g w (set_gp Rdi pp s)) by (apply (at_set X); [exact A | reflexivity | discriminate]).
    all: set (s1 := set_gp Rdi pp s) in *; assert (Ea : ea at_rdi s1 = pp) by (unfold ea, s1; cbn [at_rdi base index disp]; change (gp (set_gp Rdi pp s) Rdi) with pp; lia).
    all: destruct (top X A1) as (T1 & T2 & T3 & T4 & T5 & T6); setting.
    all: destruct (load_has at_rdi l v' s1 U (rdi_ok 0) Lv) as (H1 & H2 & H3 & H4 & H5);
      [rewrite Ea; eapply heap_reads; [apply A1 | exact Rd] | rewrite Ea|].
    all: try (destruct v' as [|y v']; [intros x Hx; unfold size_nat in Lv; cbn in Lv; lia|]; 
      assert (start <= pp) by (eapply reads_start; [apply A1 | exact Rd | discriminate]); intros x Hx; lia).
    + eapply same_next; [eapply (at_run X _ _ _ A1); [apply (clean_load at_rdi l) | exact H4 | lia | now apply rest_same | lia | lia]| |reflexivity].
      cbn [set_depth depth keep snd]. lia.
    + exact H1.
  - (* struct-elem *)
    destruct Hu as (es & cs & off & Hc & Hn & Hk & ->). apply need_then in H. destruct H as ([c0 e0] & E & H). cbn [fst snd] in H.
    assert (e0 = l). { unfold struct_elem in E. rewrite Hc, Hn in E. destruct (_ || _); congruence. } subst e0.
    apply emit_then in H. destruct H as (c2 & H & ->). apply ret_inv in H. destruct H as (-> & -> & ->). rewrite app_nil_r.
    destruct (good_elem al es cs off l Ga Hc (nth_error_In _ _ Hn)) as [Gl Le]. pose proof (good_usable l Gl) as U.
    pose proof (struct_elem_static al i es cs off l c0 Ua U Le Hc Hn Hk E) as Sd. split; [repeat (split; [reflexivity || assumption|]); cbn [set_depth depth]; lia|].
    intros K G ks n m g0 s0 p s Q A De C (bs & Vm & Vv) HQ. eapply leads_emit; [exact C|].
    destruct (struct_elem_at al i es cs off l bs s c0 Ua U Le Hc Hn Vv Hk E) as (H1 & H2 & H3 & H4 & H5).
    destruct (top X A) as (T1 & T2 & T3 & _). pose proof (taken_bounds l). pose proof (taken_bounds al). apply HQ.
    + eapply (at_run X _ _ _ A); [eapply clean_struct_elem; exact E | exact H4 | lia | now apply rest_same | lia | lia].
    + eexists. split; [|exact H1]. now apply vmatch_part.
  - (* reinterpret *)
    destruct Hu as (Hg & ->). apply need_then in H. destruct H as (l' & E & H). rewrite Hg in E. injection E as <-.
    apply emit_then in H. destruct H as (c2 & H & ->). apply ret_inv in H. destruct H as (-> & -> & ->). rewrite app_nil_r.
    pose proof (layout_good t l Hg) as Gl. pose proof (good_usable l Gl) as U. pose proof (reinterpret_static al l Ua U) as Sd.
    split; [repeat (split; [reflexivity || assumption|]); cbn [set_depth depth]; lia|].
    intros K G ks n m g0 s0 p s Q A De C (bs & Vm & Vv) HQ. eapply leads_emit; [exact C|].
    destruct (reinterpret_ok al l bs s Ua U Vv) as (bs' & H1 & H1' & H2 & H3 & H4 & H5).
    destruct (top X A) as (T1 & T2 & T3 & _). pose proof (taken_bounds l). pose proof (taken_bounds al). apply HQ.
    + eapply (at_run X _ _ _ A); [apply clean_reinterpret | exact H4 | lia | now apply rest_same | lia | lia].
    + exists bs'. split; [|exact H1]. pose proof (proj1 H1) as Lb'. pose proof (proj1 Vv) as Lb. pose proof (proj1 Vm) as Lm. split.
      * unfold undefined, size_nat, length_of in *. rewrite app_length, firstn_length, repeat_length. lia.
      * intros i z Hi. assert (Bd : (i < Nat.min (length_of al) (length_of l))%nat /\ nth_error v i = Some (Some z)).
        { destruct (Nat.lt_ge_cases i (List.length (firstn (size_nat l) v))) as [Lt|Ge].
          - rewrite nth_error_app1 in Hi by exact Lt. rewrite firstn_length in Lt. rewrite nth_firstn in Hi. unfold size_nat, length_of in *.
            destruct (Nat.ltb_spec i (N.to_nat (size l))); [|discriminate]. split; [lia | exact Hi].
          - rewrite nth_error_app2 in Hi by exact Ge. apply nth_error_In, repeat_spec in Hi. discriminate. }
        destruct Bd as [Bd Hv]. assert (Eb : nth_error (firstn (Nat.min (length_of al) (length_of l)) bs') i = nth_error (firstn (Nat.min (length_of al) (length_of l)) bs) i) by now rewrite H1'.
        rewrite !nth_firstn in Eb. destruct (Nat.ltb_spec i (Nat.min (length_of al) (length_of l))); [|lia]. rewrite Eb. apply Vm, Hv.
  - (* syntax-body *)
    destruct Hu as (-> & t & pp & Ht & Hg & Rp & -> & Lv & Rd). apply need_then in H. destruct H as (t' & E & H). rewrite Ht in E. injection E as <-. cbn iota in H.
    apply need_then in H. destruct H as (l' & E & H). cbn [syntax_body] in E. unfold bind in E. rewrite Hg in E. injection E as <-.
    apply emit_then in H. destruct H as (c2 & H & ->). apply emit_then in H. destruct H as (c3 & H & ->). apply ret_inv in H. destruct H as (-> & -> & ->).
    pose proof (layout_good t l Hg) as Gl. pose proof (good_usable l Gl) as U. change (plus at_rdi 8) with (Addr Rdi None 8) in *. pose proof (load_static (Addr Rdi None 8) l U (rdi_ok 8)) as Sd.
    pose proof (taken_bounds l) as Tb. rewrite app_nil_r. change (taken l_syntax) with 0 in *. split; [repeat (split; [reflexivity || assumption|]); cbn [set_depth depth keep snd]; lia|].
    intros K G ks n m g0 s0 p s Q A De C V HQ. apply code_at_app in C. destruct C as [C1 C2]. eapply leads_emit; [exact C1|]. eapply leads_emit; [exact C2|].
    eapply leads_pos; [|apply HQ]; [rewrite app_length; lia | |]; cbn [fst keep run step].
    all: assert (Er : gp s Rax = pp) by (apply has_pointer; [apply A | lia | exact V]); rewrite Er.
    all: assert (A1 : At K G ks n m g0 s0 g w (set_gp Rdi pp s)) by (apply (at_set X); [exact A | reflexivity | discriminate]).
    all: set (s1 := set_gp Rdi pp s) in *; assert (Ea : ea (Addr Rdi None 8) s1 = pp + 8) by (unfold ea, s1; cbn [base index disp]; change (gp (set_gp Rdi pp s) Rdi) with pp; lia).
    all: destruct (top X A1) as (T1 & T2 & T3 & T4 & T5 & T6); setting.
    all: destruct (load_has (Addr Rdi None 8) l v' s1 U (rdi_ok 8) Lv) as (H1 & H2 & H3 & H4 & H5);
      [rewrite Ea; eapply heap_reads; [apply A1 | exact Rd] | rewrite Ea|].
    all: try (destruct v' as [|y v']; [intros x Hx; unfold size_nat in Lv; cbn in Lv; lia|]; 
      assert (start <= pp + 8) by (eapply reads_start; [apply A1 | exact Rd | discriminate]); intros x Hx; lia).
    + eapply same_next; [eapply (at_run X _ _ _ A1); [apply (clean_load (Addr Rdi None 8) l) | exact H4 | lia | now apply rest_same | lia | lia]| |reflexivity].
      cbn [set_depth depth keep snd]. lia.
    + exact H1.
  - (* bit-cast *)
    destruct Hu as [-> ->]. apply ret_inv in H. destruct H as (-> & -> & ->). split; [auto|].
    intros K G ks n m g0 s0 p s Q A De C V HQ. eapply same_value with (o := []); eauto.
  - destruct Hu as [-> ->]. apply ret_inv in H. destruct H as (-> & -> & ->). split; [auto|].
    intros K G ks n m g0 s0 p s Q A De C V HQ. eapply same_value with (o := []); eauto.
  - destruct Hu as [-> ->]. apply ret_inv in H. destruct H as (-> & -> & ->). split; [auto|].
    intros K G ks n m g0 s0 p s Q A De C V HQ. eapply same_value with (o := []); eauto.
  - (* complement *)
    destruct Hu as (k & x & z & (Ik & Bx & ->) & Hz & -> & ->). apply need_then in H. destruct H as (w' & E & H). rewrite (width_of_int _ _ _ Ik E) in *.
    apply out_then in H. destruct H as (c2 & H & ->). apply ret_inv in H. destruct H as (-> & -> & ->). rewrite app_nil_r.
    split; [repeat (split; [reflexivity || assumption|]); lia|]. intros K G ks n m g0 s0. apply unary_block. intros s V. apply has_number in V; [|exact Ik]. rewrite (low_id _ _ Bx) in V.
    destruct (complement_block k x z s Bx V Hz) as (s' & B1 & B2 & B3). exists s'. split; [exact B1|]. split; [exact B2|]. now apply has_number.
  - (* trunc *)
    destruct Hu as (Hg & I1 & I2 & N1 & N2 & Sz & ->). apply need_inv in H. destruct H as (l' & E & -> & -> & ->). rewrite Hg in E. injection E as <-.
    pose proof (layout_good t l Hg) as Gl. split; [split; [reflexivity|]; split; [exact Gl|]; rewrite !taken_integer by assumption; lia|].
    pose proof (size_pos l Gl I2). intros K G ks n m g0 s0 p s Q A De C V HQ. eapply same_value with (o := []); [exact A | exact V | | exact HQ | reflexivity].
    intros _. apply has_small in V; [|assumption | assumption | lia]. destruct V as [Lv V]. apply has_small; [assumption | assumption | lia|].
    unfold size_nat, length_of in *. split; [rewrite firstn_length; lia|]. intros i z Hi. rewrite nth_firstn in Hi. destruct (i <? N.to_nat (size l))%nat; [|discriminate]. now apply V.
  - (* popcount *)
    destruct Hu as (k & x & z & (Ik & Bx & ->) & Hz & -> & ->). apply need_then in H. destruct H as (w' & E & H). rewrite (width_of_int _ _ _ Ik E) in *.
    apply out_then in H. destruct H as (c2 & H & ->). apply ret_inv in H. destruct H as (-> & -> & ->). rewrite app_nil_r.
    split; [repeat (split; [reflexivity || assumption|]); lia|]. intros K G ks n m g0 s0. apply unary_block. intros s V. apply has_number in V; [|exact Ik]. rewrite (low_id _ _ Bx) in V.
    destruct (popcount_block k x z s Bx V Hz) as (s' & B1 & B2 & B3). exists s'. split; [exact B1|]. split; [exact B2|]. now apply has_number.
  - (* sign-extend *)
    destruct Hu as (k & x & k' & z & (Ik & Bx & ->) & Hg & Ik' & Hz & ->). apply need_then in H. destruct H as (l' & E & H). rewrite Hg in E. injection E as <-.
    apply need_then in H. destruct H as (is & E & H). rewrite (width_size k al), (width_size k' l) in E by tauto.
    apply out_then in H. destruct H as (c2 & H & ->). apply ret_inv in H. destruct H as (-> & -> & ->). rewrite app_nil_r. pose proof (layout_good t l Hg) as Gl.
    split; [repeat (split; [reflexivity || assumption|]); rewrite (taken_integral _ _ Ik), (taken_integral _ _ Ik'); lia|]. intros K G ks n m g0 s0. apply unary_block. intros s V. apply has_number in V; [|exact Ik].
    destruct (extend_block (USExt t) k k' x z is s Bx ltac:(now rewrite (low_id _ _ Bx) in V) Hz E) as (s' & B1 & B2 & B3); exists s'. split; [exact B1|]. split; [exact B2|]. now apply has_number.
  - (* zero-extend *)
    destruct Hu as (k & x & k' & z & (Ik & Bx & ->) & Hg & Ik' & Hz & ->). apply need_then in H. destruct H as (l' & E & H). rewrite Hg in E. injection E as <-.
    apply need_then in H. destruct H as (is & E & H). rewrite (width_size k al), (width_size k' l) in E by tauto.
    apply out_then in H. destruct H as (c2 & H & ->). apply ret_inv in H. destruct H as (-> & -> & ->). rewrite app_nil_r. pose proof (layout_good t l Hg) as Gl.
    split; [repeat (split; [reflexivity || assumption|]); rewrite (taken_integral _ _ Ik), (taken_integral _ _ Ik'); lia|]. intros K G ks n m g0 s0. apply unary_block. intros s V. apply has_number in V; [|exact Ik].
    destruct (extend_block (UUExt t) k k' x z is s Bx ltac:(now rewrite (low_id _ _ Bx) in V) Hz E) as (s' & B1 & B2 & B3); exists s'. split; [exact B1|]. split; [exact B2|]. now apply has_number.
  - (* from a signed integer *)
    destruct Hu as (k & x & k' & z & (Ik & Bx & ->) & Hg & Ik' & Hz & ->). apply need_then in H. destruct H as (l' & E & H). rewrite Hg in E. injection E as <-.
    apply need_then in H. destruct H as (is & E & H). rewrite (width_size k al), (width_size k' l) in E by tauto.
    apply out_then in H. destruct H as (c2 & H & ->). apply ret_inv in H. destruct H as (-> & -> & ->). rewrite app_nil_r. pose proof (layout_good t l Hg) as Gl.
    split; [repeat (split; [reflexivity || assumption|]); rewrite (taken_integral _ _ Ik), (taken_floating _ _ Ik'); lia|]. intros K G ks n m g0 s0. apply unary_block. intros s V. apply has_number in V; [|exact Ik].
    destruct (to_float_block (USToF t) k k' x z is s Bx ltac:(now rewrite (low_id _ _ Bx) in V) Hz (proj2 (proj2 (proj2 Ik'))) E) as (s' & B1 & B2 & B3); exists s'. split; [exact B1|]. split; [exact B2|]. now apply has_float.
  - (* from an unsigned integer *)
    destruct Hu as (k & x & k' & z & (Ik & Bx & ->) & Hg & Ik' & Hz & ->). apply need_then in H. destruct H as (l' & E & H). rewrite Hg in E. injection E as <-.
    apply need_then in H. destruct H as (is & E & H). rewrite (width_size k al), (width_size k' l) in E by tauto.
    apply out_then in H. destruct H as (c2 & H & ->). apply ret_inv in H. destruct H as (-> & -> & ->). rewrite app_nil_r. pose proof (layout_good t l Hg) as Gl.
    split; [repeat (split; [reflexivity || assumption|]); rewrite (taken_integral _ _ Ik), (taken_floating _ _ Ik'); lia|]. intros K G ks n m g0 s0. apply unary_block. intros s V. apply has_number in V; [|exact Ik].
    destruct (to_float_block (UUToF t) k k' x z is s Bx ltac:(now rewrite (low_id _ _ Bx) in V) Hz (proj2 (proj2 (proj2 Ik'))) E) as (s' & B1 & B2 & B3); exists s'. split; [exact B1|]. split; [exact B2|]. now apply has_float.
  - (* to a signed integer *)
    destruct Hu as (k & x & k' & z & (Ik & Bx & ->) & Hg & Ik' & Hz & ->). apply need_then in H. destruct H as (l' & E & H). rewrite Hg in E. injection E as <-.
    apply need_then in H. destruct H as (is & E & H). rewrite (width_size k al), (width_size k' l) in E by tauto.
    apply out_then in H. destruct H as (c2 & H & ->). apply ret_inv in H. destruct H as (-> & -> & ->). rewrite app_nil_r. pose proof (layout_good t l Hg) as Gl.
    split; [repeat (split; [reflexivity || assumption|]); rewrite (taken_floating _ _ Ik), (taken_integral _ _ Ik'); lia|]. intros K G ks n m g0 s0. apply unary_block. intros s V. apply has_float in V; [|exact Ik].
    destruct (to_int_block (UFToS t) k k' x z is s V Hz (proj2 (proj2 (proj2 Ik))) E) as (s' & B1 & B2 & B3); exists s'. split; [exact B1|]. split; [exact B2|]. now apply has_number.
  - (* to an unsigned integer *)
    destruct Hu as (k & x & k' & z & (Ik & Bx & ->) & Hg & Ik' & Hz & ->). apply need_then in H. destruct H as (l' & E & H). rewrite Hg in E. injection E as <-.
    apply need_then in H. destruct H as (is & E & H). rewrite (width_size k al), (width_size k' l) in E by tauto.
    apply out_then in H. destruct H as (c2 & H & ->). apply ret_inv in H. destruct H as (-> & -> & ->). rewrite app_nil_r. pose proof (layout_good t l Hg) as Gl.
    split; [repeat (split; [reflexivity || assumption|]); rewrite (taken_floating _ _ Ik), (taken_integral _ _ Ik'); lia|]. intros K G ks n m g0 s0. apply unary_block. intros s V. apply has_float in V; [|exact Ik].
    destruct (to_int_block (UFToU t) k k' x z is s V Hz (proj2 (proj2 (proj2 Ik))) E) as (s' & B1 & B2 & B3); exists s'. split; [exact B1|]. split; [exact B2|]. now apply has_number.
  - (* to a shorter one *)
    destruct Hu as (k & x & k' & z & (Ik & Bx & ->) & Hg & Ik' & Hz & ->). apply need_then in H. destruct H as (l' & E & H). rewrite Hg in E. injection E as <-.
    apply need_then in H. destruct H as (is & E & H). rewrite (width_size k al), (width_size k' l) in E by tauto.
    apply out_then in H. destruct H as (c2 & H & ->). apply ret_inv in H. destruct H as (-> & -> & ->). rewrite app_nil_r. pose proof (layout_good t l Hg) as Gl.
    split; [repeat (split; [reflexivity || assumption|]); rewrite (taken_floating _ _ Ik), (taken_floating _ _ Ik'); lia|]. intros K G ks n m g0 s0. apply unary_block. intros s V. apply has_float in V; [|exact Ik].
    destruct (convert_block (UFTrunc t) k k' x z is s V Hz E) as (s' & B1 & B2 & B3); exists s'. split; [exact B1|]. split; [exact B2|]. now apply has_float.
  - (* to a longer one *)
    destruct Hu as (k & x & k' & z & (Ik & Bx & ->) & Hg & Ik' & Hz & ->). apply need_then in H. destruct H as (l' & E & H). rewrite Hg in E. injection E as <-.
    apply need_then in H. destruct H as (is & E & H). rewrite (width_size k al), (width_size k' l) in E by tauto.
    apply out_then in H. destruct H as (c2 & H & ->). apply ret_inv in H. destruct H as (-> & -> & ->). rewrite app_nil_r. pose proof (layout_good t l Hg) as Gl.
    split; [repeat (split; [reflexivity || assumption|]); rewrite (taken_floating _ _ Ik), (taken_floating _ _ Ik'); lia|]. intros K G ks n m g0 s0. apply unary_block. intros s V. apply has_float in V; [|exact Ik].
    destruct (convert_block (UFExt t) k k' x z is s V Hz E) as (s' & B1 & B2 & B3); exists s'. split; [exact B1|]. split; [exact B2|]. now apply has_float.
  - (* string-ptr *)
    destruct Hu as (S16 & I1 & N1 & -> & ->). apply ret_inv in H. destruct H as (-> & -> & ->).
    split; [split; [reflexivity|]; split; [apply good_pointer|]; rewrite !taken_integer by (assumption || reflexivity); lia|].
    intros K G ks n m g0 s0 p s Q A De C V HQ. eapply same_value with (o := []); [exact A | exact V | | exact HQ | reflexivity].
    intros _. apply has_two in V; try assumption. destruct V as (Lv & V & _). apply has_small; [reflexivity | reflexivity | split; discriminate|].
    split; [rewrite firstn_length; change (length_of l_pointer) with 8%nat; lia | exact V].
  - (* string-length *)
    destruct Hu as (S16 & I1 & N1 & -> & ->). apply emit_then in H. destruct H as (c2 & H & ->). apply ret_inv in H. destruct H as (-> & -> & ->).
    rewrite app_nil_r. split; [split; [reflexivity|]; split; [apply (layout_good (CtU 64)); reflexivity|]; rewrite !taken_integer by (assumption || reflexivity); cbn [set_depth depth keep snd]; lia|].
    intros K G ks n m g0 s0 p s Q A De C V HQ. eapply leads_emit; [exact C|]. apply HQ; cbn [fst keep run step].
    + eapply same_next; [apply (at_set X); [exact A | reflexivity | intros _; apply A; reflexivity] | cbn [set_depth depth keep snd]; lia | reflexivity].
    + apply has_two in V; try assumption. destruct V as (Lv & _ & V). apply has_small; [reflexivity | reflexivity | split; discriminate|].
      split; [rewrite skipn_length; change (length_of (l_integer 8)) with 8%nat; lia | exact V].
  - (* array-ptr *)
    destruct Hu as (S16 & I1 & N1 & -> & ->). apply ret_inv in H. destruct H as (-> & -> & ->).
    split; [split; [reflexivity|]; split; [apply good_pointer|]; rewrite !taken_integer by (assumption || reflexivity); lia|].
    intros K G ks n m g0 s0 p s Q A De C V HQ. eapply same_value with (o := []); [exact A | exact V | | exact HQ | reflexivity].
    intros _. apply has_two in V; try assumption. destruct V as (Lv & V & _). apply has_small; [reflexivity | reflexivity | split; discriminate|].
    split; [rewrite firstn_length; change (length_of l_pointer) with 8%nat; lia | exact V].
  - (* array-length *)
    destruct Hu as (S16 & I1 & N1 & -> & ->). apply emit_then in H. destruct H as (c2 & H & ->). apply ret_inv in H. destruct H as (-> & -> & ->).
    rewrite app_nil_r. split; [split; [reflexivity|]; split; [apply (layout_good (CtU 64)); reflexivity|]; rewrite !taken_integer by (assumption || reflexivity); cbn [set_depth depth keep snd]; lia|].
    intros K G ks n m g0 s0 p s Q A De C V HQ. eapply leads_emit; [exact C|]. apply HQ; cbn [fst keep run step].
    + eapply same_next; [apply (at_set X); [exact A | reflexivity | intros _; apply A; reflexivity] | cbn [set_depth depth keep snd]; lia | reflexivity].
    + apply has_two in V; try assumption. destruct V as (Lv & _ & V). apply has_small; [reflexivity | reflexivity | split; discriminate|].
      split; [rewrite skipn_length; change (length_of (l_integer 8)) with 8%nat; lia | exact V].
Qed.
Lemma ev_unary G ks o a w w' al v l v' : Peval G ks a w w' (OVal al v) -> unary_value r (snd w') o a al v l v' ->
  Peval G ks (RUnary o a) w w' (OVal l v').
Proof.
  intros Pa Hu used g c og g' H Fi Iu. cbn [Model.gen] in H.
  destruct (sub_val Pa H (fine_of _ _ _ Fi eq_refl (or_introl eq_refl)) Iu)
    as (c1 & g1 & c2 & H1 & -> & Ga & De & Co & Dy).
  destruct (unary_ok _ _ _ _ _ _ w' _ _ _ _ H1 Ga Hu) as [(-> & Gl & De') Du]. split.
  - cbn [stat]. split; [reflexivity|]. split; [exact Gl | lia].
  - apply by_value. intros K n m p s Q C P A HQ. apply code_at_app in C. destruct C as [C1 C2].
    eapply use_val; [exact Dy | exact C1 | | exact A|].
    { apply plain in P; [|reflexivity]. inversion P; assumption. }
    intros s1 A1 _ _ V1. eapply Du; [exact A1 | lia | exact C2 | exact V1|]. intros s2 A2 V2. eapply leads_pos; [|apply HQ; [exact A2 | exact V2]]. rewrite app_length. lia.
Qed.
End Cases.
Arguments layout_good {M r start F b} X {t l}.
Arguments plain {r offs n m x}.
Arguments fine_of {r used x} y.
Arguments at_block {M r start F b offs} X {K G ks n m g0 s0 g w s s'}.
