(** Variables. *)
From Coq Require Import ZArith Lia.
From Verif.Base Require Import Base.
From Verif.Ir Require Import Model RtInd.
From Verif.Layout Require Import Model Spec Proofs ProofsResolve.
From Verif.Frame Require Model.
From Verif.Frame Require Spec Proofs.
From Verif.Stack Require Import Machine Model Spec Facts Proofs ProofsValue ProofsMove.
From Verif.Codegen Require Import Model Machine Spec Facts ProofsGen ProofsFrame ProofsRun ProofsInv ProofsStatic ProofsEval ProofsSimple ProofsHeap ProofsAlloc ProofsEach ProofsStruct ProofsJump.
Local Open Scope Z_scope.

Section Cases.
Variable M : machine.
Variable r : resolver.
Variable known : nat -> bool.
Variable start : Z.
Variable F : nat.
Variable b : Z.
Variable offs : list (nat * Z).
Hypothesis X : setting M r start F b.

Notation heap_ok := (heap_ok start).
Notation leads := (leads M).
Notation code_at := (code_at M F).
Notation chain := (chain (type_words r) offs).
Notation placed := (placed (type_words r) offs).
Notation placed_lets := (placed_lets (type_words r) offs).
Notation kept := (kept start b).
Notation lev := (lev b).
Notation vars_ok := (vars_ok start b offs).
Notation konts_ok := (konts_ok M r F offs).
Notation Inv := (Inv M r start F b offs).
Notation At := (At M r start F b offs).
Notation leaves := (leaves M start F b offs).
Notation gen := (gen r known offs).
Notation fine := (fine (balanced r)).
Notation world := (world (memo M)).
Notation fun_address := (fun f => address M f 0).

Notation Dyn := (Dyn M r start F b offs).
Notation Peval := (Peval M r start F b offs known).
Ltac setting := let a := fresh "Xb" in let c := fresh "Xs" in pose proof (x_below X) as a; pose proof (x_start X) as c.
Ltac pos := repeat rewrite app_length; cbn [fst keep map List.length]; unfold at_rdi; lia.
Lemma inv_level K G ks n j m g (w : world) s : Inv K G ks n m g w s -> (n <= j)%nat -> (j <= m)%nat -> Inv K G ks j m g w s.
Proof.
  clear known. intros [Rb Rs Le De No He Va [Ka Kb]] L U. split; try assumption.
  - intros id v Hf. destruct (Va id v Hf) as (o & E & A & B & C). exists o. unfold ProofsInv.lev in *. split; [exact E|]. split; [lia|]. auto.
  - split; [|exact Kb]. intros k c Hk. destruct (Ka k c Hk) as (Hf & H1 & H2 & H3 & H4 & H5 & H6). split; [exact Hf|]. unfold kont_ok. repeat (split; [first [assumption | lia]|]). assumption.
Qed.

(** Variables that get their values. *)
Inductive Lets : env -> Spec.conts -> list (nat * ct * rt) -> world -> world -> env + result -> Prop :=
| Lets_nil G ks w : Lets G ks [] w w (inl G)
| Lets_stop G ks id t e vs w w' o : Peval G ks e w w' o -> abrupt o -> Lets G ks ((id, t, e) :: vs) w w' (inr o)
| Lets_cons G ks id t e vs w w1 w2 l v x : get r t = Ret l -> Peval G ks e w w1 (OVal l v) -> Lets ((id, v) :: G) ks vs w1 w2 x -> Lets G ks ((id, t, e) :: vs) w w2 x.

Lemma has_length l v s : has l v s -> List.length v = length_of l.
Proof. clear. intros (bs & [Lm _] & L & _). lia. Qed.

(** A variable gets its value. *)
Lemma bind_variable K G ks n j m g g1 (w w1 : world) s s1 id t l v o : Inv K G ks n m g w s -> find offs id = Some (Frame.Model.offset_of j) -> (n + type_words r t <= j)%nat -> (j <= m)%nat ->
  get r t = Ret l -> good l -> o = Frame.Model.offset_of j -> At K G ks j m g s g1 w1 s1 -> 8 * depth g1 = 8 * depth g + taken l -> has l v s1 ->
  let cc := store (at_rbp o) (in_stack l) in let s2 := run (fst cc) s1 in let g2 := set_depth (depth g1 + snd cc) g1 in
  Inv K ((id, v) :: G) ks j m g2 w1 s2 /\ depth g2 = depth g /\ kept n (depth g) m s s2 /\ rest s s2.
Proof.
  clear known. intros Iv Hf Lj Lm Hg Gl -> A De V cc s2 g2. setting. pose proof (type_room _ _ _ Hg) as Tr. pose proof (taken_bounds l) as Tb. pose proof (has_length _ _ _ V) as Lv.
  destruct (top X A) as (T1 & T2 & T3 & T4 & T5 & T6).
  assert (Pr : gp s1 Rsp + taken l <= lev j) by (unfold ProofsInv.lev in *; lia).
  destruct (store_level b l v j s1 (i_rbp (a_inv A)) (good_usable l Gl) V Pr) as (H1 & H2 & H3 & H4 & H5 & H6). fold cc in H1, H2, H3, H4, H5, H6. fold s2 in H1, H2, H4, H5, H6.
  assert (Dg : depth g2 = depth g) by (unfold g2; cbn [set_depth depth]; lia).
  assert (Rl : Z.of_nat (length_of l) <= room l). { rewrite room_words. unfold words, length_of. pose proof (words_bounds l). lia. }
  assert (Ke : kept n (depth g) m s s2).
  { intros a Ha Hn. unfold ProofsInv.lev in *. rewrite H4 by lia. apply (a_kept A); unfold ProofsInv.lev; lia. }
  split; [|split; [exact Dg|]; split; [exact Ke | eapply rest_trans; [apply A | exact H5]]].
  split.
  - rewrite H5 by (reflexivity || discriminate). apply A.
  - rewrite H2, T1, Dg. lia.
  - apply A.
  - rewrite Dg. apply A.
  - apply H6, A.
  - eapply heap_same; [|exact (i_heap (a_inv A))]. intros a Ha. apply H4. unfold ProofsInv.lev in *. lia.
  - intros id' v' Hv. cbn [find] in Hv. destruct (Nat.eqb_spec id id') as [<-|Nid].
    + injection Hv as <-. exists (Frame.Model.offset_of j). split; [exact Hf|]. unfold Frame.Model.offset_of in *. unfold ProofsInv.lev in *.
      replace (b + Z.of_nat j * -8) with (b - 8 * Z.of_nat j) by lia. split; [lia|]. split; [lia | exact H1].
    + destruct (i_vars Iv id' v' Hv) as (o & E & A1 & A2 & A3). exists o. split; [exact E|]. unfold ProofsInv.lev in *. split; [lia|]. split; [exact A2|].
      eapply holds_ext; [exact A3|]. intros i Hi. apply Ke; unfold ProofsInv.lev; lia.
  - apply konts_later with g; [apply A | lia|]. unfold g2. cbn [set_depth conts]. apply A.
Qed.

Lemma lets_ok G ks vs w w' x : Lets G ks vs w w' x -> forall used g c og g', gen_lets offs gen vs g = Ret (c, og, g') -> Forall (fine used) (map snd vs) -> incl (map fst (conts g)) used ->
  match x with
  | inl _ => og = Some tt /\ depth g' = depth g /\ conts g' = conts g
  | inr o => abrupt o /\ (is_jump o -> ~ Forall jumpless (map snd vs))
  end /\
  forall K n m p s bd, code_at p c -> placed_lets n m vs bd -> Inv K G ks n m g w s ->
  leads (fun cf => match x with
                   | inl G' => exists s' j, cf = Config F (p + List.length c) s' (fst w') /\ (n <= j)%nat /\ placed j m bd /\ Inv K G' ks j m g' w' s' /\ kept n (depth g) m s s' /\ rest s s'
                   | inr o => leaves K n o w' s cf
                   end) (Config F p s (fst w)).
Proof.
  induction 1 as [G ks w | G ks id t e vs w w' o Pe Ab | G ks id t e vs w w1 w2 l v x Hg Pe L IH]; intros used g c og g' H Fi Iu; cbn [gen_lets] in H.
  - apply ret_inv in H. destruct H as (-> & -> & ->). split; [auto|]. intros K n m p s bd C P Iv. inversion P; subst. apply leads_here. exists s, n. cbn [List.length]. rewrite Nat.add_0_r.
    split; [reflexivity|]. split; [lia|]. split; [assumption|]. split; [exact Iv|]. split; [apply kept_refl | apply rest_refl].
  - cbn [map] in Fi. inversion Fi as [|? ? Fe _]; subst. destruct (sub_abrupt Pe Ab H Fe Iu) as (c1 & g1 & c2 & -> & J & De). split.
    + split; [exact Ab|]. intros Jo N. inversion N; subst. now apply (J Jo).
    + intros K n m p s bd C P Iv. inversion P as [|? ? ? ? ? ? ? j [Hf Lj] Lm Py Pv]; subst. apply code_at_app in C. destruct C as [C1 _].
      assert (Nj : (n <= j)%nat) by lia. pose proof (inv_level _ _ _ _ _ _ _ _ _ Iv Nj Lm) as Iv'.
      eapply leads_trans; [eapply use_abrupt; [exact De | exact Ab | exact C1 | exact Py | exact (at_refl Iv')]|]. intros cf Le. apply leads_here. eapply leaves_level; [exact Nj | exact Le].
  - cbn [map snd] in Fi. inversion Fi as [|? ? Fe Fv]; subst. destruct (sub_val Pe H Fe Iu) as (c1 & g1 & c2 & Hk & -> & Gl & D1 & Co1 & De).
    apply need_then in Hk. destruct Hk as (cs & Hs & Hk). apply emit_then in Hk. destruct Hk as (c3 & Hk & ->).
    unfold set_param, offset_for in Hs. destruct (find offs id) as [o|] eqn:Ho; cbn [bind] in Hs; [|discriminate]. injection Hs as <-.
    set (cs := store (at_rbp o) (in_stack l)) in *. set (g2 := set_depth (depth g1 + snd cs) g1) in *.
    assert (Ds : snd cs * 8 = - taken l) by exact (store_var_static (at_rbp o) l (good_usable l Gl) (rbp_ok _)).
    assert (D2 : depth g2 = depth g) by (unfold g2; cbn [set_depth depth]; lia).
    assert (Iu2 : incl (map fst (conts g2)) used) by (unfold g2; cbn [set_depth conts]; now rewrite Co1).
    destruct (IH used g2 c3 og g' Hk Fv Iu2) as [St Dy]. split.
    + destruct x as [G'|o']; [|split; [apply St|]; intros Jo N; inversion N; subst; now apply (proj2 St Jo)].
      destruct St as (-> & Dg & Cg). split; [reflexivity|]. split; [lia|]. rewrite Cg. unfold g2. cbn [set_depth conts]. exact Co1.
    + intros K n m p s bd C P Iv. inversion P as [|? ? ? ? ? ? ? j [Hf Lj] Lm Py Pv]; subst. apply code_at_app in C. destruct C as [C1 C]. apply code_at_app in C. destruct C as [C2 C3].
      assert (Nj : (n <= j)%nat) by lia. pose proof (inv_level _ _ _ _ _ _ _ _ _ Iv Nj Lm) as Iv'. assert (Eo : o = Frame.Model.offset_of j) by congruence.
      eapply use_val; [exact De | exact C1 | exact Py | exact (at_refl Iv')|]. intros s1 A1 _ _ V1. eapply leads_emit; [exact C2|].
      destruct (bind_variable _ _ _ _ _ _ _ _ _ _ _ _ _ _ _ _ _ Iv Hf Lj Lm Hg Gl Eo A1 D1 V1) as (Iv2 & _ & Ke2 & Re2). fold cs in Iv2, Ke2, Re2. fold g2 in Iv2. set (s2 := run (fst cs) s1) in *.
      eapply leads_trans; [exact (Dy K j m _ s2 bd C3 Pv Iv2)|]. intros cf Hc. apply leads_here. destruct x as [G'|o'].
      * destruct Hc as (s' & j' & -> & Lj' & Pb & Iv3 & Ke3 & Re3). exists s', j'. split; [f_equal; pos|]. split; [lia|]. split; [exact Pb|]. split; [exact Iv3|].
        split; [|eapply rest_trans; eassumption]. eapply kept_trans; [exact Ke2 | | apply Z.le_refl]. eapply kept_mono; [exact Ke3 | exact Nj | lia | lia].
      * eapply leaves_back; [exact (i_konts Iv) | apply Iv | apply Iv | exact Ke2 | exact Re2|]. eapply leaves_level; [exact Nj | exact Hc].
Qed.

Lemma lets_placed n m vs bd : placed n m (RLetVar vs bd) -> placed_lets n m vs bd.
Proof. inversion 1; subst; [discriminate | assumption]. Qed.

Lemma ev_let_abrupt G ks vs bd w w1 o : Lets G ks vs w w1 (inr o) -> Peval G ks (RLetVar vs bd) w w1 o.
Proof.
  intros L used g c og g' H Fi Iu. cbn [Model.gen] in H. apply andthen_inv in H. destruct H as (c1 & o1 & g1 & H & Hr).
  assert (Fe : Forall (fine used) (map snd vs)). { apply Forall_forall. intros y Hy. apply (fine_of y Fi eq_refl). apply in_or_app. now left. }
  destruct (lets_ok _ _ _ _ _ _ L used _ _ _ _ H Fe Iu) as [[Ab J] Dy].
  assert (C' : exists c2, c = c1 ++ c2). { destruct o1; [destruct Hr as (c2 & _ & ->); eauto | exists []; rewrite app_nil_r; apply Hr]. }
  destruct C' as (c2 & ->). split.
  - apply stat_abrupt; [exact Ab|]. intros Jo N. apply (J Jo). apply Forall_forall. intros y Hy. eapply jumpless_child; [exact N|]. apply in_or_app. now left.
  - apply by_abrupt; [exact Ab|]. intros K n m p s C P A. apply code_at_app in C. destruct C as [C _]. exact (Dy K n m p s bd C (lets_placed _ _ _ _ P) (a_inv A)).
Qed.
Lemma ev_let G ks vs bd G' w w1 w2 o : Lets G ks vs w w1 (inl G') -> Peval G' ks bd w1 w2 o -> Peval G ks (RLetVar vs bd) w w2 o.
Proof.
  intros L Pb used g c og g' H Fi Iu. cbn [Model.gen] in H. apply andthen_inv in H. destruct H as (c1 & o1 & g1 & H & Hr).
  assert (Fe : Forall (fine used) (map snd vs)). { apply Forall_forall. intros y Hy. apply (fine_of y Fi eq_refl). apply in_or_app. now left. }
  assert (Fb : fine used bd). { apply (fine_of bd Fi eq_refl). apply in_or_app. right. now left. }
  destruct (lets_ok _ _ _ _ _ _ L used _ _ _ _ H Fe Iu) as [(-> & D1 & Co1) Dy]. destruct Hr as (c2 & Hr & ->).
  assert (Iu1 : incl (map fst (conts g1)) used) by now rewrite Co1. destruct (Pb used _ _ _ _ Hr Fb Iu1) as [St Db]. split.
  - destruct o as [l v|k vs'|l v]; cbn [stat] in *; [destruct St as (E & Gl & De); split; [exact E|]; split; [exact Gl | lia] | | intros []].
    intros J N. apply (St J). eapply jumpless_child; [exact N|]. apply in_or_app. right. now left.
  - intros K n m p s C P Iv. apply code_at_app in C. destruct C as [C1 C2].
    eapply leads_trans; [exact (Dy K n m p s bd C1 (lets_placed _ _ _ _ P) Iv)|]. intros cf (s1 & j & -> & Nj & Pj & Iv1 & Ke1 & Re1).
    eapply leads_trans; [exact (Db K j m _ s1 C2 Pj Iv1)|]. intros cf He. apply leads_here.
    destruct o as [l v|k vs'|l v]; cbn [ending] in He |- *.
    + destruct He as (s2 & -> & A2 & V2). exists s2. split; [f_equal; pos|]. split; [|exact V2].
      eapply at_later; [exact (at_refl Iv) | | | apply A2 | apply A2 | apply A2 | rewrite <- D1; apply A2 | rewrite (a_conts A2); exact Co1].
      * eapply kept_trans; [exact Ke1 | | apply Z.le_refl]. eapply kept_mono; [exact (a_kept A2) | exact Nj | lia | lia].
      * eapply rest_trans; [exact Re1 | apply A2].
    + eapply leaves_back; [exact (i_konts Iv) | apply Iv | apply Iv | exact Ke1 | exact Re1|]. eapply leaves_level; [exact Nj | exact He].
    + eapply leaves_back; [exact (i_konts Iv) | apply Iv | apply Iv | exact Ke1 | exact Re1|]. eapply leaves_level; [exact Nj | exact He].
Qed.
End Cases.
