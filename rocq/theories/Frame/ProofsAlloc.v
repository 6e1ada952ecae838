(** * The allocation area, and when a frame exists *)
From Coq Require Import ZArith Permutation.
From Verif.Base Require Import Base.
From Verif.Ir Require Import Model RtInd.
From Verif.Frame Require Import Model Spec Proofs ProofsFun.

Section Alloc.
Variable words : ct -> nat.
Variable in_memory : ct -> bool.
Notation go := (go words).
Notation new := (new words in_memory).

Definition total (ts : list ct) : nat := sum (map words ts).

Lemma sum_app a b : sum (a ++ b) = sum a + sum b.
Proof. induction a as [|n a IH]; cbn; [reflexivity|]. rewrite IH. lia. Qed.
Lemma total_app a b : total (a ++ b) = total a + total b.
Proof. unfold total. now rewrite map_app, sum_app. Qed.

Definition counts (x : rt) : Prop := forall f f' ts, go x f = Ret f' -> allocs_in x ts -> allocs f' = allocs f + total ts.

Lemma gos_counts xs : Forall counts xs -> forall f f' tss, gos go xs f = Ret f' -> Forall2 allocs_in xs tss ->
  allocs f' = allocs f + total (List.concat tss).
Proof.
  induction 1 as [|x xs Hx _ IH]; intros f f' tss H A; inversion A as [|? ts ? tss' A1 A2]; subst; cbn in H.
  - injection H as <-. cbn. lia.
  - apply bind_ret in H. destruct H as (g & H1 & H2). cbn [List.concat]. rewrite total_app.
    rewrite (IH g f' tss' H2 A2), (Hx f g ts H1 A1). lia.
Qed.

Lemma lets_counts vs : Forall counts (map snd vs) -> forall f f' tss, go_lets words go vs f = Ret f' ->
  Forall2 allocs_in (map snd vs) tss -> allocs f' = allocs f + total (List.concat tss).
Proof.
  induction vs as [|[[id t] y] vs IH]; intros F f f' tss H A; cbn [map] in *; inversion A as [|? ts ? tss' A1 A2]; subst; cbn in H.
  - injection H as <-. cbn. lia.
  - inversion F as [|? ? Hy Hvs]; subst. apply bind_ret in H. destruct H as (g & H1 & H2). cbn [List.concat]. rewrite total_app.
    rewrite (IH Hvs g f' tss' H2 A2). rewrite (Hy _ g ts H1 A1). cbn. lia.
Qed.

Lemma add_vars_allocs ps : forall f, allocs (add_vars words ps f) = allocs f.
Proof. induction ps as [|[id t] ps IH]; intro f; cbn [add_vars]; [reflexivity|]. now rewrite IH. Qed.

Lemma conts_counts ks : Forall counts (map snd ks) -> forall f f' tss, go_conts words go ks f = Ret f' ->
  Forall2 allocs_in (map snd ks) tss -> allocs f' = allocs f + total (List.concat tss).
Proof.
  induction ks as [|[[k ps] y] ks IH]; intros F f f' tss H A; cbn [map] in *; inversion A as [|? ts ? tss' A1 A2]; subst; cbn in H.
  - injection H as <-. cbn. lia.
  - inversion F as [|? ? Hy Hks]; subst. apply bind_ret in H. destruct H as (g & H1 & H2). cbn [List.concat]. rewrite total_app.
    rewrite (IH Hks _ f' tss' H2 A2). cbn [allocs set_scope]. rewrite (Hy _ g ts H1 A1), add_vars_allocs. lia.
Qed.

(** The frame a form that binds nothing hands to its children. *)
Lemma go_unbinding_own x f f' : unbinding x = true -> go x f = Ret f' ->
  gos go (children x) (add_allocs (total (own_alloc x)) f) = Ret f'.
Proof.
  intros U H.
  assert (Z0 : add_allocs 0 f = f) by (destruct f; unfold add_allocs; cbn; f_equal; lia).
  assert (One : forall a g, go a g = Ret f' -> gos go [a] g = Ret f') by (intros a g K; cbn; now rewrite K).
  assert (Two : forall a b g, (let* h := go a g in go b h) = Ret f' -> gos go [a; b] g = Ret f').
  { intros a b g K. apply bind_ret in K. destruct K as (h & K1 & K2). cbn. rewrite K1. cbn. now rewrite K2. }
  assert (Three : forall a b c g, (let* h := go a g in let* h := go b h in go c h) = Ret f' ->
    gos go [a; b; c] g = Ret f').
  { intros a b c g K. apply bind_ret in K. destruct K as (h & K1 & K2). apply bind_ret in K2.
    destruct K2 as (h' & K2 & K3). cbn. rewrite K1. cbn. rewrite K2. cbn. now rewrite K3. }
  destruct x as [id t|fn t o|c|fn es|lb r es|k fn r es|k es r|o|o a|o a b|o a b c|l a|l t a|l es|t i es|t es
    |m a|es a|a b c|a b|a b|a b|a cs|a| |vs b|ks b]; cbn [Model.go] in H; try discriminate U;
    try (change (total (own_alloc _)) with 0; rewrite Z0; cbn [children]; solve [exact H|apply One, H|apply Two, H|apply Three, H]).
  - change (total (own_alloc _)) with 0. rewrite Z0. destruct o as [a|]; [apply One, H|exact H].
  - destruct l; cbn [is_static] in H; cbn [children own_alloc]; try (change (total []) with 0; rewrite Z0; apply One, H).
    apply bind_ret in H. destruct H as (t & T & H). rewrite T. apply One. destruct t as [t|].
    + unfold total. cbn [map sum]. now rewrite Nat.add_0_r.
    + cbn. now rewrite Z0.
  - destruct l; cbn [is_static] in H; try discriminate H; change (total (own_alloc _)) with 0; rewrite Z0; apply One, H.
  - destruct l; cbn [is_static] in H; try discriminate H; change (total (own_alloc _)) with 0; rewrite Z0; exact H.
  - change (total (own_alloc _)) with 0. rewrite Z0. cbn [children]. rewrite gos_app. apply bind_ret in H.
    destruct H as (g & H1 & H2). rewrite H1. apply One, H2.
  - change (total (own_alloc _)) with 0. rewrite Z0. cbn. apply bind_ret in H. destruct H as (g & H1 & H2).
    rewrite H1. cbn. now rewrite <- go_clauses_gos.
Qed.

Lemma forall2_app_l {A B} (R : A -> B -> Prop) xs ys zs : Forall2 R (xs ++ ys) zs ->
  exists a b, zs = a ++ b /\ Forall2 R xs a /\ Forall2 R ys b.
Proof.
  revert zs. induction xs as [|x xs IH]; intros zs H.
  - exists [], zs. split; [reflexivity|]. split; [constructor|exact H].
  - inversion H as [|? z ? zs' H1 H2]; subst. destruct (IH zs' H2) as (a & b & -> & P & Q).
    exists (z :: a), b. split; [reflexivity|]. split; [constructor; assumption|exact Q].
Qed.

Lemma concat_app {A} (a b : list (list A)) : List.concat (a ++ b) = List.concat a ++ List.concat b.
Proof. apply List.concat_app. Qed.

Lemma all_counts x : counts x.
Proof.
  induction x as [x IH] using rt_children_ind. change (Forall counts (children x)) in IH.
  intros f f' ts H A. inversion A as [? tss A1]; subst. rewrite total_app. destruct (unbinding x) eqn:U.
  - apply go_unbinding_own in H; [|exact U]. rewrite (gos_counts _ IH _ _ _ H A1). cbn. lia.
  - destruct x as [| | | | | | | | | | | | | | | | | | | | | | | | |vs b|ks b]; try discriminate U;
      change (total (own_alloc _)) with 0; cbn [children] in IH, A1; apply Forall_app in IH; destruct IH as [I1 I2];
      inversion I2 as [|? ? Hb _]; subst; apply forall2_app_l in A1; destruct A1 as (t1 & t2 & -> & A1 & A2);
      inversion A2 as [|? tb ? ? A3 A4]; subst; inversion A4; subst; cbn [Model.go] in H;
      rewrite concat_app, total_app; cbn [List.concat]; rewrite app_nil_r.
    + apply bind_ret in H. destruct H as (g & H1 & H). apply bind_ret in H. destruct H as (g' & H2 & H). injection H as <-.
      cbn. rewrite (Hb _ _ _ H2 A3), (lets_counts _ I1 _ _ _ H1 A1). lia.
    + apply bind_ret in H. destruct H as (g & H1 & H). rewrite (conts_counts _ I1 _ _ _ H A1). cbn.
      rewrite (Hb _ _ _ H1 A3). cbn. lia.
Qed.

Lemma frame_allocs f s ret ts : new f = Ret (s, ret) -> allocs_in (f_body f) ts -> allocs s = sum (map words ts).
Proof.
  intros H A. destruct (new_setup _ _ f s ret H) as (s0 & U & G). rewrite (all_counts _ _ _ _ G A).
  now rewrite (u_allocs _ _ _ _ _ U).
Qed.

(** ** Using the area *)

Lemma consumes_stacked ns : forall f, (sum ns <= allocs f)%nat -> exists os, consumes ns f = Ret os /\
  stacked (offset_of (vars f)) (offset_of (vars f + allocs f)) ns os.
Proof.
  induction ns as [|n ns IH]; intros f L; cbn [consumes].
  - exists []. split; [reflexivity|]. cbn. unfold offset_of. lia.
  - unfold consume. cbn [sum] in L. replace (n <=? allocs f) with true by (symmetry; apply Nat.leb_le; lia). cbn [bind].
    destruct (IH (Frame (offsets f) (vars f + n) (allocs f - n) (scope f))) as (os & H & S); [cbn; lia|].
    rewrite H. cbn [bind]. exists (offset_of (vars f + n) :: os). split; [reflexivity|]. cbn in S |- *. split; [unfold offset_of; lia|].
    replace (vars f + n + (allocs f - n)) with (vars f + allocs f) in S by lia. exact S.
Qed.

Lemma sum_perm a b : Permutation a b -> sum a = sum b.
Proof. induction 1; cbn; lia. Qed.

Lemma frame_area f s ret ts used rest : new f = Ret (s, ret) -> allocs_in (f_body f) ts -> Permutation ts (used ++ rest) ->
  exists os, consumes (map words used) s = Ret os /\
  stacked (- Z.of_nat (vars s) * 8) (- reserved s) (map words used) os.
Proof.
  intros H A P. pose proof (frame_allocs f s ret ts H A) as E. rewrite (sum_perm _ _ (Permutation_map words P)) in E.
  rewrite map_app, sum_app in E. destruct (consumes_stacked (map words used) s) as (os & C & S); [lia|].
  exists os. split; [exact C|]. unfold offset_of in S. unfold reserved.
  replace (- Z.of_nat (vars s) * 8)%Z with (Z.of_nat (vars s) * -8)%Z by lia.
  replace (- (Z.of_nat (vars s + allocs s) * 8))%Z with (Z.of_nat (vars s + allocs s) * -8)%Z by lia. exact S.
Qed.

(** ** When a frame exists *)

Definition runs (x : rt) : Prop := forall f, (exists f', go x f = Ret f') <-> supported x.

Lemma gos_runs xs : Forall runs xs -> forall f, (exists f', gos go xs f = Ret f') <-> Forall supported xs.
Proof.
  induction 1 as [|x xs Hx _ IH]; intro f; cbn.
  - split; [constructor|eauto].
  - split.
    + intros (f' & H). apply bind_ret in H. destruct H as (g & H1 & H2). constructor.
      * apply (Hx f). eauto.
      * apply (IH g). eauto.
    + intro S. inversion S as [|? ? S1 S2]; subst. apply (Hx f) in S1. destruct S1 as (g & S1). rewrite S1. cbn. apply (IH g), S2.
Qed.

Lemma lets_runs vs : Forall runs (map snd vs) -> forall f, (exists f', go_lets words go vs f = Ret f') <-> Forall supported (map snd vs).
Proof.
  induction vs as [|[[id t] y] vs IH]; intros F f; cbn [map] in *; cbn [go_lets].
  - split; [constructor|eauto].
  - inversion F as [|? ? Hx Hs]; subst. split.
    + intros (f' & H). apply bind_ret in H. destruct H as (g & H1 & H2). constructor.
      * apply (Hx (add_var words id t f)). eauto.
      * apply (IH Hs g). eauto.
    + intro S. inversion S as [|? ? S1 S2]; subst. apply (Hx (add_var words id t f)) in S1. destruct S1 as (g & S1). rewrite S1. cbn.
      apply (IH Hs g), S2.
Qed.

Lemma conts_runs ks : Forall runs (map snd ks) -> forall f, (exists f', go_conts words go ks f = Ret f') <-> Forall supported (map snd ks).
Proof.
  induction ks as [|[[k ps] y] ks IH]; intros F f; cbn [map] in *; cbn [go_conts].
  - split; [constructor|eauto].
  - inversion F as [|? ? Hx Hs]; subst. split.
    + intros (f' & H). apply bind_ret in H. destruct H as (g & H1 & H2). constructor.
      * apply (Hx (add_vars words ps f)). eauto.
      * apply (IH Hs (set_scope (scope f) g)). eauto.
    + intro S. inversion S as [|? ? S1 S2]; subst. apply (Hx (add_vars words ps f)) in S1. destruct S1 as (g & S1). rewrite S1. cbn.
      apply (IH Hs (set_scope (scope f) g)), S2.
Qed.

Lemma go_unbinding_ret x f f' : unbinding x = true -> own_supported x ->
  gos go (children x) (add_allocs (total (own_alloc x)) f) = Ret f' -> go x f = Ret f'.
Proof.
  intros U O H.
  assert (Z0 : add_allocs 0 f = f) by (destruct f; unfold add_allocs; cbn; f_equal; lia).
  assert (One : forall a g, gos go [a] g = Ret f' -> go a g = Ret f')
    by (intros a g K; cbn in K; apply bind_ret in K; destruct K as (h & K1 & K2); congruence).
  assert (Two : forall a b g, gos go [a; b] g = Ret f' -> (let* h := go a g in go b h) = Ret f').
  { intros a b g K. cbn [gos] in K. apply bind_ret in K. destruct K as (h & K1 & K2). rewrite K1. apply One, K2. }
  assert (Three : forall a b c g, gos go [a; b; c] g = Ret f' -> (let* h := go a g in let* h := go b h in go c h) = Ret f').
  { intros a b c g K. cbn [gos] in K. apply bind_ret in K. destruct K as (h & K1 & K2). rewrite K1. apply Two, K2. }
  destruct x as [id t|fn t o|c|fn es|lb r es|k fn r es|k es r|o|o a|o a b|o a b c|l a|l t a|l es|t i es|t es
    |m a|es a|a b c|a b|a b|a b|a cs|a| |vs b|ks b]; cbn [Model.go]; try discriminate U;
    try (change (total (own_alloc _)) with 0 in H; rewrite Z0 in H; cbn [children] in H;
      solve [exact H|apply One, H|apply Two, H|apply Three, H]).
  - change (total (own_alloc _)) with 0 in H. rewrite Z0 in H. destruct o as [a|]; [apply One, H|exact H].
  - destruct l; cbn [is_static]; cbn [children own_alloc] in H; try (change (total []) with 0 in H; rewrite Z0 in H; apply One, H).
    destruct O as (t & T). rewrite T in H |- *. cbn [bind]. destruct t as [t|]; apply One in H.
    + unfold total in H. cbn [map sum] in H. now rewrite Nat.add_0_r in H.
    + cbn in H. now rewrite Z0 in H.
  - destruct l; cbn [is_static]; try destruct O; change (total (own_alloc _)) with 0 in H; rewrite Z0 in H; apply One, H.
  - destruct l; cbn [is_static]; try destruct O; change (total (own_alloc _)) with 0 in H; rewrite Z0 in H; exact H.
  - change (total (own_alloc _)) with 0 in H. rewrite Z0 in H. cbn [children] in H. rewrite gos_app in H. apply bind_ret in H.
    destruct H as (g & H1 & H2). rewrite H1. apply One, H2.
  - change (total (own_alloc _)) with 0 in H. rewrite Z0 in H. cbn in H. apply bind_ret in H. destruct H as (g & H1 & H2).
    rewrite H1. cbn. now rewrite go_clauses_gos.
Qed.

Lemma go_own_supported x f f' : go x f = Ret f' -> own_supported x.
Proof.
  destruct x; cbn; try (intros; exact Logic.I).
  - destruct l; cbn; try (intros; exact Logic.I). intro H. apply bind_ret in H. destruct H as (t & T & _). eauto.
  - destruct l; cbn; try (intros; exact Logic.I). discriminate.
  - destruct l; cbn; try (intros; exact Logic.I). discriminate.
Qed.

Lemma all_runs x : runs x.
Proof.
  induction x as [x IH] using rt_children_ind. change (Forall runs (children x)) in IH. intro f. split.
  - intros (f' & H). pose proof (go_own_supported x f f' H) as O. constructor; [exact O|].
    destruct (unbinding x) eqn:U.
    + apply go_unbinding_own in H; [|exact U]. eapply (gos_runs _ IH). eauto.
    + destruct x as [| | | | | | | | | | | | | | | | | | | | | | | | |vs b|ks b]; try discriminate U;
        cbn [children] in *; apply Forall_app in IH; destruct IH as [I1 I2]; inversion I2 as [|? ? Hb _]; subst;
        cbn [Model.go] in H; apply bind_ret in H; destruct H as (g & H1 & H); apply Forall_app.
      * apply bind_ret in H. destruct H as (g' & H2 & H). split.
        -- apply (lets_runs _ I1 f). eauto.
        -- constructor; [|constructor]. apply (Hb g). eauto.
      * split.
        -- eapply (conts_runs _ I1). eauto.
        -- constructor; [|constructor]. apply (Hb (set_vars (scope f) f)). eauto.
  - intro S. inversion S as [? O C]; subst. destruct (unbinding x) eqn:U.
    + apply (gos_runs _ IH (add_allocs (total (own_alloc x)) f)) in C. destruct C as (f' & C). exists f'.
      apply go_unbinding_ret; assumption.
    + destruct x as [| | | | | | | | | | | | | | | | | | | | | | | | |vs b|ks b]; try discriminate U;
        cbn [children] in *; apply Forall_app in IH; destruct IH as [I1 I2]; inversion I2 as [|? ? Hb _]; subst;
        apply Forall_app in C; destruct C as [C1 C2]; inversion C2 as [|? ? C3 _]; subst; cbn [Model.go].
      * apply (lets_runs _ I1 f) in C1. destruct C1 as (g & C1). rewrite C1. cbn [bind].
        apply (Hb g) in C3. destruct C3 as (g' & C3). rewrite C3. cbn. eauto.
      * apply (Hb (set_vars (scope f) f)) in C3. destruct C3 as (g' & C3). rewrite C3. cbn [bind].
        apply (conts_runs _ I1), C1.
Qed.

Lemma frame_exists f : (exists r, new f = Ret r) <-> convention in_memory f /\ supported (f_body f).
Proof.
  unfold convention. split.
  - intros ((s & ret) & H). destruct (new_setup _ _ f s ret H) as (s0 & _ & G).
    split; [|apply (all_runs (f_body f) s0); eauto]. unfold Model.new in H.
    apply bind_ret in H. destruct H as (s1 & H1 & H). apply bind_ret in H.
    destruct H as ((ret' & s2) & H2 & H). apply bind_ret in H. destruct H as (s3 & H3 & _). split; [|split].
    + destruct (f_env f) as [[id es]|]; [|congruence]. destruct (f_kind f); [reflexivity|discriminate H1|discriminate H1].
    + intros M K. rewrite M, K in H2. discriminate H2.
    + intro K. rewrite K in H3. destruct (f_params f) as [|[id t] [|]]; try discriminate H3. reflexivity.
  - intros ((C1 & C2 & C3) & S). unfold Model.new.
    assert (E1 : exists s1, match f_env f with
      | None => Ret (Frame [] 0 0 0)
      | Some (id, elems) => let* _ := check (match f_kind f with Standard => true | _ => false end) in
          Ret (add_vars words elems (add_var words id CtEnv (Frame [] 0 0 0))) end = Ret s1).
    { destruct (f_env f) as [[id es]|]; [|eauto]. rewrite C1 by discriminate. cbn. eauto. }
    destruct E1 as (s1 & ->). cbn [bind].
    assert (E2 : exists p, (if in_memory (f_ret f) then
      let* _ := check (match f_kind f with Main => false | _ => true end) in
      let (o, s) := allocate 1 s1 in Ret (Some o, s) else Ret (None, s1)) = Ret p).
    { destruct (in_memory (f_ret f)); [|eauto]. destruct (f_kind f); [|destruct (C2 eq_refl eq_refl)|]; cbn; eauto. }
    destruct E2 as ([r s2] & ->). cbn [bind].
    assert (E3 : exists s3, match f_kind f with
      | Macro => match f_params f with [(id, t)] => Ret (add_var words id t s2) | _ => Panic end
      | _ => Ret (add_params words (16 + Z.of_nat (sum_words words (f_params f)) * 8)%Z (f_params f) s2) end = Ret s3).
    { destruct (f_kind f); [eauto|eauto|]. specialize (C3 eq_refl). destruct (f_params f) as [|[id t] [|]]; try discriminate C3. eauto. }
    destruct E3 as (s3 & ->). cbn [bind]. apply (all_runs (f_body f) s3) in S. destruct S as (s4 & ->). cbn. eauto.
Qed.
End Alloc.
