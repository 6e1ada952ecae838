From Verif.Base Require Import BaseFacts VecFacts.
From Verif.Topo Require Import Model Spec.
Open Scope Z_scope.

(** * The graph *)
Section Tarjan.
  Context {K V : Type} (eqb : K -> K -> bool) (deps : V -> list K).
  Context (keys : @key_map K) (values : list V).
  Let n := List.length values.
  Context (Hkeys : forall k j, key_get eqb keys k = Some j -> (j < n)%nat).

  Definition E (i j : nat) : Prop := exists v k, nth_error values i = Some v /\ In k (deps v) /\ key_get eqb keys k = Some j.
  Inductive R (i : nat) : nat -> Prop :=
  | R_refl : R i i
  | R_step j k : R i j -> E j k -> R i k.

  Lemma R_trans i j k : R i j -> R j k -> R i k.
  Proof. intros H1 H2. induction H2 as [|j' k' _ IH He]; [assumption|]. eapply R_step; eauto. Qed.
  Lemma R_edge i j : E i j -> R i j.
  Proof. intros H. eapply R_step; [apply R_refl|assumption]. Qed.
  Lemma R_closed (C : nat -> Prop) i j : (forall x y, C x -> E x y -> C y) -> C i -> R i j -> C j.
  Proof. intros Hc Hi H. induction H; eauto. Qed.
  Lemma E_bound i j : E i j -> (i < n)%nat /\ (j < n)%nat.
  Proof.
    intros (v & k & Hv & _ & Hk). split; [|eapply Hkeys; exact Hk]. apply nth_error_Some. congruence.
  Qed.

  (** * States *)
  Definition num (st : state) (x : nat) : Z := nth x (indices st) (-1).
  Definition low (st : state) (x : nat) : Z := nth x (lowlinks st) (-1).
  Definition scc (st : state) (x : nat) : Z := nth x (scc_indices st) (-1).

  Record Inv (G : list nat) (st : state) : Prop := {
    i_len1 : List.length (indices st) = n;
    i_len2 : List.length (lowlinks st) = n;
    i_len3 : List.length (scc_indices st) = n;
    i_next : 0 <= next_index st;
    i_nscc : 0 <= next_scc_index st;
    i_num_lt : forall x, num st x < next_index st;
    i_num_inj : forall x y, 0 <= num st x -> num st x = num st y -> x = y;
    i_scc_lt : forall x, scc st x < next_scc_index st;
    i_stk : forall x, In x (stack st) <-> 0 <= num st x /\ scc st x < 0;
    i_sorted : StronglySorted (fun a b => num st b < num st a) (stack st);
    i_done_vis : forall x, 0 <= scc st x -> 0 <= num st x;
    i_done_closed : forall x y, 0 <= scc st x -> E x y -> 0 <= scc st y <= scc st x;
    i_done_exact : forall x y, 0 <= scc st x -> 0 <= scc st y -> (scc st x = scc st y <-> R x y /\ R y x);
    i_inhab : forall s, 0 <= s < next_scc_index st -> exists x, scc st x = s;
    i_black : forall x y, 0 <= num st x -> ~ In x G -> E x y -> 0 <= num st y;
    i_gray : forall g, In g G -> In g (stack st);
    i_up : forall g x, In g G -> In x (stack st) -> num st g <= num st x -> R g x;
    i_down : forall x, In x (stack st) -> exists g, In g G /\ num st g <= num st x /\ R x g
  }.

  Lemma num_dom st x : List.length (indices st) = n -> 0 <= num st x -> (x < n)%nat.
  Proof.
    intros Hl H. unfold num in H. destruct (Nat.lt_ge_cases x n) as [|Hx]; [assumption|].
    rewrite nth_overflow in H by lia. lia.
  Qed.

  Definition white (st : state) : nat := List.length (filter (fun x => num st x <? 0) (seq 0 n)).

  Lemma filter_le {A} (p q : A -> bool) l : (forall x, q x = true -> p x = true) ->
    (List.length (filter q l) <= List.length (filter p l))%nat.
  Proof.
    intros H. induction l as [|x l IH]; cbn; [lia|]. specialize (H x). destruct (q x), (p x); cbn; try lia;
    (specialize (H eq_refl); discriminate).
  Qed.
  Lemma filter_lt {A} (p q : A -> bool) l a : (forall x, q x = true -> p x = true) -> In a l -> p a = true -> q a = false ->
    (List.length (filter q l) < List.length (filter p l))%nat.
  Proof.
    intros H Hin Hp Hq. induction l as [|x l IH]; [destruct Hin|]. cbn [filter]. destruct Hin as [->|Hin].
    - rewrite Hp, Hq. cbn. pose proof (filter_le p q l H). lia.
    - specialize (IH Hin). pose proof (H x). destruct (q x), (p x); cbn; try lia; (specialize (H0 eq_refl); discriminate).
  Qed.

  Lemma white_lt st st' i : (forall x, 0 <= num st x -> 0 <= num st' x) -> (i < n)%nat -> num st i < 0 -> 0 <= num st' i ->
    (white st' < white st)%nat.
  Proof.
    intros H Hi Hw Hv. unfold white. apply filter_lt with (a := i).
    - intros x. rewrite !Z.ltb_lt. intros Hx. destruct (Z.lt_ge_cases (num st x) 0) as [|Hx2]; [assumption|]. apply H in Hx2. lia.
    - apply in_seq. lia.
    - lia.
    - lia.
  Qed.
  Lemma white_le st st' : (forall x, 0 <= num st x -> 0 <= num st' x) -> (white st' <= white st)%nat.
  Proof.
    intros H. unfold white. apply filter_le. intros x. rewrite !Z.ltb_lt. intros Hx.
    destruct (Z.lt_ge_cases (num st x) 0) as [|Hx2]; [assumption|]. apply H in Hx2. lia.
  Qed.

  Definition keeps (st st' : state) : Prop :=
    (forall x, 0 <= num st x -> num st' x = num st x) /\ (forall x, 0 <= scc st x -> scc st' x = scc st x).

  Definition Post (G : list nat) (i : nat) (st st' : state) : Prop :=
    Inv G st' /\ keeps st st' /\ (forall x, 0 <= num st x -> low st' x = low st x) /\
    (exists pre, stack st' = pre ++ stack st /\
       forall x y, In x pre -> In y (stack st) -> E x y -> low st' i <= num st' y) /\
    next_index st <= num st' i /\ low st' i <= num st' i /\
    (low st' i = num st' i \/ exists y, In y (stack st') /\ low st' i = num st' y /\ R i y).

  Definition LInv (G : list nat) (i : nat) (S0 : list nat) (ks : list K) (st : state) : Prop :=
    Inv (i :: G) st /\
    (exists pre, stack st = pre ++ i :: S0 /\ forall x y, In x pre -> In y S0 -> E x y -> low st i <= num st y) /\
    low st i <= num st i /\
    (exists y, In y (stack st) /\ low st i = num st y /\ R i y) /\
    (forall k j, In k ks -> key_get eqb keys k = Some j -> 0 <= num st j /\ (In j (stack st) -> low st i <= num st j)).

  Lemma sorted_mid {st pre i S0} : StronglySorted (fun a b => num st b < num st a) (pre ++ i :: S0) ->
    (forall x, In x pre -> num st i < num st x) /\ (forall y, In y S0 -> num st y < num st i).
  Proof.
    induction pre as [|a pre IH]; cbn [app]; intros H.
    - split; [intros x []|]. apply StronglySorted_inv in H as [_ H]. rewrite Forall_forall in H. exact H.
    - apply StronglySorted_inv in H as [H1 H2]. rewrite Forall_forall in H2. destruct (IH H1) as [I1 I2].
      split; [|assumption]. intros x [<-|Hx]; [|auto]. apply H2, in_or_app. right; left; reflexivity.
  Qed.

  Lemma sorted_ext {st st' l} : (forall x, In x l -> num st' x = num st x) ->
    StronglySorted (fun a b => num st b < num st a) l -> StronglySorted (fun a b => num st' b < num st' a) l.
  Proof.
    intros He H. induction H as [|a l Hs IH Hf]; constructor.
    - apply IH. intros x Hx. apply He. right; assumption.
    - rewrite Forall_forall in *. intros b Hb. rewrite !He by (cbn; auto). auto.
  Qed.

  Lemma sorted_app_r {st a b} : StronglySorted (fun a b => num st b < num st a) (a ++ b) -> StronglySorted (fun a b => num st b < num st a) b.
  Proof. induction a as [|x a IH]; cbn; [auto|]. intros H. apply StronglySorted_inv in H as [H _]. auto. Qed.

  (** Replacing the lowlinks keeps the invariant. *)
  Definition with_low (st : state) (lows : list Z) : state :=
    {| indices := indices st; lowlinks := lows; scc_indices := scc_indices st; next_index := next_index st;
       next_scc_index := next_scc_index st; stack := stack st |}.
  Lemma Inv_low G st lows : List.length lows = n -> Inv G st -> Inv G (with_low st lows).
  Proof. intros Hl H. destruct H. constructor; assumption. Qed.

  (** * The dependency loop *)
  Definition rec_ok (rec : nat -> state -> outcome state) (m : nat) : Prop :=
    forall j G st, Inv G st -> (j < n)%nat -> num st j < 0 -> (forall g, In g G -> R g j) -> (white st < m)%nat ->
      exists st', rec j st = Ret st' /\ Post G j st st'.

  Lemma each_dep_ok rec m i v G S0 : rec_ok rec m -> nth_error values i = Some v ->
    (forall g, In g G -> R g i) -> forall ks ks0 st,
    (forall k, In k ks -> In k (deps v)) -> (white st < m)%nat -> LInv G i S0 ks0 st ->
    exists st', each_dep eqb keys rec i ks st = Ret st' /\ LInv G i S0 (ks ++ ks0) st' /\ keeps st st' /\
      (forall x, 0 <= num st x -> x <> i -> low st' x = low st x).
  Proof.
    intros Hrec Hv HG. induction ks as [|k ks IH]; intros ks0 st Hsub Hm Hl; cbn [each_dep].
    - exists st. split; [reflexivity|]. split; [assumption|]. split; [split; auto|auto].
    - assert (Hreord : forall st', LInv G i S0 (ks ++ k :: ks0) st' -> LInv G i S0 ((k :: ks) ++ ks0) st').
      { intros st' (A1 & A2 & A3 & A4 & A5). split; [assumption|]. split; [assumption|]. split; [assumption|]. split; [assumption|].
        intros k' j' Hk'. apply A5. cbn in Hk'. rewrite in_app_iff in *. cbn. tauto. }
      assert (Hsub' : forall k', In k' ks -> In k' (deps v)) by (intros k' Hk'; apply Hsub; right; assumption).
      destruct (key_get eqb keys k) as [j|] eqn:Ek.
      2:{ destruct (IH (k :: ks0) st) as (st' & E1 & L1 & K1 & F1); [assumption|assumption| |].
          - destruct Hl as (A1 & A2 & A3 & A4 & A5). split; [assumption|]. split; [assumption|]. split; [assumption|]. split; [assumption|].
            intros k' j' [<-|Hk'] Hj'; [congruence|]. eauto.
          - exists st'. auto. }
      assert (Hij : E i j) by (exists v, k; split; [assumption|]; split; [apply Hsub; left; reflexivity|assumption]).
      destruct (E_bound _ _ Hij) as [Hi Hj].
      destruct Hl as (HI & (pre & Hst & Hpre) & Hlow & (y0 & Hy0 & Hly0 & Hry0) & Hproc).
      assert (Hi_stk : In i (stack st)) by (rewrite Hst; apply in_or_app; right; left; reflexivity).
      assert (Hi_num : 0 <= num st i) by (apply (i_stk _ _ HI); assumption).
      rewrite (vget_nth (indices st) j (-1)) by (rewrite (i_len1 _ _ HI); assumption). cbn [bind].
      change (nth j (indices st) (-1)) with (num st j).
      destruct (Z.ltb_spec (num st j) 0) as [Hw|Hvis].
      + (* unvisited *)
        destruct (Hrec j (i :: G) st) as (st1 & E1 & HI1 & [Hk1 Hk1'] & Hf1 & (pre1 & Hst1 & Hpre1) & Hn1 & Hl1 & Hd1); [assumption|assumption|assumption| |assumption|].
        { intros g [<-|Hg]; [apply R_edge; assumption|]. eapply R_trans; [apply HG; assumption|apply R_edge; exact Hij]. }
        rewrite E1. cbn [bind].
        rewrite (vget_nth (lowlinks st1) i (-1)) by (rewrite (i_len2 _ _ HI1); assumption). cbn [bind].
        rewrite (vget_nth (lowlinks st1) j (-1)) by (rewrite (i_len2 _ _ HI1); assumption). cbn [bind].
        change (nth i (lowlinks st1) (-1)) with (low st1 i). change (nth j (lowlinks st1) (-1)) with (low st1 j).
        destruct (vset_ok (lowlinks st1) i (Z.min (low st1 i) (low st1 j))) as (lows & E2 & Hlen2 & Hnth2); [rewrite (i_len2 _ _ HI1); assumption|].
        rewrite E2. cbn [bind]. fold (with_low st1 lows).
        assert (Hli1 : low st1 i = low st i) by (apply Hf1; assumption).
        assert (Hni1 : num st1 i = num st i) by (apply Hk1; assumption).
        assert (Hnl : low (with_low st1 lows) i = Z.min (low st i) (low st1 j)).
        { unfold low at 1, with_low; cbn [lowlinks]. rewrite Hnth2, Nat.eqb_refl. rewrite Hli1. reflexivity. }
        assert (Hnj : num st i < num st1 j) by (pose proof (i_num_lt _ _ HI i); lia).
        assert (Hvisited : forall x, 0 <= num st x -> 0 <= num st1 x) by (intros x Hx; rewrite Hk1; assumption).
        destruct (IH (k :: ks0) (with_low st1 lows)) as (st' & E3 & L3 & [K3 K3'] & F3); [assumption| | |].
        * eapply Nat.le_lt_trans; [|exact Hm]. apply white_le. exact Hvisited.
        * split; [apply Inv_low; [rewrite Hlen2; apply (i_len2 _ _ HI1)|assumption]|].
          split; [|split; [|split]].
          -- exists (pre1 ++ pre). cbn [stack with_low]. split; [rewrite Hst1, Hst, app_assoc; reflexivity|].
             intros x y Hx Hy Hxy. rewrite Hnl. change (num (with_low st1 lows) y) with (num st1 y).
             assert (Hys : In y (stack st)) by (rewrite Hst; apply in_or_app; right; right; assumption).
             apply in_app_or in Hx as [Hx|Hx].
             ++ pose proof (Hpre1 x y Hx Hys Hxy). lia.
             ++ pose proof (Hpre x y Hx Hy Hxy). rewrite Hk1 by (apply (i_stk _ _ HI); assumption). lia.
          -- rewrite Hnl. change (num (with_low st1 lows) i) with (num st1 i). lia.
          -- destruct (Z.le_gt_cases (low st i) (low st1 j)) as [Hle|Hgt].
             ++ exists y0. cbn [stack with_low]. split; [rewrite Hst1; apply in_or_app; right; assumption|]. split; [|assumption].
                rewrite Hnl. change (num (with_low st1 lows) y0) with (num st1 y0). rewrite Hk1 by (apply (i_stk _ _ HI); assumption). lia.
             ++ destruct Hd1 as [Hd1|(y & Hy & Hly & Hry)]; [lia|]. exists y. split; [assumption|]. split; [rewrite Hnl; change (num (with_low st1 lows) y) with (num st1 y); lia|].
                eapply R_trans; [apply R_edge; exact Hij|assumption].
          -- intros k' j' [<-|Hk'] Hj'.
             ++ assert (j' = j) as -> by congruence. change (num (with_low st1 lows) j) with (num st1 j).
                pose proof (i_next _ _ HI). split; [lia|]. rewrite Hnl. lia.
             ++ destruct (Hproc _ _ Hk' Hj') as [P1 P2]. change (num (with_low st1 lows) j') with (num st1 j').
                rewrite Hk1 by assumption. split; [assumption|]. cbn [stack with_low]. intros Hs. rewrite Hnl.
                assert (In j' (stack st)); [|pose proof (P2 H); lia].
                apply (i_stk _ _ HI). split; [assumption|]. apply (i_stk _ _ HI1) in Hs as [_ Hs].
                destruct (Z.lt_ge_cases (scc st j') 0) as [|Hge]; [assumption|]. rewrite Hk1' in Hs by assumption. lia.
        * exists st'. split; [assumption|]. split; [apply Hreord; assumption|]. split; [split|].
          -- intros x Hx. rewrite K3; [apply Hk1; assumption|]. change (num (with_low st1 lows) x) with (num st1 x). auto.
          -- intros x Hx. rewrite K3'; [apply Hk1'; assumption|]. change (scc (with_low st1 lows) x) with (scc st1 x). rewrite Hk1'; assumption.
          -- intros x Hx Hne. rewrite F3; [|change (num (with_low st1 lows) x) with (num st1 x); auto|assumption].
             unfold low at 1, with_low; cbn [lowlinks]. rewrite Hnth2. destruct (Nat.eqb_spec i x); [congruence|]. apply Hf1; assumption.
      + (* visited *)
        rewrite (vget_nth (scc_indices st) j (-1)) by (rewrite (i_len3 _ _ HI); assumption). cbn [bind].
        change (nth j (scc_indices st) (-1)) with (scc st j).
        destruct (Z.ltb_spec (scc st j) 0) as [Hs|Hd].
        * rewrite (vget_nth (lowlinks st) i (-1)) by (rewrite (i_len2 _ _ HI); assumption). cbn [bind].
          change (nth i (lowlinks st) (-1)) with (low st i).
          destruct (vset_ok (lowlinks st) i (Z.min (low st i) (num st j))) as (lows & E2 & Hlen2 & Hnth2); [rewrite (i_len2 _ _ HI); assumption|].
          rewrite E2. cbn [bind]. fold (with_low st lows).
          assert (Hnl : low (with_low st lows) i = Z.min (low st i) (num st j)).
          { unfold low at 1, with_low; cbn [lowlinks]. rewrite Hnth2, Nat.eqb_refl. reflexivity. }
          assert (Hjs : In j (stack st)) by (apply (i_stk _ _ HI); auto).
          destruct (IH (k :: ks0) (with_low st lows)) as (st' & E3 & L3 & [K3 K3'] & F3); [assumption|exact Hm| |].
          -- split; [apply Inv_low; [rewrite Hlen2; apply (i_len2 _ _ HI)|assumption]|].
             split; [|split; [|split]].
             ++ exists pre. split; [assumption|]. intros x y Hx Hy Hxy. rewrite Hnl. change (num (with_low st lows) y) with (num st y).
                pose proof (Hpre x y Hx Hy Hxy). lia.
             ++ rewrite Hnl. change (num (with_low st lows) i) with (num st i). lia.
             ++ destruct (Z.le_gt_cases (low st i) (num st j)) as [Hle|Hgt].
                ** exists y0. split; [assumption|]. split; [rewrite Hnl; change (num (with_low st lows) y0) with (num st y0); lia|assumption].
                ** exists j. split; [assumption|]. split; [rewrite Hnl; change (num (with_low st lows) j) with (num st j); lia|apply R_edge; assumption].
             ++ intros k' j' [<-|Hk'] Hj'.
                ** assert (j' = j) as -> by congruence. change (num (with_low st lows) j) with (num st j). split; [assumption|]. intros _. rewrite Hnl. lia.
                ** destruct (Hproc _ _ Hk' Hj') as [P1 P2]. change (num (with_low st lows) j') with (num st j'). split; [assumption|]. intros Hj2. rewrite Hnl.
                   specialize (P2 Hj2). lia.
          -- exists st'. split; [assumption|]. split; [apply Hreord; assumption|]. split; [split; assumption|].
             intros x Hx Hne. rewrite F3; [|assumption|assumption]. unfold low at 1, with_low; cbn [lowlinks]. rewrite Hnth2.
             destruct (Nat.eqb_spec i x); [congruence|]. reflexivity.
        * destruct (IH (k :: ks0) st) as (st' & E3 & L3 & K3 & F3); [assumption|assumption| |].
          -- split; [assumption|]. split; [exists pre; auto|]. split; [assumption|]. split; [exists y0; auto|].
             intros k' j' [<-|Hk'] Hj'; [|eauto]. assert (j' = j) as -> by congruence. split; [assumption|].
             intros Hjs. apply (i_stk _ _ HI) in Hjs. lia.
          -- exists st'. auto.
  Qed.

  (** * Popping a component *)
  Lemma pop_ok i s S0 : forall pre sccs, ~ In i pre -> (forall x, In x (pre ++ [i]) -> (x < List.length sccs)%nat) ->
    exists sccs', pop_until i s sccs (pre ++ i :: S0) = Ret (sccs', S0) /\ List.length sccs' = List.length sccs /\
      forall x, nth x sccs' (-1) = if existsb (Nat.eqb x) (pre ++ [i]) then s else nth x sccs (-1).
  Proof.
    induction pre as [|a pre IH]; intros sccs Hni Hb; cbn [app pop_until].
    - destruct (vset_ok sccs i s) as (l' & -> & Hl & Hn); [apply Hb; left; reflexivity|]. cbn [bind]. rewrite Nat.eqb_refl.
      exists l'. split; [reflexivity|]. split; [assumption|]. intros x. rewrite Hn. cbn. rewrite orb_false_r, Nat.eqb_sym. reflexivity.
    - destruct (vset_ok sccs a s) as (l' & -> & Hl & Hn); [apply Hb; left; reflexivity|]. cbn [bind].
      destruct (Nat.eqb_spec a i) as [->|_]; [exfalso; apply Hni; left; reflexivity|].
      destruct (IH l') as (l2 & -> & Hl2 & Hn2).
      { intros H. apply Hni. right; assumption. }
      { intros x Hx. rewrite Hl. apply Hb. right; assumption. }
      exists l2. split; [reflexivity|]. split; [congruence|]. intros x. rewrite Hn2, Hn. cbn [existsb app].
      rewrite (Nat.eqb_sym a x). destruct (x =? a)%nat; cbn [orb]; [|reflexivity]. destruct (existsb _ _); reflexivity.
  Qed.

  Lemma visit_ok : forall fuel, rec_ok (visit eqb deps keys values fuel) fuel.
  Proof.
    induction fuel as [|fuel IH]; intros i G st HI Hi Hw HG Hm; [lia|]. cbn [visit].
    destruct (vset_ok (indices st) i (next_index st)) as (inds & E1 & L1 & N1); [rewrite (i_len1 _ _ HI); assumption|].
    destruct (vset_ok (lowlinks st) i (next_index st)) as (lows & E2 & L2 & N2); [rewrite (i_len2 _ _ HI); assumption|].
    rewrite E1, E2. cbn [bind].
    destruct (nth_error values i) as [v|] eqn:Ev; [|apply nth_error_None in Ev; fold n in Ev; lia].
    unfold vget at 1. rewrite Ev. cbn [bind].
    set (st0 := {| indices := inds; lowlinks := lows; scc_indices := scc_indices st; next_index := next_index st + 1;
                   next_scc_index := next_scc_index st; stack := i :: stack st |}).
    assert (Hnum : forall x, num st0 x = if Nat.eqb i x then next_index st else num st x) by (intros x; apply N1).
    assert (Hlw : forall x, low st0 x = if Nat.eqb i x then next_index st else low st x) by (intros x; apply N2).
    assert (Hscc : forall x, scc st0 x = scc st x) by reflexivity.
    pose proof (i_next _ _ HI) as Hnx.
    assert (Hnum_i : num st0 i = next_index st) by (rewrite Hnum, Nat.eqb_refl; reflexivity).
    assert (Hnum_o : forall x, 0 <= num st x -> num st0 x = num st x).
    { intros x Hx. rewrite Hnum. destruct (Nat.eqb_spec i x) as [<-|]; [lia|reflexivity]. }
    assert (Hi_nstk : ~ In i (stack st)) by (intros H; apply (i_stk _ _ HI) in H; lia).
    assert (Hi_nG : ~ In i G) by (intros H; apply Hi_nstk, (i_gray _ _ HI); assumption).
    assert (HI0 : Inv (i :: G) st0).
    { constructor; cbn [indices lowlinks scc_indices next_index next_scc_index stack st0].
      - rewrite L1. apply (i_len1 _ _ HI).
      - rewrite L2. apply (i_len2 _ _ HI).
      - apply (i_len3 _ _ HI).
      - lia.
      - apply (i_nscc _ _ HI).
      - intros x. rewrite Hnum. pose proof (i_num_lt _ _ HI x). destruct (Nat.eqb i x); lia.
      - intros x y. rewrite !Hnum. pose proof (i_num_lt _ _ HI x). pose proof (i_num_lt _ _ HI y).
        destruct (Nat.eqb_spec i x) as [<-|]; destruct (Nat.eqb_spec i y) as [<-|]; try (intros; lia). apply (i_num_inj _ _ HI).
      - apply (i_scc_lt _ _ HI).
      - intros x. cbn [In]. rewrite (i_stk _ _ HI), Hnum, Hscc. destruct (Nat.eqb_spec i x) as [<-|Hne].
        + split; [|auto]. intros _. split; [lia|]. destruct (Z.lt_ge_cases (scc st i) 0) as [|Hge]; [assumption|]. apply (i_done_vis _ _ HI) in Hge. lia.
        + split; [|tauto]. intros [|]; [congruence|assumption].
      - constructor.
        + apply (sorted_ext (st := st)); [|apply (i_sorted _ _ HI)]. intros x Hx. apply Hnum_o. apply (i_stk _ _ HI); assumption.
        + apply Forall_forall. intros x Hx. rewrite Hnum_i. rewrite Hnum_o by (apply (i_stk _ _ HI); assumption). apply (i_num_lt _ _ HI).
      - intros x Hx. rewrite Hnum. destruct (Nat.eqb i x); [lia|]. apply (i_done_vis _ _ HI); assumption.
      - apply (i_done_closed _ _ HI).
      - apply (i_done_exact _ _ HI).
      - apply (i_inhab _ _ HI).
      - intros x y Hx Hnx' Hxy. rewrite Hnum in *. destruct (Nat.eqb_spec i x) as [<-|]; [exfalso; apply Hnx'; left; reflexivity|].
        destruct (Nat.eqb i y); [lia|]. eapply (i_black _ _ HI); [exact Hx| |exact Hxy]. intros Hg; apply Hnx'; right; assumption.
      - intros g [<-|Hg]; [left; reflexivity|right; apply (i_gray _ _ HI); assumption].
      - intros g x Hg Hx Hle. destruct Hg as [<-|Hg].
        + destruct Hx as [<-|Hx]; [apply R_refl|]. rewrite Hnum_i in Hle. rewrite Hnum_o in Hle by (apply (i_stk _ _ HI); assumption).
          pose proof (i_num_lt _ _ HI x). lia.
        + destruct Hx as [<-|Hx]; [apply HG; assumption|]. apply (i_up _ _ HI); [assumption|assumption|].
          rewrite !Hnum_o in Hle; [assumption| |]; apply (i_stk _ _ HI); [assumption|apply (i_gray _ _ HI); assumption].
      - intros x [<-|Hx].
        + exists i. split; [left; reflexivity|]. split; [lia|apply R_refl].
        + destruct (i_down _ _ HI x Hx) as (g & Hg & Hle & Hr). exists g. split; [right; assumption|]. split; [|assumption].
          rewrite !Hnum_o; [assumption| |]; apply (i_stk _ _ HI); [assumption|apply (i_gray _ _ HI); assumption]. }
    destruct (each_dep_ok _ _ i v G (stack st) IH Ev HG (deps v) [] st0) as (st1 & E3 & L3 & [K3 K3'] & F3).
    { auto. }
    { assert (white st0 < white st)%nat; [|lia]. apply (white_lt st st0 i); [|assumption|assumption|lia].
      intros x Hx. rewrite Hnum_o; assumption. }
    { split; [assumption|]. split; [exists []; split; [reflexivity|intros x y []]|].
      assert (Hlo : low st0 i = next_index st) by (rewrite Hlw, Nat.eqb_refl; reflexivity).
      split; [lia|]. split; [|intros k j []]. exists i. split; [left; reflexivity|]. split; [lia|apply R_refl]. }
    rewrite E3. cbn [bind]. rewrite app_nil_r in L3.
    destruct L3 as (HI1 & (pre & Hst & Hpre) & Hlow & (y0 & Hy0 & Hly0 & Hry0) & Hproc).
    rewrite (vget_nth (indices st1) i (-1)) by (rewrite (i_len1 _ _ HI1); assumption). cbn [bind].
    rewrite (vget_nth (lowlinks st1) i (-1)) by (rewrite (i_len2 _ _ HI1); assumption). cbn [bind].
    change (nth i (indices st1) (-1)) with (num st1 i). change (nth i (lowlinks st1) (-1)) with (low st1 i).
    assert (Hn1 : num st1 i = next_index st) by (rewrite K3 by lia; assumption).
    assert (Hold : forall x, 0 <= num st x -> num st1 x = num st x).
    { intros x Hx. rewrite K3 by (rewrite Hnum_o; assumption). apply Hnum_o; assumption. }
    assert (Hold_s : forall x, 0 <= scc st x -> scc st1 x = scc st x) by (intros x Hx; apply K3'; assumption).
    assert (Hold_l : forall x, 0 <= num st x -> low st1 x = low st x).
    { intros x Hx. rewrite F3 by (try (rewrite Hnum_o; assumption); intros ->; lia). rewrite Hlw.
      destruct (Nat.eqb_spec i x) as [<-|]; [lia|reflexivity]. }
    pose proof (i_sorted _ _ HI1) as Hsort. rewrite Hst in Hsort. destruct (sorted_mid Hsort) as [Habove Hbelow].
    assert (Hpre_i : ~ In i pre) by (intros H; apply Habove in H; lia).
    assert (Hi_stk : In i (stack st1)) by (rewrite Hst; apply in_or_app; right; left; reflexivity).
    assert (Hin_st : forall x, In x (stack st) -> In x (stack st1)) by (intros x Hx; rewrite Hst; apply in_or_app; right; right; assumption).
    assert (Hpre_st : forall x, In x pre -> In x (stack st1)) by (intros x Hx; rewrite Hst; apply in_or_app; left; assumption).
    (* every node above i, and i, is mutually reachable with i *)
    assert (Hfwd : forall x, In x (pre ++ [i]) -> R i x).
    { intros x Hx. apply in_app_or in Hx as [Hx|[<-|[]]]; [|apply R_refl]. apply (i_up _ _ HI1); [left; reflexivity|auto|].
      apply Habove in Hx. lia. }
    assert (Hbwd : forall x, In x (pre ++ [i]) -> R x i).
    { intros x Hx. apply in_app_or in Hx as [Hx|[<-|[]]]; [|apply R_refl].
      destruct (i_down _ _ HI1 x) as (g & [<-|Hg] & _ & Hr); [auto|assumption|]. eapply R_trans; [exact Hr|apply HG; assumption]. }
    assert (Hcases : forall x, In x (stack st1) <-> In x (pre ++ [i]) \/ In x (stack st)).
    { intros x. rewrite Hst, !in_app_iff. cbn. tauto. }
    (* successors of these nodes have been visited *)
    assert (Hsucc : forall x y, In x (pre ++ [i]) -> E x y -> 0 <= num st1 y).
    { intros x y Hx Hxy. apply in_app_or in Hx as [Hx|[<-|[]]].
      - apply (i_black _ _ HI1 x y); [apply (i_stk _ _ HI1); auto| |assumption].
        intros [<-|Hg]; [contradiction|]. apply (i_gray _ _ HI) in Hg. apply Hbelow in Hg. apply Habove in Hx. lia.
      - destruct Hxy as (v' & k & Hv' & Hk & Hj). assert (v' = v) as -> by congruence. destruct (Hproc k y Hk Hj). assumption. }
    destruct (Z.eqb_spec (num st1 i) (low st1 i)) as [Heq|Hneq].
    - (* i is the root of a component *)
      destruct (pop_ok i (next_scc_index st1) (stack st) pre (scc_indices st1)) as (sccs & E4 & L4 & N4); [assumption| |].
      { intros x Hx. rewrite (i_len3 _ _ HI1). apply (num_dom st1); [apply (i_len1 _ _ HI1)|]. apply (i_stk _ _ HI1), Hcases. left; assumption. }
      rewrite Hst, E4. cbn [bind].
      set (st2 := {| indices := indices st1; lowlinks := lowlinks st1; scc_indices := sccs; next_index := next_index st1;
                     next_scc_index := next_scc_index st1 + 1; stack := stack st |}).
      exists st2. split; [reflexivity|].
      pose proof (i_nscc _ _ HI1) as Hns.
      set (C := pre ++ [i]) in *.
      assert (Hex : forall x, existsb (Nat.eqb x) C = true <-> In x C).
      { intros x. rewrite existsb_exists. split; [intros (y & Hy & Hxy); apply Nat.eqb_eq in Hxy as ->; assumption|].
        intros Hx. exists x. split; [assumption|apply Nat.eqb_refl]. }
      assert (Hs2 : forall x, In x C -> scc st2 x = next_scc_index st1).
      { intros x Hx. unfold scc, st2; cbn [scc_indices]. rewrite N4. apply Hex in Hx. rewrite Hx. reflexivity. }
      assert (Hs2' : forall x, ~ In x C -> scc st2 x = scc st1 x).
      { intros x Hx. unfold scc at 1, st2; cbn [scc_indices]. rewrite N4. destruct (existsb (Nat.eqb x) C) eqn:Ee; [|reflexivity].
        apply Hex in Ee. contradiction. }
      assert (HC : forall x, In x C -> 0 <= num st1 x /\ scc st1 x < 0) by (intros x Hx; apply (i_stk _ _ HI1), Hcases; left; assumption).
      assert (Hdec : forall x, In x C \/ ~ In x C).
      { intros x. destruct (existsb (Nat.eqb x) C) eqn:Ee; [left; apply Hex; assumption|right; intros Hx; apply Hex in Hx; congruence]. }
      (* no edge to the rest of the stack: successors are in the component or done *)
      assert (Hclosed : forall x y, In x C -> E x y -> In y C \/ 0 <= scc st1 y).
      { intros x y Hx Hxy. pose proof (Hsucc x y Hx Hxy) as Hv1.
        destruct (Z.lt_ge_cases (scc st1 y) 0) as [Hs|]; [|right; assumption]. left.
        assert (Hys : In y (stack st1)) by (apply (i_stk _ _ HI1); auto). apply Hcases in Hys as [Hys|Hys]; [assumption|].
        exfalso. pose proof (Hbelow y Hys) as Hb. apply in_app_or in Hx as [Hx|[<-|[]]].
        - pose proof (Hpre x y Hx Hys Hxy). lia.
        - destruct Hxy as (v' & k & Hv' & Hk & Hj). assert (v' = v) as -> by congruence. destruct (Hproc k y Hk Hj) as [_ Hp].
          specialize (Hp (Hin_st _ Hys)). lia. }
      assert (Hreach : forall x y, In x C -> R x y -> In y C \/ 0 <= scc st1 y).
      { intros x y Hx. apply (R_closed (fun y => In y C \/ 0 <= scc st1 y)); [|left; assumption].
        intros a b [Ha|Ha] Hab; [eapply Hclosed; eauto|right]. apply (i_done_closed _ _ HI1 a b Ha Hab). }
      assert (Hdone : forall x y, 0 <= scc st1 x -> R x y -> 0 <= scc st1 y).
      { intros x y Hx. apply (R_closed (fun y => 0 <= scc st1 y)); [|assumption].
        intros a b Ha Hab. apply (i_done_closed _ _ HI1 a b Ha Hab). }
      assert (HnC : forall x, 0 <= scc st1 x -> ~ In x C) by (intros x Hx Hc; apply HC in Hc; lia).
      assert (Hstc : forall x, In x (stack st) -> ~ In x C).
      { intros x Hx Hc. apply Hbelow in Hx. apply in_app_or in Hc as [Hc|[<-|[]]]; [apply Habove in Hc; lia|lia]. }
      assert (HI2 : Inv G st2).
      { constructor; cbn [indices lowlinks scc_indices next_index next_scc_index stack st2].
        - apply (i_len1 _ _ HI1).
        - apply (i_len2 _ _ HI1).
        - rewrite L4. apply (i_len3 _ _ HI1).
        - apply (i_next _ _ HI1).
        - lia.
        - apply (i_num_lt _ _ HI1).
        - apply (i_num_inj _ _ HI1).
        - intros x. destruct (Hdec x) as [Hx|Hx]; [rewrite Hs2 by assumption; lia|]. rewrite Hs2' by assumption. pose proof (i_scc_lt _ _ HI1 x). lia.
        - intros x. change (num st2 x) with (num st1 x). split.
          + intros Hx. rewrite Hs2' by auto. apply (i_stk _ _ HI1). auto.
          + intros [Hx1 Hx2]. destruct (Hdec x) as [Hx|Hx]; [rewrite Hs2 in Hx2 by assumption; lia|].
            rewrite Hs2' in Hx2 by assumption. assert (Hxs : In x (stack st1)) by (apply (i_stk _ _ HI1); auto).
            apply Hcases in Hxs as [|]; [contradiction|assumption].
        - apply (sorted_ext (st := st)); [|apply (i_sorted _ _ HI)]. intros x Hx. apply Hold. apply (i_stk _ _ HI); assumption.
        - intros x Hx. change (num st2 x) with (num st1 x). destruct (Hdec x) as [Hc|Hc]; [apply HC; assumption|].
          rewrite Hs2' in Hx by assumption. apply (i_done_vis _ _ HI1); assumption.
        - intros x y Hx Hxy. destruct (Hdec x) as [Hc|Hc].
          + rewrite (Hs2 x) by assumption. destruct (Hclosed x y Hc Hxy) as [Hy|Hy]; [rewrite Hs2 by assumption; lia|].
            rewrite Hs2' by auto. pose proof (i_scc_lt _ _ HI1 y). lia.
          + rewrite (Hs2' x) in * by assumption. pose proof (i_done_closed _ _ HI1 x y Hx Hxy). rewrite Hs2' by (apply HnC; lia). assumption.
        - intros x y Hx Hy. destruct (Hdec x) as [Hcx|Hcx], (Hdec y) as [Hcy|Hcy].
          + rewrite !Hs2 by assumption. split; [intros _|reflexivity]. split; eapply R_trans; eauto.
          + rewrite Hs2 by assumption. rewrite Hs2' in * by assumption. pose proof (i_scc_lt _ _ HI1 y). split; [lia|].
            intros [_ Hr]. pose proof (Hdone _ _ Hy Hr). apply HC in Hcx. lia.
          + rewrite Hs2' in * by assumption. rewrite Hs2 by assumption. pose proof (i_scc_lt _ _ HI1 x). split; [lia|].
            intros [Hr _]. pose proof (Hdone _ _ Hx Hr). apply HC in Hcy. lia.
          + rewrite !Hs2' in * by assumption. apply (i_done_exact _ _ HI1); assumption.
        - intros s Hs. destruct (Z.eq_dec s (next_scc_index st1)) as [->|Hne].
          + exists i. apply Hs2. apply in_or_app. right; left; reflexivity.
          + destruct (i_inhab _ _ HI1 s) as (x & Hx); [lia|]. exists x. rewrite Hs2'; [assumption|]. apply HnC. lia.
        - intros x y Hx Hg Hxy. change (num st2 y) with (num st1 y). change (num st2 x) with (num st1 x) in Hx.
          destruct (Nat.eq_dec x i) as [->|Hne]; [eapply Hsucc; [|exact Hxy]; apply in_or_app; right; left; reflexivity|].
          apply (i_black _ _ HI1 x y Hx); [|assumption]. intros [H|H]; [congruence|contradiction].
        - apply (i_gray _ _ HI).
        - intros g x Hg Hx Hle. change (num st2 g) with (num st1 g) in Hle. change (num st2 x) with (num st1 x) in Hle.
          apply (i_up _ _ HI1); [right; assumption|auto|assumption].
        - intros x Hx. change (num st2 x) with (num st1 x).
          destruct (i_down _ _ HI x Hx) as (g & Hg & Hle & Hr). exists g. split; [assumption|]. split; [|assumption].
          change (num st2 g) with (num st1 g).
          rewrite !Hold; [assumption| |]; apply (i_stk _ _ HI); [assumption|apply (i_gray _ _ HI); assumption]. }
      split; [assumption|]. split; [split|].
      + intros x Hx. apply Hold; assumption.
      + intros x Hx. rewrite Hs2'; [apply Hold_s; assumption|]. apply HnC. rewrite Hold_s; assumption.
      + split; [exact Hold_l|]. split; [exists []; split; [reflexivity|intros x y []]|].
        change (num st2 i) with (num st1 i). change (low st2 i) with (low st1 i). split; [lia|]. split; [lia|]. left. lia.
    - (* i belongs to the component of an older node *)
      exists st1. split; [reflexivity|].
      assert (Hy0s : In y0 (stack st)).
      { apply Hcases in Hy0 as [Hy|Hy]; [|assumption]. exfalso. apply in_app_or in Hy as [Hy|[<-|[]]]; [apply Habove in Hy; lia|lia]. }
      assert (Hg0 : exists g, In g G /\ num st1 g < num st1 i /\ R i g).
      { destruct (i_down _ _ HI y0 Hy0s) as (g & Hg & Hle & Hr). exists g. split; [assumption|]. split; [|eapply R_trans; eauto].
        apply Hbelow. apply (i_gray _ _ HI). assumption. }
      assert (HI2 : Inv G st1).
      { destruct HI1. constructor; try assumption.
        - intros x y Hx Hg Hxy. destruct (Nat.eq_dec x i) as [->|Hne]; [eapply Hsucc; [|exact Hxy]; apply in_or_app; right; left; reflexivity|].
          apply (i_black0 x y Hx); [|assumption]. intros [H|H]; [congruence|contradiction].
        - intros g Hg. apply Hin_st, (i_gray _ _ HI). assumption.
        - intros g x Hg Hx Hle. apply i_up0; [right; assumption|assumption|assumption].
        - intros x Hx. destruct (i_down0 x Hx) as (g & [<-|Hg] & Hle & Hr).
          + destruct Hg0 as (g & Hg & Hlt & Hr'). exists g. split; [assumption|]. split; [lia|]. eapply R_trans; eauto.
          + exists g. auto. }
      split; [assumption|]. split; [split; assumption|]. split; [assumption|]. split; [|split; [lia|split; [lia|]]].
      + exists (pre ++ [i]). split; [rewrite Hst, <- app_assoc; reflexivity|]. intros x y Hx Hy Hxy.
        apply in_app_or in Hx as [Hx|[<-|[]]]; [apply (Hpre x y); assumption|].
        destruct Hxy as (v' & k & Hv' & Hk & Hj). assert (v' = v) as -> by congruence. destruct (Hproc k y Hk Hj) as [_ Hp]. auto.
      + right. exists y0. auto.
  Qed.

  (** * The whole traversal *)
  Lemma visit_all_ok is : forall st, Inv [] st -> (forall i, In i is -> (i < n)%nat) ->
    exists st', visit_all eqb deps keys values (S n) is st = Ret st' /\ Inv [] st' /\ keeps st st' /\
      forall i, In i is -> 0 <= num st' i.
  Proof.
    induction is as [|i is IH]; intros st HI Hb; cbn [visit_all].
    - exists st. split; [reflexivity|]. split; [assumption|]. split; [split; auto|]. intros i [].
    - rewrite (vget_nth (indices st) i (-1)) by (rewrite (i_len1 _ _ HI); apply Hb; left; reflexivity). cbn [bind].
      change (nth i (indices st) (-1)) with (num st i).
      assert (Hb' : forall j, In j is -> (j < n)%nat) by (intros j Hj; apply Hb; right; assumption).
      destruct (Z.ltb_spec (num st i) 0) as [Hw|Hv].
      + destruct (visit_ok (S n) i [] st) as (st1 & E1 & HI1 & [K1 K1'] & _ & _ & Hn & _); [assumption|apply Hb; left; reflexivity|assumption|intros g []| |].
        { unfold white. pose proof (filter_le (fun _ => true) (fun x => num st x <? 0) (seq 0 n)) as Hf.
          assert (Hall : forall l : list nat, filter (fun _ => true) l = l) by (induction l; cbn; congruence).
          rewrite Hall, seq_length in Hf. specialize (Hf (fun _ _ => eq_refl)). lia. }
        rewrite E1. cbn [bind]. destruct (IH st1 HI1 Hb') as (st2 & E2 & HI2 & [K2 K2'] & Hv2). exists st2.
        split; [assumption|]. split; [assumption|]. split; [split|].
        * intros x Hx. rewrite K2; [apply K1; assumption|]. rewrite K1; assumption.
        * intros x Hx. rewrite K2'; [apply K1'; assumption|]. rewrite K1'; assumption.
        * intros j [<-|Hj]; [|auto]. pose proof (i_next _ _ HI). rewrite K2; lia.
      + destruct (IH st HI Hb') as (st2 & E2 & HI2 & [K2 K2'] & Hv2). exists st2.
        split; [assumption|]. split; [assumption|]. split; [split; assumption|].
        intros j [<-|Hj]; [|auto]. rewrite K2; assumption.
  Qed.

  Definition init : state :=
    {| indices := repeat (-1) n; lowlinks := repeat (-1) n; scc_indices := repeat (-1) n;
       next_index := 0; next_scc_index := 0; stack := [] |}.

  Lemma nth_repeat_m1 m x : nth x (repeat (-1) m) (-1) = -1.
  Proof. revert x; induction m as [|m IH]; intros [|x]; cbn; auto. Qed.

  Lemma Inv_init : Inv [] init.
  Proof.
    assert (H1 : forall x, num init x = -1) by (intros; apply nth_repeat_m1).
    assert (H2 : forall x, scc init x = -1) by (intros; apply nth_repeat_m1).
    constructor; cbn [indices lowlinks scc_indices next_index next_scc_index stack init]; try (apply repeat_length); intros; rewrite ?H1, ?H2 in *; try lia.
    - cbn [In]. lia.
    - constructor.
    - contradiction.
    - contradiction.
    - contradiction.
  Qed.

  Lemma tarjan_ok : exists st, visit_all eqb deps keys values (S n) (seq 0 n) init = Ret st /\
    List.length (scc_indices st) = n /\ 0 <= next_scc_index st /\
    (forall x, (x < n)%nat -> 0 <= scc st x < next_scc_index st) /\
    (forall x y, (x < n)%nat -> E x y -> scc st y <= scc st x) /\
    (forall x y, (x < n)%nat -> (y < n)%nat -> (scc st x = scc st y <-> R x y /\ R y x)) /\
    (forall s, 0 <= s < next_scc_index st -> exists x, (x < n)%nat /\ scc st x = s).
  Proof.
    destruct (visit_all_ok (seq 0 n) init Inv_init) as (st & E1 & HI & _ & Hv).
    { intros i Hi. apply in_seq in Hi. lia. }
    exists st. split; [assumption|]. split; [apply (i_len3 _ _ HI)|]. split; [apply (i_nscc _ _ HI)|].
    assert (Hd : forall x, (x < n)%nat -> 0 <= scc st x).
    { intros x Hx. destruct (Z.lt_ge_cases (scc st x) 0) as [Hlt|]; [|assumption]. exfalso.
      assert (Hs : In x (stack st)) by (apply (i_stk _ _ HI); split; [apply Hv, in_seq; lia|assumption]).
      destruct (i_down _ _ HI x Hs) as (g & [] & _). }
    split; [intros x Hx; split; [auto|apply (i_scc_lt _ _ HI)]|].
    split; [intros x y Hx Hxy; apply (i_done_closed _ _ HI x y (Hd x Hx) Hxy)|].
    split; [intros x y Hx Hy; apply (i_done_exact _ _ HI); auto|].
    intros s Hs. destruct (i_inhab _ _ HI s Hs) as (x & Hx). exists x. split; [|assumption].
    apply (num_dom st); [apply (i_len1 _ _ HI)|]. apply (i_done_vis _ _ HI). lia.
  Qed.
End Tarjan.
