From Verif.Base Require Import Base BaseFacts VecFacts.
From Verif.Types Require Import Model Spec Proofs ProofsUnify ProofsMain.

Section Api.
  Variable env : kind_env.
  Section Fixed.
    Variable kap : var -> ast_kind.
    Notation hask := (hask env kap).
    Notation wf := (wf env kap).
    Notation same := (same env kap).
    Notation extends := (extends env kap).
    Notation exact_for := (exact_for env).
    Notation typed := (typed env kap).

    Lemma unify_ok p a b : wf p -> typed p a -> typed p b ->
      exists p' r, conv (fun n => unify env n p a b) (p', r) /\ extends p p' /\
        exact_for True p (fun s => interp s a = interp s b) p' r.
    Proof.
      intros Hwf Ha Hb. destruct (gun_ok env kap false adjust_level (adjust_level_ok env kap) p a b Hwf Ha Hb) as (p' & r & H1 & H2 & H3).
      exists p', r. split; [eapply conv_ext; [intros n; apply unify_gun|exact H1]|]. split; [exact H2|].
      destruct r as [|[]]; cbn in *; auto.
    Qed.

    Lemma match_ok p a b : wf p -> typed p a -> typed p b ->
      exists p' r, conv (fun n => match_to_right env n p a b) (p', r) /\ extends p p' /\
        exact_for (ground p b) p (fun s => interp s a = interp s b) p' r.
    Proof.
      intros Hwf Ha Hb. destruct (gun_ok env kap true deny_adjust_required_level (deny_ok env kap) p a b Hwf Ha Hb) as (p' & r & H1 & H2 & H3).
      exists p', r. split; [eapply conv_ext; [intros n; apply match_gun|exact H1]|]. split; [exact H2|].
      destruct r as [|[]]; cbn in *; auto.
    Qed.

    (** * Levels and variables *)
    Lemma deepest_ok p s0 t : wf p -> canonical p s0 -> tbound (len p) t ->
      exists lv p', conv (fun n => compute_deepest_level n p t) (lv, p') /\ same p p' /\
        within lv (interp s0 t) /\ forall lv', within lv' (interp s0 t) -> (lv <= lv')%N.
    Proof.
      intros Hwf Hc Hb. unfold compute_deepest_level.
      match goal with |- context [dfs _ ?g _ _ _] => set (f := g) end.
      destruct (dfs_exact env kap f p s0 t top ltac:(reflexivity) Hwf Hc Hb) as (p1 & Hconv & Hs).
      assert (Hv : forall l acc, exists lv, visit_all f l acc = (lv, Ok) /\ (acc <= lv)%N /\
        (forall x, In x l -> match x with TName _ _ l0 | TGen _ l0 => (l0 <= lv)%N | _ => True end) /\
        (forall lv', (acc <= lv')%N -> (forall x, In x l -> match x with TName _ _ l0 | TGen _ l0 => (l0 <= lv')%N | _ => True end) -> (lv <= lv')%N)).
      { clear. induction l as [|x l IH]; intros acc.
        - exists acc. split; [reflexivity|]. split; [lia|]. split; [intros x []|auto].
        - assert (Hx : exists acc', visit f x acc = (acc', Ok) /\ acc' = match x with TName _ _ l0 | TGen _ l0 => N.max acc l0 | _ => acc end).
          { destruct x; eexists; (split; [reflexivity|reflexivity]). }
          destruct Hx as (acc' & Ex & Eacc). destruct (IH acc') as (lv & E & H1 & H2 & H3). exists lv. cbn [visit_all]. rewrite Ex.
          split; [exact E|]. split; [destruct x; subst acc'; lia|]. split.
          + intros y [<-|Hy]; [|exact (H2 y Hy)]. destruct x; auto; subst acc'; lia.
          + intros lv' Ha Hl. apply H3; [|intros y Hy; apply Hl; right; exact Hy]. pose proof (Hl x (or_introl eq_refl)) as Hx.
            destruct x; subst acc'; lia. }
      destruct (Hv (leaves (interp s0 t)) top) as (lv & E & H1 & H2 & H3). rewrite E in Hconv. cbn [fst snd] in Hconv.
      exists lv, p1. split; [|split; [exact Hs|split; [exact H2|]]].
      - eapply (conv_bind (fun n => dfs n f p t top)); [exact Hconv|]. apply conv_ret.
      - intros lv' Hw. apply H3; [unfold top; lia|exact Hw].
    Qed.

    Lemma get_vars_ok p s0 t lv : wf p -> canonical p s0 -> tbound (len p) t ->
      exists vs p', conv (fun n => get_vars n p t lv) (vs, p') /\ same p p' /\
        forall v, In v vs <-> exists k l, In (TName v k l) (leaves (interp s0 t)) /\ (lv <= l)%N.
    Proof.
      intros Hwf Hc Hb. unfold get_vars, collect_vars.
      match goal with |- context [dfs _ ?g _ _ _] => set (f := g) end.
      destruct (dfs_exact env kap f p s0 t [] ltac:(reflexivity) Hwf Hc Hb) as (p1 & Hconv & Hs).
      assert (Hv : forall l acc, exists vs, visit_all f l acc = (vs, Ok) /\
        forall v, In v vs <-> In v acc \/ exists k l0, In (TName v k l0) l /\ (lv <= l0)%N).
      { clear. induction l as [|x l IH]; intros acc.
        - exists acc. split; [reflexivity|]. intros v. split; [auto|]. intros [H|(k & l0 & [] & _)]. exact H.
        - assert (Hx : exists acc', visit f x acc = (acc', Ok) /\
            acc' = match x with TName v _ l0 => if (lv <=? l0)%N then v :: acc else acc | _ => acc end).
          { destruct x; eexists; (split; [reflexivity|reflexivity]). }
          destruct Hx as (acc' & Ex & Eacc). destruct (IH acc') as (vs & E & H). exists vs. cbn [visit_all]. rewrite Ex.
          split; [exact E|]. intros v. rewrite H. subst acc'. cbn [In].
          destruct x as [w k lw|c|callee args|g lw].
          2-4: split; intros [Hin|(k & l0 & Hin & Hl)]; auto; right; exists k, l0; (split; [|exact Hl]); [right; exact Hin|];
            destruct Hin as [Hin|Hin]; [discriminate|exact Hin].
          destruct (N.leb_spec lv lw) as [Hle|Hlt].
          + split.
            * intros [[<-|Hin]|(k' & l0 & Hin & Hl)]; [right; exists k, lw; auto|auto|right; exists k', l0; auto].
            * intros [Hin|(k' & l0 & [Hin|Hin] & Hl)]; [left; right; exact Hin|injection Hin as -> _ _; left; left; reflexivity|right; exists k', l0; auto].
          + split; intros [Hin|(k' & l0 & Hin & Hl)]; auto; right; exists k', l0; (split; [|exact Hl]); [right; exact Hin|].
            destruct Hin as [Hin|Hin]; [|exact Hin]. injection Hin as _ _ ->. lia. }
      destruct (Hv (leaves (interp s0 t)) []) as (vs & E & H). rewrite E in Hconv. cbn [fst snd] in Hconv.
      exists vs, p1. split; [|split; [exact Hs|]].
      - eapply (conv_bind (fun n => dfs n f p t [])); [exact Hconv|]. apply conv_ret.
      - intros v. rewrite H. cbn [In]. tauto.
    Qed.

    (** * Equality *)
    Lemma combine_map {A B} (f : A -> B) l l' : List.length l = List.length l' ->
      (map f l = map f l' <-> forall ab, In ab (combine l l') -> f (fst ab) = f (snd ab)).
    Proof. apply map_combine_eq. Qed.

    Lemma equal_ok m : forall p s0 a b, wf p -> canonical p s0 -> tbound (len p) a -> tbound (len p) b -> (size (interp s0 a) < m)%nat ->
      exists r p', conv (fun n => equal n p a b) (r, p') /\ same p p' /\ (r = true <-> erase (interp s0 a) = erase (interp s0 b)).
    Proof.
      induction m as [|m IH]; intros p s0 a b Hwf Hc Ha Hb Hm; [lia|].
      destruct (resolve_ok env kap p a Hwf Ha) as (a1 & p1 & Hr1 & Hs1 & Hn1 & _ & Hi1).
      pose proof Hs1 as (Hl1 & Hwf1 & Heq1 & _).
      destruct (resolve_ok env kap p1 b Hwf1) as (b1 & p2 & Hr2 & Hs2 & Hn2 & _ & Hi2); [rewrite Hl1; exact Hb|].
      rewrite <- (Hi1 s0 (proj1 Hc)) in *. rewrite <- (Hi2 s0 (proj2 (Heq1 s0) (proj1 Hc))) in *.
      pose proof (same_trans env kap _ _ _ Hs1 Hs2) as Hs12. pose proof (same_canonical env kap _ _ _ Hs12 Hc) as Hc2.
      pose proof (same_normal env kap _ _ _ Hs2 Hn1) as Hn1'. pose proof Hs12 as (Hl12 & Hwf2 & _).
      clear Hi1 Hi2 Ha Hb.
      assert (Hwrap : forall body, (exists r p', conv body (r, p') /\ same p2 p' /\ (r = true <-> erase (interp s0 a1) = erase (interp s0 b1))) ->
        (forall n, equal_on (fun pool ab => equal n pool (at_ (fst ab)) (at_ (snd ab))) p2 a1 b1 = body n) ->
        exists r p', conv (fun n => equal n p a b) (r, p') /\ same p p' /\ (r = true <-> erase (interp s0 a1) = erase (interp s0 b1))).
      { intros body (r & p' & Hcv & Hsm & Hx) Eb. exists r, p'. split; [|split; [eapply same_trans; eauto|exact Hx]].
        eapply conv_step; [intros n; reflexivity|]. eapply (conv_bind (fun n => resolve n p a)); [exact Hr1|]. cbn beta iota.
        eapply (conv_bind (fun n => resolve n p1 b)); [exact Hr2|]. cbn beta iota. eapply conv_ext; [exact Eb|]. exact Hcv. }
      assert (Hret : forall r : bool, (r = true <-> erase (interp s0 a1) = erase (interp s0 b1)) ->
        exists r' p', conv (fun _ => Ret (r, p2)) (r', p') /\ same p2 p' /\ (r' = true <-> erase (interp s0 a1) = erase (interp s0 b1))).
      { intros r Hr. exists r, p2. split; [apply conv_ret|]. split; [apply same_refl, Hwf2|exact Hr]. }
      assert (Hvar : forall v k lv, normal p2 (YVar v k lv) -> interp s0 (YVar v k lv) = TName v k lv).
      { intros v k lv (_ & Hv). cbn. exact (proj2 Hc2 v k lv Hv). }
      destruct a1 as [v k lv|c|a_callee a_args|g lv], b1 as [w k' lv'|c'|b_callee b_args|g' lv'];
        try (rewrite (Hvar v k lv Hn1') in *); try (rewrite (Hvar w k' lv' Hn2) in *);
        try (eapply Hwrap; [apply Hret|intros n; reflexivity]; cbn [interp erase]; split; [discriminate|discriminate]).
      - eapply Hwrap; [apply Hret|intros n; reflexivity]. cbn [erase]. rewrite Nat.eqb_eq. split; [|congruence]. intros <-.
        pose proof (proj2 Hn1') as H1. pose proof (proj2 Hn2) as H2. cbn in H1, H2. unfold unresolved in *. congruence.
      - eapply Hwrap; [apply Hret|intros n; reflexivity]. cbn [interp erase]. rewrite N.eqb_eq. split; congruence.
      - destruct (Nat.eqb_spec (vars_len a_args) (vars_len b_args)) as [Hlen|Hlen].
        2: { eapply Hwrap; [apply (Hret false)|intros n; cbn [equal_on]; destruct (Nat.eqb_spec (vars_len a_args) (vars_len b_args)); [contradiction|reflexivity]].
          split; [discriminate|]. cbn [interp erase]. intros H. injection H as _ H. exfalso. apply Hlen.
          apply (f_equal (@List.length gty)) in H. rewrite !map_length, !vars_iter_length in H. exact H. }
        assert (Hlens : List.length (vars_iter a_args) = List.length (vars_iter b_args)) by (rewrite !vars_iter_length; exact Hlen).
        assert (Hone : forall q x y, same p2 q -> tchild (YApp a_callee a_args) x -> tchild (YApp b_callee b_args) y ->
          exists r p', conv (fun n => equal n q (at_ x) (at_ y)) (r, p') /\ same p2 p' /\ (r = true <-> erase (s0 x) = erase (s0 y))).
        { intros q x y Hsq Hx Hy. destruct (IH q s0 (at_ x) (at_ y)) as (r & p' & H1 & H2 & H3).
          - apply Hsq.
          - eapply same_canonical; eauto.
          - intros j ->. rewrite (proj1 Hsq). apply (proj1 Hn1'), Hx.
          - intros j ->. rewrite (proj1 Hsq). apply (proj1 Hn2), Hy.
          - pose proof (interp_child_size s0 _ _ Hx) as H. specialize (H ltac:(discriminate)). cbn [interp at_] in *. lia.
          - exists r, p'. split; [exact H1|]. split; [eapply same_trans; eauto|exact H3]. }
        assert (Hall : forall l q, incl l (combine (vars_iter a_args) (vars_iter b_args)) -> same p2 q ->
          exists r p', conv (fun n => all_ctx (fun pool ab => equal n pool (at_ (fst ab)) (at_ (snd ab))) q l) (r, p') /\ same p2 p' /\
            (r = true <-> forall ab, In ab l -> erase (s0 (fst ab)) = erase (s0 (snd ab)))).
        { induction l as [|(x, y) l IHl]; intros q Hincl Hsq.
          - exists true, q. split; [apply conv_ret|]. split; [exact Hsq|]. split; [intros _ ab []|reflexivity].
          - destruct (Hone q x y Hsq) as (r & q2 & H1 & H2 & H3).
            { right. pose proof (Hincl _ (or_introl eq_refl)) as Hin. apply in_combine_l in Hin. exact Hin. }
            { right. pose proof (Hincl _ (or_introl eq_refl)) as Hin. apply in_combine_r in Hin. exact Hin. }
            destruct r.
            + destruct (IHl q2) as (r & q3 & G1 & G2 & G3); [intros z Hz; apply Hincl; right; exact Hz|exact H2|].
              exists r, q3. split; [|split; [exact G2|]].
              * cbn [all_ctx]. eapply (conv_bind (fun n => equal n q (at_ (fst (x, y))) (at_ (snd (x, y))))); [exact H1|]. exact G1.
              * rewrite G3. split.
                -- intros H ab [<-|Hin]; [apply H3; reflexivity|exact (H ab Hin)].
                -- intros H ab Hin. apply H. right. exact Hin.
            + exists false, q2. split; [|split; [exact H2|]].
              * cbn [all_ctx]. eapply (conv_bind (fun n => equal n q (at_ (fst (x, y))) (at_ (snd (x, y))))); [exact H1|]. apply conv_ret.
              * split; [discriminate|]. intros H. apply H3. exact (H (x, y) (or_introl eq_refl)). }
        eapply Hwrap; [|intros n; cbn [equal_on]; rewrite (proj2 (Nat.eqb_eq _ _) Hlen); cbn [negb]; reflexivity].
        destruct (Hone p2 a_callee b_callee) as (r & q & H1 & H2 & H3).
        { apply same_refl, Hwf2. } { left; reflexivity. } { left; reflexivity. }
        assert (Hmap : map erase (map s0 (vars_iter a_args)) = map erase (map s0 (vars_iter b_args)) <->
          forall ab, In ab (combine (vars_iter a_args) (vars_iter b_args)) -> erase (s0 (fst ab)) = erase (s0 (snd ab))).
        { rewrite !map_map. apply (combine_map (fun x => erase (s0 x)) _ _ Hlens). }
        cbn [interp erase]. destruct r.
        + destruct (Hall _ q (incl_refl _) H2) as (r & q2 & G1 & G2 & G3). exists r, q2. split; [|split; [exact G2|]].
          * eapply (conv_bind (fun n => equal n p2 (at_ (fst (a_callee, b_callee))) (at_ (snd (a_callee, b_callee))))); [exact H1|]. exact G1.
          * rewrite G3, <- Hmap. split; [intros H; f_equal; [apply H3; reflexivity|exact H]|congruence].
        + exists false, q. split; [|split; [exact H2|]].
          * eapply (conv_bind (fun n => equal n p2 (at_ (fst (a_callee, b_callee))) (at_ (snd (a_callee, b_callee))))); [exact H1|]. apply conv_ret.
          * split; [discriminate|]. intros H. injection H as H _. apply H3, H.
      - eapply Hwrap; [apply Hret|intros n; reflexivity]. cbn [interp erase]. rewrite N.eqb_eq. split; congruence.
    Qed.

    Lemma equal_exact p s0 a b : wf p -> canonical p s0 -> tbound (len p) a -> tbound (len p) b ->
      exists r p', conv (fun n => equal n p a b) (r, p') /\ same p p' /\ (r = true <-> erase (interp s0 a) = erase (interp s0 b)).
    Proof. intros H1 H2 H3 H4. apply (equal_ok (S (size (interp s0 a)))); auto. Qed.

    (** * Exporting *)
    Lemma export_ok m : forall p s0 t, wf p -> canonical p s0 -> tbound (len p) t -> (size (interp s0 t) < m)%nat ->
      exists p', conv (fun n => export n p t) (ast_of (interp s0 t), p') /\ same p p'.
    Proof.
      induction m as [|m IH]; intros p s0 t Hwf Hc Hb Hm; [lia|].
      destruct (resolve_ok env kap p t Hwf Hb) as (t1 & p1 & Hr & Hs1 & Hn1 & _ & Hi1).
      rewrite <- (Hi1 s0 (proj1 Hc)) in *. clear Hi1 Hb.
      pose proof (same_canonical env kap _ _ _ Hs1 Hc) as Hc1.
      assert (Hwrap : forall body r p', (forall n, export (S n) p t = let* r := resolve n p t in let '(k, pool) := r in body k pool n) ->
         conv (body t1 p1) (r, p') -> conv (fun n => export n p t) (r, p')).
      { intros body r p' Eb Hb. eapply conv_step; [exact Eb|]. eapply (conv_bind (fun n => resolve n p t)); [exact Hr|]. exact Hb. }
      destruct t1 as [v k lv|c|callee args|g lv];
        try (exists p1; split; [|exact Hs1]; eapply (Hwrap (fun k pool n => _)); [intros n; reflexivity|]; apply conv_ret).
      - exists p1; split; [|exact Hs1]. cbn [interp]. rewrite (proj2 Hc1 v k lv (proj2 Hn1)).
        eapply (Hwrap (fun k pool n => _)); [intros n; reflexivity|]; apply conv_ret.
      - assert (Hone : forall q j, tchild (YApp callee args) j -> same p q ->
          exists p', conv (fun n => export n q (at_ j)) (ast_of (s0 j), p') /\ same p p').
        { intros q j Hj Hsq. destruct (IH q s0 (at_ j)) as (q2 & Hc2 & Hs2).
          - apply Hsq.
          - eapply same_canonical; eauto.
          - intros x ->. rewrite (proj1 Hsq), <- (proj1 Hs1). apply (proj1 Hn1), Hj.
          - pose proof (interp_child_size s0 _ j Hj). specialize (H ltac:(discriminate)). cbn [interp at_] in *. lia.
          - exists q2. split; [exact Hc2|eapply same_trans; eauto]. }
        assert (Hl : forall l q, incl l (vars_iter args) -> same p q ->
          exists p', conv (fun n => map_ctx (fun pool v => export n pool (at_ v)) q l) (map ast_of (map s0 l), p') /\ same p p').
        { induction l as [|j l IHl]; intros q Hincl Hsq; [exists q; split; [apply conv_ret|exact Hsq]|].
          destruct (Hone q j) as (q2 & Hc2 & Hs2); [right; apply Hincl; left; reflexivity|exact Hsq|].
          destruct (IHl q2) as (q3 & Hc3 & Hs3); [intros x Hx; apply Hincl; right; exact Hx|exact Hs2|].
          exists q3. split; [|exact Hs3]. cbn [map_ctx]. eapply (conv_bind (fun n => export n q (at_ j))); [exact Hc2|].
          cbn beta iota. eapply (conv_bind (fun n => map_ctx (fun pool v => export n pool (at_ v)) q2 l)); [exact Hc3|]. apply conv_ret. }
        destruct (Hone p1 callee (or_introl eq_refl) Hs1) as (p2 & Hc2 & Hs2).
        destruct (Hl (vars_iter args) p2 (incl_refl _) Hs2) as (p3 & Hc3 & Hs3).
        exists p3. split; [|exact Hs3]. eapply (Hwrap (fun k pool n => _)); [intros n; reflexivity|]. cbn beta iota.
        eapply (conv_bind (fun n => export n p1 (at_ callee))); [exact Hc2|]. cbn beta iota.
        eapply (conv_bind (fun n => map_ctx (fun pool v => export n pool (at_ v)) p2 (vars_iter args))); [exact Hc3|]. apply conv_ret.
    Qed.

    Lemma export_exact p s0 t : wf p -> canonical p s0 -> tbound (len p) t ->
      exists p', conv (fun n => export n p t) (ast_of (interp s0 t), p') /\ same p p'.
    Proof. intros H1 H2 H3. apply (export_ok (S (size (interp s0 t)))); auto. Qed.

    (** * Defaulting to a type constructor *)
    Lemma default_ok c : forall m p t s, wf p -> equations p s ->
      (forall v, unres p v -> s v = TCon c) -> tbound (len p) t -> (size (interp s t) < m)%nat ->
      exists p' r, conv (fun n => default_vars env n p t (YCon c)) (p', r) /\ extends p p' /\
        match r with
        | Ok => forall s', (equations p' s' <-> equations p s' /\ interp s' t = interp s t) /\ (equations p' s' -> (fits env p' s' <-> fits env p s'))
        | Err e => e = Mismatch /\ exists v k lv, unresolved p v k lv /\ k <> con_kind env c
        end.
    Proof.
      induction m as [|m IH]; intros p t s Hwf Hs Hun Hb Hm; [lia|].
      destruct (resolve_ok env kap p t Hwf Hb) as (t1 & p1 & Hr & Hs1 & Hn1 & _ & Hi1).
      pose proof Hs1 as (Hl1 & Hwf1 & Heq1 & Hun1).
      assert (Hwrap : (exists p' r, conv (fun n => match t1 with
        | YVar v _ _ => unify env n p1 (at_ v) (YCon c)
        | YApp callee args =>
          let* r := default_vars env n p1 (at_ callee) (YCon c) in
          match r with
          | (pool, Ok) => for_each (fun pool v => default_vars env n pool (at_ v) (YCon c)) pool (vars_iter args)
          | (pool, Err e) => Ret (pool, Err e)
          end
        | _ => Ret (p1, Ok)
        end) (p', r) /\ extends p1 p' /\ match r with
        | Ok => forall s', (equations p' s' <-> equations p1 s' /\ interp s' t1 = interp s t1) /\ (equations p' s' -> (fits env p' s' <-> fits env p1 s'))
        | Err e => e = Mismatch /\ exists v k lv, unresolved p1 v k lv /\ k <> con_kind env c
        end) ->
        exists p' r, conv (fun n => default_vars env n p t (YCon c)) (p', r) /\ extends p p' /\
        match r with
        | Ok => forall s', (equations p' s' <-> equations p s' /\ interp s' t = interp s t) /\ (equations p' s' -> (fits env p' s' <-> fits env p s'))
        | Err e => e = Mismatch /\ exists v k lv, unresolved p v k lv /\ k <> con_kind env c
        end).
      { intros (p' & r & Hc & He & Hx). exists p', r. split; [|split].
        - eapply conv_step; [intros n; reflexivity|]. eapply (conv_bind (fun n => resolve n p t)); [exact Hr|]. exact Hc.
        - eapply extends_trans; [apply same_extends, Hs1|exact He].
        - destruct r as [|e].
          + intros s'. destruct (Hx s') as (X1 & X2). split.
            * rewrite X1, Heq1, <- (Hi1 s Hs). split; intros (H1 & H2); (split; [exact H1|]); rewrite (Hi1 s' H1) in *; exact H2.
            * intros H. rewrite (X2 H). apply (same_fits env kap p p1 s' Hs1).
          + destruct Hx as (-> & v & k & lv & H1 & H2). split; [reflexivity|]. exists v, k, lv. split; [apply Hun1, H1|exact H2]. }
      apply Hwrap. clear Hwrap. apply Heq1 in Hs.
      assert (Hun' : forall v, unres p1 v -> s v = TCon c) by (intros v Hv; apply Hun, (same_unres env kap p p1 v Hs1), Hv).
      assert (Hm1 : (size (interp s t1) <= m)%nat) by (rewrite (Hi1 s); [lia|apply Heq1, Hs]).
      clear p t Hwf Hun Hb Hm Hr Hs1 Hi1 Hl1 Heq1 Hun1.
      assert (Hatom : (forall s s', interp s t1 = interp s' t1) ->
        exists p' r, conv (fun n => Ret (p1, @Ok error)) (p', r) /\ extends p1 p' /\ match r with
        | Ok => forall s', (equations p' s' <-> equations p1 s' /\ interp s' t1 = interp s t1) /\ (equations p' s' -> (fits env p' s' <-> fits env p1 s'))
        | Err e => e = Mismatch /\ exists v k lv, unresolved p1 v k lv /\ k <> con_kind env c
        end).
      { intros H. exists p1, Ok. split; [apply conv_ret|]. split; [apply same_extends, same_refl, Hwf1|].
        intros s'. split; [|tauto]. split; [|tauto]. intros H'. split; [exact H'|apply H]. }
      destruct t1 as [v k lv|c'|callee args|g lv]; try (apply Hatom; reflexivity).
      - destruct (unify_ok p1 (at_ v) (YCon c) Hwf1) as (p2 & r & Hc & He & Hx).
        { apply at_typed, (proj1 Hn1); reflexivity. } { split; [intros j []|]. eexists; reflexivity. }
        pose proof (proj2 Hn1) as Hu. cbn in Hu.
        pose proof (Hun' v (ex_intro _ k (ex_intro _ lv Hu))) as Hv. exists p2, r. split; [exact Hc|]. split; [exact He|].
        cbn [ProofsUnify.exact_for interp at_] in Hx. destruct r as [|[]].
        + intros s'. cbn [interp]. rewrite Hv. apply Hx.
        + exfalso. apply (Hx s Hs). exact Hv.
        + split; [reflexivity|]. exists v, k, lv. split; [exact Hu|]. intros Ek.
          destruct (equations_exists p1 (fun i => if Nat.eqb i v then TCon c else match nth_error p1 i with Some (YVar _ k lv) => TName i k lv | _ => TCon 0%N end) (proj1 Hwf1))
            as (s' & Hs' & Hu'). apply (Hx I s').
          * split; [exact Hs'|]. intros w k' lv' Hw. rewrite (Hu' w (ex_intro _ k' (ex_intro _ lv' Hw))).
            destruct (Nat.eqb_spec w v) as [->|Hne].
            -- cbn. unfold unresolved in *. split; [congruence|]. intros x [<-|[]]. exact I.
            -- unfold unresolved in Hw. rewrite Hw. split; [reflexivity|]. intros x [<-|[]]. lia.
          * rewrite (Hu' v (ex_intro _ k (ex_intro _ lv Hu))). rewrite Nat.eqb_refl. reflexivity.
      - clear Hatom. assert (Hsz : forall j, tchild (YApp callee args) j -> (size (s j) < m)%nat).
        { intros j Hj. pose proof (interp_child_size s (YApp callee args) j Hj). specialize (H ltac:(discriminate)). lia. }
        assert (Hunr : forall p, extends p1 p -> (exists v k lv, unresolved p v k lv /\ k <> con_kind env c) -> exists v k lv, unresolved p1 v k lv /\ k <> con_kind env c).
        { intros p He (v & k & lv & Hu & Hk). destruct (proj1 (proj2 (proj2 He)) v) as (k1 & lv1 & Hu1); [exists k, lv; exact Hu|].
          exists v, k1, lv1. split; [exact Hu1|]. pose proof (proj2 (proj2 Hwf1 v _ Hu1) k1 lv1 eq_refl) as E1.
          pose proof (proj2 (proj2 (proj1 (proj2 He)) v _ Hu) k lv eq_refl) as E2. congruence. }
        assert (Hone : forall p j, tchild (YApp callee args) j -> extends p1 p -> equations p s ->
          exists p' r, conv (fun n => default_vars env n p (at_ j) (YCon c)) (p', r) /\ extends p p' /\ match r with
          | Ok => forall s', (equations p' s' <-> equations p s' /\ s' j = s j) /\ (equations p' s' -> (fits env p' s' <-> fits env p s'))
          | Err e => e = Mismatch /\ exists v k lv, unresolved p1 v k lv /\ k <> con_kind env c
          end).
        { intros p j Hj He Hsp. destruct (IH p (at_ j) s) as (p2 & r & H1 & H2 & H3).
          - apply He.
          - exact Hsp.
          - intros v Hv. apply Hun'. apply He, Hv.
          - intros x ->. rewrite (proj1 He). apply (proj1 Hn1), Hj.
          - apply Hsz, Hj.
          - exists p2, r. split; [exact H1|]. split; [exact H2|]. destruct r as [|e]; [exact H3|]. destruct H3 as (-> & H3). split; [reflexivity|].
            eapply Hunr; eauto. }
        assert (Hl : forall l p, incl l (vars_iter args) -> extends p1 p -> equations p s ->
          exists p' r, conv (fun n => for_each (fun pool v => default_vars env n pool (at_ v) (YCon c)) p l) (p', r) /\ extends p p' /\ match r with
          | Ok => forall s', (equations p' s' <-> equations p s' /\ forall j, In j l -> s' j = s j) /\ (equations p' s' -> (fits env p' s' <-> fits env p s'))
          | Err e => e = Mismatch /\ exists v k lv, unresolved p1 v k lv /\ k <> con_kind env c
          end).
        { induction l as [|j l IHl]; intros p Hincl He Hsp.
          - exists p, Ok. split; [apply conv_ret|]. split; [apply same_extends, same_refl; apply He|]. intros s'. split; [|tauto]. split; [|tauto].
            intros H. split; [exact H|]. intros j [].
          - destruct (Hone p j) as (p2 & r & Hc2 & He2 & Hx2); [right; apply Hincl; left; reflexivity|exact He|exact Hsp|].
            destruct r as [|e].
            + destruct (IHl p2) as (p3 & r & Hc3 & He3 & Hx3).
              * intros x Hx. apply Hincl. right. exact Hx.
              * eapply extends_trans; eauto.
              * apply (Hx2 s). split; [exact Hsp|reflexivity].
              * exists p3, r. split; [|split; [eapply extends_trans; eauto|]].
                -- cbn [for_each]. eapply (conv_bind (fun n => default_vars env n p (at_ j) (YCon c))); [exact Hc2|]. exact Hc3.
                -- destruct r as [|e]; [|exact Hx3]. intros s'. destruct (Hx2 s') as (X1 & X2). destruct (Hx3 s') as (Y1 & Y2). split.
                   ++ rewrite Y1, X1. split.
                      ** intros ((H1 & H2) & H3). split; [exact H1|]. intros x [<-|Hx]; [exact H2|exact (H3 x Hx)].
                      ** intros (H1 & H2). split; [split; [exact H1|apply H2; left; reflexivity]|]. intros x Hx. apply H2. right. exact Hx.
                   ++ intros H. rewrite (Y2 H). apply X2. apply Y1, H.
            + exists p2, (Err e). split; [|split; [exact He2|exact Hx2]].
              cbn [for_each]. eapply (conv_bind (fun n => default_vars env n p (at_ j) (YCon c))); [exact Hc2|]. apply conv_ret. }
        destruct (Hone p1 callee (or_introl eq_refl) (same_extends env kap _ _ (same_refl env kap _ Hwf1)) Hs) as (p2 & r & Hc2 & He2 & Hx2).
        destruct r as [|e].
        + destruct (Hl (vars_iter args) p2 (incl_refl _) He2) as (p3 & r & Hc3 & He3 & Hx3); [apply (Hx2 s); auto|].
          exists p3, r. split; [|split; [eapply extends_trans; eauto|]].
          * eapply (conv_bind (fun n => default_vars env n p1 (at_ callee) (YCon c))); [exact Hc2|]. exact Hc3.
          * destruct r as [|e]; [|exact Hx3]. intros s'. destruct (Hx2 s') as (X1 & X2). destruct (Hx3 s') as (Y1 & Y2). split.
            -- rewrite Y1, X1. cbn [interp]. split.
               ++ intros ((H1 & H2) & H3). split; [exact H1|]. f_equal; [exact H2|]. apply map_ext_in. exact H3.
               ++ intros (H1 & H2). injection H2 as H2 H3. split; [split; [exact H1|exact H2]|]. intros j Hj. apply ext_in_map with (a := j) in H3; auto.
            -- intros H. rewrite (Y2 H). apply X2. apply Y1, H.
        + exists p2, (Err e). split; [|split; [exact He2|exact Hx2]].
          eapply (conv_bind (fun n => default_vars env n p1 (at_ callee) (YCon c))); [exact Hc2|]. apply conv_ret.
    Qed.
  End Fixed.
End Api.

Lemma gsubst_fill s d t : (forall v, occ v t -> s v = d) -> gsubst s t = fill d t.
Proof.
  induction t as [n k lv|c|callee args IHc IHa|g lv] using gty_ind'; cbn [gsubst fill]; intros H; try reflexivity.
  - apply H. apply occ_name. reflexivity.
  - f_equal; [apply IHc; intros v Hv; apply H, occ_app; left; exact Hv|]. apply map_ext_in. intros a Ha. rewrite Forall_forall in IHa.
    apply IHa; [exact Ha|]. intros v Hv. apply H, occ_app. right. eauto.
Qed.
