(** * The frame of a function *)
From Coq Require Import ZArith Permutation.
From Verif.Base Require Import Base.
From Verif.Ir Require Import Model RtInd.
From Verif.Frame Require Import Model Spec Proofs.

Section Fun.
Variable words : ct -> nat.
Variable in_memory : ct -> bool.
Notation go := (go words).
Notation new := (new words in_memory).
Notation at_ := (at_ words).
Notation sep := (sep words).
Notation ran := (ran words).

Lemma lookup_in l : functional l -> forall id o, lookup l id = Some o <-> In (id, o) l.
Proof.
  intros N id o. split.
  - clear N. induction l as [|[i x] l IH]; cbn; [discriminate|]. destruct (i =? id) eqn:E.
    + apply Nat.eqb_eq in E. intro H. injection H as ->. left. now subst.
    + intro H. right. apply IH, H.
  - intro I. assert (L : exists o', lookup l id = Some o' /\ In (id, o') l).
    { clear N. induction l as [|[i x] l IH]; cbn in *; [destruct I|]. destruct (i =? id) eqn:E.
      - apply Nat.eqb_eq in E. exists x. split; [reflexivity|left; now subst].
      - destruct I as [I|I]; [injection I as -> ->; rewrite Nat.eqb_refl in E; discriminate E|].
        destruct (IH I) as (o' & H & J). exists o'. split; [exact H|right; exact J]. }
    destruct L as (o' & H & J). now rewrite (functional_in _ _ _ _ N I J).
Qed.

Lemma place_at s v r : functional (offsets s) -> place words s v r <-> at_ (offsets s) v r.
Proof.
  intro N. unfold place, Proofs.at_. split; intros (o & I & E); exists o; (split; [|exact E]); now apply lookup_in in I || (apply lookup_in; assumption).
Qed.

Lemma separate_sep s vs : functional (offsets s) -> sep (offsets s) vs -> separate words s vs.
Proof.
  intro N. induction 1 as [|v vs (r & P) H _ IH]; constructor.
  - exists r. now apply place_at.
  - intros w q q' I P1 P2. apply place_at in P1, P2; try assumption. eapply H; eassumption.
  - exact IH.
Qed.

Lemma sum_words_sum ps : sum_words words ps = sum (map (fun v => words (snd v)) ps).
Proof. induction ps as [|[id t] ps IH]; cbn; [reflexivity|]. now rewrite IH. Qed.

(** ** Parameters *)

Lemma add_params_ran ps : forall base f, exists new,
  offsets (add_params words (base + Z.of_nat (sum_words words ps) * 8) ps f) = new ++ offsets f /\
  Permutation (map fst new) (map fst ps) /\
  vars (add_params words (base + Z.of_nat (sum_words words ps) * 8) ps f) = vars f /\
  scope (add_params words (base + Z.of_nat (sum_words words ps) * 8) ps f) = scope f /\
  allocs (add_params words (base + Z.of_nat (sum_words words ps) * 8) ps f) = allocs f /\
  forall p1 id t p2, ps = p1 ++ (id, t) :: p2 -> In (id, (base + Z.of_nat (sum_words words p2) * 8)%Z) new.
Proof.
  induction ps as [|[id t] ps IH]; intros base f; cbn [add_params sum_words].
  - exists []. repeat split; try reflexivity. intros [|? ?] ? ? ? E; discriminate E.
  - replace (base + Z.of_nat (words t + sum_words words ps) * 8 - Z.of_nat (words t) * 8)%Z
      with (base + Z.of_nat (sum_words words ps) * 8)%Z by lia.
    destruct (IH base (insert id (base + Z.of_nat (sum_words words ps) * 8)%Z f)) as (new & O & P & V & S & A & H).
    exists (new ++ [(id, (base + Z.of_nat (sum_words words ps) * 8)%Z)]). rewrite O, V, S, A.
    split; [now rewrite <- app_assoc|]. split; [|repeat split].
    + rewrite map_app. cbn [map fst]. rewrite P. symmetry. apply Permutation_cons_append.
    + intros p1 i u p2 E. apply in_app_iff. destruct p1 as [|p p1]; cbn in E.
      * injection E as <- <- <-. right. left. reflexivity.
      * injection E as <- E. left. eapply H, E.
Qed.

(** ** The frame before the body *)

Definition env_vars (f : function) : list param :=
  match f_env f with Some (id, es) => (id, CtEnv) :: es | None => [] end.

Record setup (f : function) (s0 : frame) (ret : option Z) : Prop := {
  u_ids : Permutation (map fst (offsets s0)) (map fst (initial f));
  u_scope : (scope s0 <= vars s0)%nat;
  u_allocs : allocs s0 = 0;
  u_sep : forall G, functional G -> incl (offsets s0) G ->
    sep G (initial f) /\ above words G (scope s0) (initial f) /\
    (forall v r, In v (saved f) -> at_ G v r -> (offset_of (vars s0) <= fst r /\ snd r <= 0)%Z);
  u_passed : forall p1 v p2, passed f = p1 ++ v :: p2 ->
    In (fst v, (16 + Z.of_nat (sum_words words p2) * 8)%Z) (offsets s0);
  u_ret : ret <> None <-> in_memory (f_ret f) = true;
  u_apart : forall o, ret = Some o -> (offset_of (scope s0) <= o /\ o + 8 <= 0)%Z /\
    forall G v r, functional G -> incl (offsets s0) G -> In v (initial f) -> at_ G v r -> apart (o, o + 8)%Z r }.

Lemma check_ret b u : check b = Ret u -> b = true.
Proof. destruct b; [reflexivity|discriminate]. Qed.

Lemma sep_passed G ps lo : functional G ->
  (forall p1 v p2, ps = p1 ++ v :: p2 -> In (fst v, (lo + Z.of_nat (sum_words words p2) * 8)%Z) G) ->
  sep G ps /\ forall v r, In v ps -> at_ G v r -> (lo <= fst r /\ snd r <= lo + Z.of_nat (sum_words words ps) * 8)%Z.
Proof.
  intro N. induction ps as [|[id t] ps IH]; intro H.
  - split; [constructor|]. intros v r [].
  - destruct IH as (S & B); [intros p1 v p2 E; apply (H ((id, t) :: p1)); cbn; now rewrite E|].
    assert (P0 : at_ G (id, t) (lo + Z.of_nat (sum_words words ps) * 8, lo + Z.of_nat (sum_words words ps) * 8 + Z.of_nat (words t) * 8)%Z)
      by (eexists; split; [apply (H [] (id, t) ps eq_refl)|reflexivity]).
    split.
    + constructor; [eexists; exact P0| |exact S]. intros w r r' I P P'. rewrite (at_functional _ _ _ _ _ N P P0).
      right. cbn. apply (B w r' I P').
    + cbn [sum_words]. intros v r [<-|I] P.
      * rewrite (at_functional _ _ _ _ _ N P P0). cbn. lia.
      * specialize (B v r I P). lia.
Qed.

Lemma new_setup f s ret : new f = Ret (s, ret) -> exists s0, setup f s0 ret /\ go (f_body f) s0 = Ret s.
Proof.
  unfold Model.new. intro H. apply bind_ret in H. destruct H as (s1 & H1 & H). apply bind_ret in H.
  destruct H as ((ret' & s2) & H2 & H). apply bind_ret in H. destruct H as (s3 & H3 & H). apply bind_ret in H.
  destruct H as (s4 & H4 & H). injection H as <- <-. exists s3. split; [|exact H4]. clear H4.
  (* the environment *)
  assert (E1 : exists n1, ran (env_vars f) (Frame [] 0 0 0) s1 n1 /\ allocs s1 = 0 /\
    forall G, functional G -> incl n1 G -> sep G (env_vars f) /\ above words G (scope s1) (env_vars f) /\
      below words G 0 (env_vars f)).
  { unfold env_vars. destruct (f_env f) as [[id es]|].
    - apply bind_ret in H1. destruct H1 as (u & _ & H1). injection H1 as <-.
      change (add_vars words es (add_var words id CtEnv (Frame [] 0 0 0)))
        with (add_vars words ((id, CtEnv) :: es) (Frame [] 0 0 0)).
      destruct (add_vars_ran words ((id, CtEnv) :: es) (Frame [] 0 0 0) (le_n 0)) as (n1 & R & S).
      exists n1. split; [exact R|]. split.
      + generalize ((id, CtEnv) :: es) as l. assert (K : forall l g, allocs (add_vars words l g) = allocs g)
          by (intro l; induction l as [|[i t] l IH]; intro g; cbn [add_vars]; [reflexivity|rewrite IH; reflexivity]).
        intro l. now rewrite K.
      + intros G Fn I. destruct (S G Fn I) as (A & B & C). cbn in B. auto.
    - injection H1 as <-. exists []. split; [apply ran_nil, le_n|]. split; [reflexivity|]. intros G _ _.
      split; [constructor|]. split; intros v r []. }
  destruct E1 as (n1 & R1 & A1 & S1). pose proof (r_offsets _ _ _ _ _ R1) as O1. cbn in O1. rewrite app_nil_r in O1.
  pose proof (r_wf _ _ _ _ _ R1) as W1.
  (* the return pointer *)
  assert (E2 : offsets s2 = offsets s1 /\ (scope s1 <= scope s2)%nat /\ (scope s2 <= vars s2)%nat /\ allocs s2 = 0 /\
    (ret' <> None <-> in_memory (f_ret f) = true) /\
    forall o, ret' = Some o -> (offset_of (scope s2) <= o)%Z /\ (o + 8 <= offset_of (scope s1))%Z).
  { destruct (in_memory (f_ret f)).
    - apply bind_ret in H2. destruct H2 as (u & _ & H2). cbn in H2. injection H2 as <- <-. cbn. unfold offset_of.
      repeat split; try lia; try congruence; intros; injection H as <-; lia.
    - injection H2 as <- <-. repeat split; try lia; try congruence; discriminate. }
  destruct E2 as (O2 & L2 & W2 & A2 & I2 & P2).
  (* the parameters *)
  assert (Cases : (f_kind f = Macro /\ exists v, f_params f = [v] /\ s3 = add_var words (fst v) (snd v) s2) \/
    (f_kind f <> Macro /\ s3 = add_params words (16 + Z.of_nat (sum_words words (f_params f)) * 8)%Z (f_params f) s2)).
  { destruct (f_kind f); [right; split; [discriminate|congruence]|right; split; [discriminate|congruence]|].
    left. split; [reflexivity|]. destruct (f_params f) as [|[id t] [|]]; try discriminate H3.
    exists (id, t). split; [reflexivity|]. injection H3 as <-. reflexivity. }
  destruct Cases as [(Mk & v & Ev & E3)|(Mk & E3)].
  - assert (Es : saved f = env_vars f ++ [v]) by (unfold saved, env_vars; now rewrite Mk, Ev).
    assert (Ei : initial f = env_vars f ++ [v]) by (unfold initial, env_vars; now rewrite Ev).
    assert (Ep : passed f = []) by (unfold passed; now rewrite Mk).
    pose proof (add_var_ran words (fst v) (snd v) s2 W2) as R3. rewrite <- E3 in R3.
    pose proof (r_offsets _ _ _ _ _ R3) as O3. rewrite O2, O1 in O3.
    assert (Sc3 : scope s3 = scope s2 + words (snd v)) by (subst s3; reflexivity).
    assert (Key : forall G, functional G -> incl (offsets s3) G ->
      (sep G (env_vars f) /\ above words G (scope s1) (env_vars f) /\ below words G 0 (env_vars f)) /\
      forall r, at_ G v r -> r = (offset_of (scope s3), offset_of (scope s2))).
    { intros G Fn I. split; [apply S1; [exact Fn|]; intros e J; apply I; rewrite O3; right; exact J|].
      intros r Q. assert (Q0 : at_ G v (offset_of (scope s3), offset_of (scope s3) + Z.of_nat (words (snd v)) * 8)%Z).
      { exists (offset_of (scope s3)). split; [|reflexivity]. apply I. rewrite O3, Sc3. left. reflexivity. }
      rewrite (at_functional _ _ _ _ _ Fn Q Q0). f_equal. unfold offset_of. rewrite Sc3. lia. }
    pose proof (r_wf _ _ _ _ _ R3) as W3. pose proof (r_vars _ _ _ _ _ R3) as V3.
    split.
    + rewrite O3, Ei, !map_app. cbn [map app fst]. rewrite (r_ids _ _ _ _ _ R1). apply Permutation_cons_append.
    + exact W3.
    + subst s3. exact A2.
    + intros G Fn I. destruct (Key G Fn I) as ((A & B & C) & P). rewrite Ei, Es. split; [|split].
      * apply sep_app; [exact A| |].
        -- constructor; [|intros ? ? ? []|constructor]. eexists. eexists. split; [|reflexivity]. apply I. rewrite O3. left. reflexivity.
        -- intros a w r r' J [<-|[]] Q Q'. apply P in Q'. subst r'. right. cbn. specialize (B a r J Q).
           pose proof (offset_le _ _ L2). lia.
      * intros a r J Q. apply in_app_iff in J. destruct J as [J|[<-|[]]].
        -- specialize (B a r J Q). assert (L : (scope s1 <= scope s3)%nat) by lia. pose proof (offset_le _ _ L). lia.
        -- apply P in Q. subst r. cbn. lia.
      * intros a r J Q. apply in_app_iff in J. destruct J as [J|[<-|[]]].
        -- specialize (B a r J Q). specialize (C a r J Q). assert (L : (scope s1 <= vars s3)%nat) by lia.
           pose proof (offset_le _ _ L). unfold offset_of in *. lia.
        -- apply P in Q. subst r. cbn. pose proof (offset_le _ _ W3). unfold offset_of in *. lia.
    + intros p1 w p2 E. rewrite Ep in E. destruct p1; discriminate E.
    + exact I2.
    + intros o E. destruct (P2 o E) as [B1 B2]. split.
      * assert (L : (scope s2 <= scope s3)%nat) by lia. pose proof (offset_le _ _ L). unfold offset_of in *. lia.
      * intros G a r Fn I J Q. destruct (Key G Fn I) as ((A & B & C) & P). rewrite Ei in J. apply in_app_iff in J.
        destruct J as [J|[<-|[]]].
        -- left. cbn. specialize (B a r J Q). lia.
        -- apply P in Q. subst r. right. cbn. lia.
  - assert (Es : saved f = env_vars f) by (unfold saved, env_vars; destruct (f_kind f); [| |congruence]; apply app_nil_r).
    assert (Ei : initial f = env_vars f ++ f_params f) by reflexivity.
    assert (Ep : passed f = f_params f) by (unfold passed; destruct (f_kind f); congruence).
    destruct (add_params_ran (f_params f) 16 s2) as (n3 & O3 & Pn & V3 & S3 & A3 & H3'). rewrite <- E3 in *.
    rewrite O2, O1 in O3.
    assert (Key : forall G, functional G -> incl (offsets s3) G ->
      (sep G (env_vars f) /\ above words G (scope s1) (env_vars f) /\ below words G 0 (env_vars f)) /\
      sep G (f_params f) /\ forall v r, In v (f_params f) -> at_ G v r -> (16 <= fst r)%Z).
    { intros G Fn I. split; [apply S1; [exact Fn|]; intros e J; apply I; rewrite O3; apply in_app_iff; right; exact J|].
      destruct (sep_passed G (f_params f) 16 Fn) as (A & B).
      - intros p1 [id t] p2 E. apply I. rewrite O3. apply in_app_iff. left. eapply H3', E.
      - split; [exact A|]. intros v r J Q. apply (B v r J Q). }
    split.
    + rewrite O3, Ei, !map_app. rewrite Pn, (r_ids _ _ _ _ _ R1). apply Permutation_app_comm.
    + rewrite V3, S3. exact W2.
    + now rewrite A3.
    + intros G Fn I. destruct (Key G Fn I) as ((A & B & C) & A' & P). rewrite Ei, Es. split; [|split].
      * apply sep_app; [exact A|exact A'|]. intros a w r r' J J' Q Q'. specialize (C a r J Q). specialize (P w r' J' Q').
        left. unfold offset_of in *. lia.
      * intros a r J Q. apply in_app_iff in J. rewrite S3. destruct J as [J|J].
        -- specialize (B a r J Q). pose proof (offset_le _ _ L2). lia.
        -- specialize (P a r J Q). unfold offset_of. lia.
      * intros a r J Q. specialize (B a r J Q). specialize (C a r J Q). rewrite V3.
        assert (L : (scope s1 <= vars s2)%nat) by lia. pose proof (offset_le _ _ L). unfold offset_of in *. lia.
    + rewrite Ep. intros p1 [id t] p2 E. cbn. rewrite O3. apply in_app_iff. left. eapply H3', E.
    + exact I2.
    + intros o E. destruct (P2 o E) as [B1 B2]. rewrite S3. split; [unfold offset_of in *; lia|].
      intros G a r Fn I J Q. destruct (Key G Fn I) as ((A & B & C) & A' & P). rewrite Ei in J. apply in_app_iff in J.
      left. cbn. destruct J as [J|J].
      * specialize (B a r J Q). lia.
      * specialize (P a r J Q). unfold offset_of in *. lia.
Qed.

Section Result.
Variables (f : function) (s : frame) (ret : option Z).
Hypothesis distinct : NoDup (map fst (bound f)).
Hypothesis made : new f = Ret (s, ret).

Lemma result : exists s0 n, setup f s0 ret /\ ran (binders (f_body f)) s0 s n /\ safe words (f_body f) s0 s n /\
  functional (offsets s) /\ incl n (offsets s) /\ incl (offsets s0) (offsets s).
Proof.
  destruct (new_setup f s ret made) as (s0 & U & H).
  destruct (all_good words (f_body f) s0 s (u_scope _ _ _ U) H) as (n & R & S). exists s0, n.
  split; [exact U|]. split; [exact R|]. split; [exact S|]. pose proof (r_offsets _ _ _ _ _ R) as O. split; [|split].
  - unfold functional. rewrite O, map_app. eapply Permutation_NoDup; [|exact distinct]. unfold bound. rewrite map_app.
    rewrite (r_ids _ _ _ _ _ R), (u_ids _ _ _ U). apply Permutation_app_comm.
  - rewrite O. apply incl_appl, incl_refl.
  - rewrite O. apply incl_appr, incl_refl.
Qed.

Lemma frame_separate : forall sc, live (initial f) [] [] (f_body f) sc -> separate words s sc.
Proof.
  intros sc L. destruct result as (s0 & n & U & R & S & Fn & I & I0). apply separate_sep; [exact Fn|].
  destruct (u_sep _ _ _ U _ Fn I0) as (A & B & _).
  eapply (S (offsets s) (initial f) [] []); try eassumption.
  - constructor.
  - intros v r [].
  - intros k ps [].
Qed.

Lemma frame_locals : forall v, In v (locals f) -> exists r, place words s v r /\ (- Z.of_nat (vars s) * 8 <= fst r /\ snd r <= 0)%Z.
Proof.
  intros v J. destruct result as (s0 & n & U & R & S & Fn & I & I0). unfold locals in J. apply in_app_iff in J.
  pose proof (r_vars _ _ _ _ _ R) as V.
  destruct J as [J|J].
  - destruct (u_sep _ _ _ U _ Fn I0) as (A & B & C).
    assert (Ji : In v (initial f)).
    { unfold saved, initial in *. apply in_app_iff in J. apply in_app_iff. destruct J as [J|J]; [left; exact J|right].
      destruct (f_kind f); [destruct J|destruct J|exact J]. }
    destruct (sep_place _ _ _ _ A Ji) as (r & P). exists r. split; [now apply place_at|]. specialize (C v r J P).
    pose proof (offset_le _ _ V). unfold offset_of in *. lia.
  - destruct v as [id t]. destruct (r_places _ _ _ _ _ R id t J) as (m & M & L1 & L2).
    eexists. split; [apply place_at; [exact Fn|]; exists (offset_of m); split; [apply I, M|reflexivity]|].
    cbn. unfold offset_of. lia.
Qed.

Lemma frame_passed : forall p1 v p2, passed f = p1 ++ v :: p2 -> exists r, place words s v r /\
  fst r = (16 + Z.of_nat (sum (map (fun v => words (snd v)) p2)) * 8)%Z.
Proof.
  intros p1 v p2 E. destruct result as (s0 & n & U & R & S & Fn & I & I0).
  eexists. split; [apply place_at; [exact Fn|]; eexists; split; [apply I0, (u_passed _ _ _ U _ _ _ E)|reflexivity]|].
  cbn [fst]. now rewrite sum_words_sum.
Qed.

Lemma frame_return : (ret <> None <-> in_memory (f_ret f) = true) /\
  forall o, ret = Some o -> (- Z.of_nat (vars s) * 8 <= o /\ o + 8 <= 0)%Z /\
    forall v r, In v (bound f) -> place words s v r -> apart (o, o + 8)%Z r.
Proof.
  destruct result as (s0 & n & U & R & S & Fn & I & I0). split; [apply (u_ret _ _ _ U)|]. intros o E.
  destruct (u_apart _ _ _ U o E) as ((B1 & B2) & A). pose proof (r_vars _ _ _ _ _ R) as V. pose proof (u_scope _ _ _ U) as W.
  split; [unfold offset_of in *; lia|]. intros v r J Q. apply place_at in Q; [|exact Fn].
  unfold bound in J. apply in_app_iff in J. destruct J as [J|J]; [eapply A; eassumption|].
  destruct v as [id t]. destruct (r_places _ _ _ _ _ R id t J) as (m & M & L1 & L2).
  assert (Q' : at_ (offsets s) (id, t) (offset_of m, offset_of m + Z.of_nat (words t) * 8)%Z)
    by (exists (offset_of m); split; [apply I, M|reflexivity]).
  rewrite (at_functional _ _ _ _ _ Fn Q Q'). right. cbn. unfold offset_of in *. lia.
Qed.
End Result.
End Fun.
