From Verif.Base Require Import Base BaseFacts VecFacts.
From Verif.Types Require Import Model Spec Proofs ProofsUnify ProofsMain ProofsApi ProofsReach.

Section Exact.
  Variable env : kind_env.

  Ltac start H := apply reachable_good in H; destruct H as (kap & Hwf & Hts).
  Ltac typ Hts Ha := pose proof (typed_in env _ _ _ _ Hts Ha).

  Lemma unify_exact pool ts a b : reachable env pool ts -> In a ts -> In b ts ->
    exists pool' r, conv (fun n => unify env n pool a b) (pool', r) /\
      (forall s, equations pool' s -> equations pool s) /\
      match r with
      | Ok => forall s, solution env pool' s <-> solution env pool s /\ interp s a = interp s b
      | Err e => (~ exists s, solution env pool s /\ interp s a = interp s b) /\
          (e = OccursCheckFailed -> ~ exists s, equations pool s /\ interp s a = interp s b)
      end.
  Proof.
    intros H Ha Hb. start H.
    destruct (unify_ok env kap pool a b Hwf (typed_in env _ _ _ _ Hts Ha) (typed_in env _ _ _ _ Hts Hb)) as (p' & r & H1 & H2 & H3).
    exists p', r. split; [exact H1|]. split; [apply H2|]. destruct r as [|[]]; cbn in H3.
    - intros s. destruct (H3 s) as (E1 & E2). unfold solution. split.
      + intros (Hs & Hf). pose proof (proj1 E1 Hs). split; [split; [tauto|apply E2; auto]|tauto].
      + intros ((Hs & Hf) & He). assert (X : equations p' s) by (apply E1; auto). split; [exact X|]. apply E2; auto.
    - split; [intros (s & (Hs & _) & He); exact (H3 s Hs He)|]. intros _ (s & Hs & He). exact (H3 s Hs He).
    - split; [|discriminate]. intros (s & Hs & He). exact (H3 I s Hs He).
  Qed.

  Lemma match_exact pool ts a b : reachable env pool ts -> In a ts -> In b ts ->
    exists pool' r, conv (fun n => match_to_right env n pool a b) (pool', r) /\
      (forall s, equations pool' s -> equations pool s) /\
      match r with
      | Ok => forall s, solution env pool' s <-> solution env pool s /\ interp s a = interp s b
      | Err _ => ground pool b -> ~ exists s, solution env pool s /\ interp s a = interp s b
      end.
  Proof.
    intros H Ha Hb. start H.
    destruct (match_ok env kap pool a b Hwf (typed_in env _ _ _ _ Hts Ha) (typed_in env _ _ _ _ Hts Hb)) as (p' & r & H1 & H2 & H3).
    exists p', r. split; [exact H1|]. split; [apply H2|]. destruct r as [|[]]; cbn in H3.
    - intros s. destruct (H3 s) as (E1 & E2). unfold solution. split.
      + intros (Hs & Hf). pose proof (proj1 E1 Hs). split; [split; [tauto|apply E2; auto]|tauto].
      + intros ((Hs & Hf) & He). assert (X : equations p' s) by (apply E1; auto). split; [exact X|]. apply E2; auto.
    - intros _ (s & (Hs & _) & He). exact (H3 s Hs He).
    - intros HC (s & Hs & He). exact (H3 HC s Hs He).
  Qed.

  Lemma solvable pool ts (f : var -> gty) : reachable env pool ts ->
    exists s, equations pool s /\ (forall v k lv, unresolved pool v k lv -> s v = f v) /\
      forall s', equations pool s' -> (forall v k lv, unresolved pool v k lv -> s' v = f v) ->
        forall t, In t ts -> interp s' t = interp s t.
  Proof.
    intros H. start H. destruct (equations_exists pool f (proj1 Hwf)) as (s & Hs & Hu). exists s. split; [exact Hs|].
    split; [intros v k lv Hv; apply Hu; exists k, lv; exact Hv|]. intros s' Hs' Hu' t Ht.
    apply interp_ext. intros j Hj. apply (equations_unique pool s' s (proj1 Hwf) Hs' Hs).
    - intros i (k & lv & Hi). rewrite (Hu' i k lv Hi), Hu; [reflexivity|]. exists k, lv. exact Hi.
    - destruct (typed_in env _ _ _ _ Hts Ht) as (Hb & _). exact (Hb j Hj).
  Qed.

  Lemma resolve_exact pool ts a : reachable env pool ts -> In a ts ->
    exists t pool', conv (fun n => resolve n pool a) (t, pool') /\ head_normal pool' t /\
      (forall s, equations pool' s <-> equations pool s) /\
      (forall v k lv, unresolved pool' v k lv <-> unresolved pool v k lv) /\
      (forall s, equations pool s -> interp s t = interp s a).
  Proof.
    intros H Ha. start H. destruct (typed_in env _ _ _ _ Hts Ha) as (Hb & _).
    destruct (resolve_ok env kap pool a Hwf Hb) as (t & p' & H1 & H2 & H3 & _ & H5). exists t, p'. split; [exact H1|].
    split; [|split; [apply H2|split; [apply H2|exact H5]]]. destruct t; cbn; auto. exact (proj2 H3).
  Qed.

  Lemma kind_exact pool ts a : reachable env pool ts -> In a ts ->
    exists k pool', conv (fun n => get_kind env n pool a) (k, pool') /\
      (forall s, equations pool' s <-> equations pool s) /\
      (forall v k lv, unresolved pool' v k lv <-> unresolved pool v k lv) /\
      (forall s, solution env pool s -> kind_of env (interp s a) = Some k).
  Proof.
    intros H Ha. start H. destruct (typed_in env _ _ _ _ Hts Ha) as (Hb & K & HK).
    destruct (get_kind_exact env kap pool a K Hwf Hb HK) as (p' & H1 & H2). exists K, p'. split; [exact H1|].
    split; [apply H2|]. split; [apply H2|]. intros s (Hs & Hf). apply (kind_of_interp env kap); [|exact HK].
    intros j Hj. apply (kind_of_solution env kap pool s Hwf Hs); [intros v k lv Hv; apply (Hf v k lv Hv)|exact (Hb j Hj)].
  Qed.

  Lemma equal_is_exact pool ts a b s0 : reachable env pool ts -> In a ts -> In b ts -> canonical pool s0 ->
    exists r pool', conv (fun n => equal n pool a b) (r, pool') /\ (forall s, equations pool' s <-> equations pool s) /\
      (r = true <-> erase (interp s0 a) = erase (interp s0 b)).
  Proof.
    intros H Ha Hb Hs0. start H.
    destruct (equal_exact env kap pool s0 a b Hwf Hs0 (proj1 (typed_in env _ _ _ _ Hts Ha)) (proj1 (typed_in env _ _ _ _ Hts Hb))) as (r & p' & H1 & H2 & H3).
    exists r, p'. split; [exact H1|]. split; [apply H2|exact H3].
  Qed.

  Lemma levels_exact pool ts a s0 : reachable env pool ts -> In a ts -> canonical pool s0 ->
    (exists lv pool', conv (fun n => compute_deepest_level n pool a) (lv, pool') /\ (forall s, equations pool' s <-> equations pool s) /\
       within lv (interp s0 a) /\ forall lv', within lv' (interp s0 a) -> (lv <= lv')%N) /\
    (forall lv, exists vs pool', conv (fun n => get_vars n pool a lv) (vs, pool') /\ (forall s, equations pool' s <-> equations pool s) /\
       forall v, In v vs <-> exists k l, In (TName v k l) (leaves (interp s0 a)) /\ (lv <= l)%N).
  Proof.
    intros H Ha Hs0. start H. destruct (typed_in env _ _ _ _ Hts Ha) as (Hb & _). split.
    - destruct (deepest_ok env kap pool s0 a Hwf Hs0 Hb) as (lv & p' & H1 & H2 & H3). exists lv, p'. split; [exact H1|]. split; [apply H2|exact H3].
    - intros lv. destruct (get_vars_ok env kap pool s0 a lv Hwf Hs0 Hb) as (vs & p' & H1 & H2 & H3). exists vs, p'. split; [exact H1|]. split; [apply H2|exact H3].
  Qed.

  Lemma default_is_exact pool ts a c s0 : reachable env pool ts -> In a ts -> canonical pool s0 ->
    exists pool' r, conv (fun n => default_vars env n pool a (YCon c)) (pool', r) /\
      (forall s, equations pool' s -> equations pool s) /\
      match r with
      | Ok => forall s, solution env pool' s <-> solution env pool s /\ interp s a = fill (TCon c) (interp s0 a)
      | Err _ => exists v k lv, unresolved pool v k lv /\ k <> con_kind env c
      end.
  Proof.
    intros H Ha Hs0. start H. destruct (default_exact env kap pool a c Hwf (proj1 (typed_in env _ _ _ _ Hts Ha))) as (p' & r & H1 & H2 & H3).
    exists p', r. split; [exact H1|]. split; [apply H2|]. destruct r as [|e]; [|apply H3].
    intros s. destruct (H3 s0 Hs0 s) as (E1 & E2). unfold solution. split.
    - intros (Hs & Hf). pose proof (proj1 E1 Hs). split; [split; [tauto|apply E2; auto]|tauto].
    - intros ((Hs & Hf) & He). assert (X : equations p' s) by (apply E1; auto). split; [exact X|]. apply E2; auto.
  Qed.

  Lemma grows_solution kap p kap' p' : grows env kap p kap' p' ->
    (forall s, solution env p' s -> solution env p s) /\
    (forall s, solution env p s -> exists s', solution env p' s' /\ forall t, tbound (len p) t -> interp s' t = interp s t).
  Proof.
    intros (G1 & G2 & G3 & G4 & G5 & G6). split.
    - intros s (Hs & Hf). split; [apply G4, Hs|]. intros v k lv Hv. apply Hf, G6, Hv.
    - intros s (Hs & Hf). destruct (G5 s Hs) as (s' & Hs' & He). exists s'. split.
      + split; [exact Hs'|]. intros v k lv Hv. apply G6 in Hv. rewrite He; [exact (Hf v k lv Hv)|].
        apply nth_error_Some. unfold unresolved in Hv. congruence.
      + intros t Ht. apply interp_ext. intros j Hj. apply He, Ht, Hj.
  Qed.

  Lemma constructors_exact pool ts : reachable env pool ts ->
    (forall k lv t pool', new_var pool k lv = (t, pool') -> exists v, t = YVar v k lv /\ unresolved pool' v k lv /\
       (forall k' lv', ~ unresolved pool v k' lv') /\
       (forall w k' lv', w <> v -> (unresolved pool' w k' lv' <-> unresolved pool w k' lv')) /\
       (forall s, equations pool' s <-> equations pool s)) /\
    (forall callee args ks ret p t pool', In callee ts -> incl args ts ->
       (args = [] \/ conv (fun n => get_kind env n pool callee) (AFun ks ret, p)) ->
       new_app pool callee args = (t, pool') ->
       (forall s, solution env pool' s -> solution env pool s /\ interp s t = gapp (interp s callee) (map (interp s) args)) /\
       (forall s, solution env pool s -> exists s', solution env pool' s' /\ forall a, In a ts -> interp s' a = interp s a)).
  Proof.
    intros H. start H. split.
    - intros k lv t p' E. unfold new_var in E. injection E as <- <-.
      destruct (new_var_ok env kap pool k lv Hwf) as (kap' & _ & _ & _ & H1 & H2 & H3). exists (len pool). split; [reflexivity|].
      split; [exact H2|]. split; [|split; [intros w k' lv' Hw; apply H3, Hw|exact H1]].
      intros k' lv' Hu. unfold unresolved in Hu. assert (len pool < len pool)%nat by (apply nth_error_Some; congruence). lia.
    - intros callee args ks ret p t p' Hcal Hargs Hk E. destruct (typed_in env _ _ _ _ Hts Hcal) as (Hb & K & HK).
      assert (HF : args = [] \/ exists ks ret, K = AFun ks ret).
      { destruct Hk as [Hk|Hk]; [left; exact Hk|]. destruct (get_kind_exact env kap pool callee K Hwf Hb HK) as (p1 & Hc1 & _).
        pose proof (conv_unique _ _ _ Hk Hc1) as E1. injection E1 as <- _. right. eauto. }
      destruct (new_app_ok env kap pool callee args K t p' Hwf Hb) as (kap' & G & B & HKt & HS); auto.
      { apply Forall_forall. intros x Hx. exact (typed_in env _ _ _ _ Hts (Hargs x Hx)). }
      destruct (grows_solution _ _ _ _ G) as (G1 & G2). split; [intros s Hs; split; [apply G1, Hs|apply HS, Hs]|].
      intros s Hs. destruct (G2 s Hs) as (s' & Hs' & He). exists s'. split; [exact Hs'|]. intros a Ha. apply He, (typed_in env _ _ _ _ Hts Ha).
  Qed.

  Lemma subst_exact pool ts m a s0 : reachable env pool ts -> In a ts ->
    (forall g u, m g = Some u -> In u ts /\ exists p, conv (fun n => get_kind env n pool u) (gen_kind env g, p)) ->
    canonical pool s0 ->
    exists t pool' s', conv (fun n => subst n pool m a) (t, pool') /\ canonical pool' s' /\
      (forall u, In u ts -> interp s' u = interp s0 u) /\
      interp s' t = replace_gens (fun g => option_map (interp s0) (m g)) (interp s0 a) /\
      (forall s, equations pool' s -> equations pool s) /\
      (forall v k lv, unresolved pool' v k lv <-> unresolved pool v k lv).
  Proof.
    intros H Ha Hm Hs0. start H. destruct (typed_in env _ _ _ _ Hts Ha) as (Hb & K & HK).
    destruct (subst_ok env m (S (size (interp s0 a))) kap pool s0 a K Hwf Hs0 (map_fits_of env kap pool ts m Hwf Hts Hm) Hb HK ltac:(lia))
      as (t & kap' & p' & s' & H1 & G & B & _ & H5 & H6 & H7).
    exists t, p', s'. split; [exact H1|]. split; [exact H5|]. split; [|split; [exact H7|split; [apply G|apply G]]].
    intros u Hu. apply interp_ext. intros j Hj. apply H6. exact (proj1 (typed_in env _ _ _ _ Hts Hu) j Hj).
  Qed.

  Lemma export_is_exact pool ts a s0 : reachable env pool ts -> In a ts -> canonical pool s0 ->
    exists pool', conv (fun n => export n pool a) (ast_of (interp s0 a), pool') /\ forall s, equations pool' s <-> equations pool s.
  Proof.
    intros H Ha Hs0. start H. destruct (export_exact env kap pool s0 a Hwf Hs0 (proj1 (typed_in env _ _ _ _ Hts Ha))) as (p' & H1 & H2).
    exists p'. split; [exact H1|apply H2].
  Qed.

  Lemma import_then_export pool ts a k : reachable env pool ts -> ast_type_kind env a = Some k ->
    exists t pool' pool'' pool3, import pool a = Ret (t, pool') /\
      conv (fun n => export n pool' t) (collapse_type a, pool'') /\
      conv (fun n => get_kind env n pool' t) (k, pool3) /\
      (forall s, solution env pool' s -> solution env pool s) /\
      (forall s, solution env pool s -> exists s', solution env pool' s' /\ forall a, In a ts -> interp s' a = interp s a).
  Proof.
    intros H Hk. start H. destruct (import_ok env a k Hk kap pool Hwf) as (t & kap' & p' & E & G & B & HK & S).
    destruct (canonical_exists p' (proj1 (proj1 (proj2 G)))) as (s0 & Hs0).
    destruct (export_exact env kap' p' s0 t (proj1 (proj2 G)) Hs0 B) as (p'' & H1 & _).
    destruct (get_kind_exact env kap' p' t k (proj1 (proj2 G)) B HK) as (p3 & H2 & _).
    exists t, p', p'', p3. split; [exact E|]. split; [rewrite <- ast_of_term_of, <- (S s0 (proj1 Hs0)); exact H1|]. split; [exact H2|].
    destruct (grows_solution _ _ _ _ G) as (G1 & G2). split; [exact G1|].
    intros s Hs. destruct (G2 s Hs) as (s' & Hs' & He). exists s'. split; [exact Hs'|]. intros u Hu. apply He, (typed_in env _ _ _ _ Hts Hu).
  Qed.
End Exact.

(** * Counterexamples *)
Definition ex_env : kind_env :=
  {| con_kind := fun c => if (c =? 0)%N then AFun [AType; AType] AType else if (c =? 1)%N then AFun [AType] AType else AType;
     gen_kind := fun _ => AType |}.
Definition ex_pool : context := [YVar 0 AType 1%N; YVar 1 AType 1%N; YVar 2 AType 1%N; YCon 0%N; at_ 0; at_ 0; YCon 0%N; at_ 1; at_ 2].

Lemma ex_reach : exists pool f g x y, reachable ex_env pool [g; f; YCon 0%N; y; x; YVar 0 AType 1%N] /\
  x = YVar 1 AType 1%N /\ y = YVar 2 AType 1%N /\
  f = YApp 3 (4%nat, 6%nat) /\ g = YApp 6 (7%nat, 9%nat) /\
  pool = [YVar 0 AType 1%N; YVar 1 AType 1%N; YVar 2 AType 1%N; YCon 0%N; YVar 0 AType 1%N; YVar 0 AType 1%N; YCon 0%N; YVar 1 AType 1%N; YVar 2 AType 1%N].
Proof.
  pose proof (r_var ex_env _ _ AType 1%N _ _ (r_new ex_env) eq_refl) as H1.
  pose proof (r_var ex_env _ _ AType 1%N _ _ H1 eq_refl) as H2.
  pose proof (r_var ex_env _ _ AType 1%N _ _ H2 eq_refl) as H3.
  pose proof (r_con ex_env _ _ 0%N H3) as H4.
  assert (Hk : forall p, conv (fun n => get_kind ex_env n p (YCon 0%N)) (AFun [AType; AType] AType, p)).
  { intros p. exists 1%nat. intros m Hm. destruct m; [lia|]. reflexivity. }
  pose proof (fun Ha Hb => r_app ex_env _ _ (YCon 0%N) [YVar 0 AType 1%N; YVar 0 AType 1%N] _ _ _ _ _ H4 Ha Hb (or_intror (Hk _)) eq_refl) as H5.
  specialize (H5 ltac:(cbn; auto 9) ltac:(intros k [<-|[<-|[]]]; cbn; auto 9)).
  pose proof (fun Ha Hb => r_app ex_env _ _ (YCon 0%N) [YVar 1 AType 1%N; YVar 2 AType 1%N] _ _ _ _ _ H5 Ha Hb (or_intror (Hk _)) eq_refl) as H6.
  specialize (H6 ltac:(cbn; auto 9) ltac:(intros k [<-|[<-|[]]]; cbn; auto 9)).
  eexists _, _, _, _, _. split; [exact H6|]. split; [reflexivity|]. split; [reflexivity|]. split; [reflexivity|]. split; reflexivity.
Qed.

Lemma match_binds_right : exists env pool ts a b x pool', reachable env pool ts /\ In a ts /\ In b ts /\
  (forall s, canonical pool s -> ~ exists n k lv, In (TName n k lv) (leaves (interp s a)) /\ In (TName n k lv) (leaves (interp s b))) /\
  (exists k lv, unresolved pool x k lv) /\ (forall s, canonical pool s -> exists k lv, In (TName x k lv) (leaves (interp s b))) /\
  conv (fun n => match_to_right env n pool a b) (pool', Ok) /\ ~ (exists k lv, unresolved pool' x k lv).
Proof.
  destruct ex_reach as (pool & f & g & x & y & H & -> & -> & -> & -> & ->).
  assert (Hcan : forall s, canonical [YVar 0 AType 1%N; YVar 1 AType 1%N; YVar 2 AType 1%N; YCon 0%N; YVar 0 AType 1%N; YVar 0 AType 1%N; YCon 0%N; YVar 1 AType 1%N; YVar 2 AType 1%N] s ->
    interp s (YApp 3 (4%nat, 6%nat)) = TApp (TCon 0%N) [TName 0 AType 1%N; TName 0 AType 1%N] /\
    interp s (YApp 6 (7%nat, 9%nat)) = TApp (TCon 0%N) [TName 1 AType 1%N; TName 2 AType 1%N]).
  { intros s (Hs & Hu). cbn.
    pose proof (Hu 0%nat _ _ eq_refl) as U0. pose proof (Hu 1%nat _ _ eq_refl) as U1. pose proof (Hu 2%nat _ _ eq_refl) as U2.
    rewrite (Hs 3%nat _ eq_refl), (Hs 4%nat _ eq_refl), (Hs 5%nat _ eq_refl), (Hs 6%nat _ eq_refl), (Hs 7%nat _ eq_refl), (Hs 8%nat _ eq_refl).
    cbn [interp]. rewrite U0, U1, U2. auto. }
  exists ex_env. eexists _, _, (YApp 3 (4%nat, 6%nat)), (YApp 6 (7%nat, 9%nat)), 1%nat, _. split; [exact H|]. split; [cbn; auto|]. split; [cbn; auto|].
  split; [|split; [eexists _, _; reflexivity|split; [|split]]].
  - intros s Hc (n & k & lv & H1 & H2). destruct (Hcan s Hc) as (E1 & E2). rewrite E1 in H1. rewrite E2 in H2.
    cbn in H1, H2. intuition congruence.
  - intros s Hc. destruct (Hcan s Hc) as (E1 & E2). rewrite E2. exists AType, 1%N. cbn. auto.
  - exists 20%nat. intros m Hm. do 20 (destruct m as [|m]; [lia|]). reflexivity.
  - intros (k & lv & Hu). discriminate.
Qed.

Lemma failed_unify_levels : exists env pool ts a b pool', reachable env pool ts /\ In a ts /\ In b ts /\
  (exists s, solution env pool s) /\
  conv (fun n => unify env n pool a b) (pool', Err Mismatch) /\
  (exists lv, unresolved pool 0 AType lv /\ forall s, equations pool' s -> ~ within lv (s 0%nat)).
Proof.
  pose proof (r_var ex_env _ _ AType 1%N _ _ (r_new ex_env) eq_refl) as H1.
  pose proof (r_gen ex_env _ _ 0%N 2%N H1) as H2.
  exists ex_env. eexists _, _, (YVar 0 AType 1%N), (YGen 0%N 2%N), _. split; [exact H2|]. split; [cbn; auto|]. split; [cbn; auto|].
  split; [|split].
  - exists (fun v => TName v AType 1%N). split; [intros [|i] t E; [injection E as <-; reflexivity|destruct i; discriminate]|].
    intros [|i] k lv E; [injection E as <- <-|destruct i; discriminate]. split; [reflexivity|]. intros x [<-|[]]. lia.
  - exists 20%nat. intros m Hm. do 20 (destruct m as [|m]; [lia|]). reflexivity.
  - exists 1%N. split; [reflexivity|]. intros s Hs Hw. specialize (Hs 0%nat _ eq_refl). cbn [interp] in Hs. rewrite Hs in Hw.
    specialize (Hw _ (or_introl eq_refl)). cbn in Hw. lia.
Qed.
