From Verif.Base Require Import Base BaseFacts VecFacts.
From Verif.Types Require Import Model Spec Proofs ProofsUnify ProofsMain ProofsApi ProofsReach.
From Verif.Instances Require Import Model Spec ProofsBase ProofsDecl ProofsLists ProofsOverlap ProofsSearch ProofsBuild ProofsInstall.

Lemma solvable env kap p : wf env kap p -> exists s, solution env p s.
Proof.
  intros Hwf. destruct (realize env p bottom [] [] [] (proj1 Hwf) (Forall2_nil _) (NoDup_nil _) (Forall2_nil _) (Forall_nil _)) as (s & Hs & _). exists s. exact Hs.
Qed.

Lemma skipped_iff D i j : skipped D i j = true <-> compared_before D i j.
Proof.
  unfold skipped, compared_before. rewrite Bool.andb_true_iff, Bool.negb_true_iff, N.eqb_eq, N.eqb_neq. reflexivity.
Qed.

Lemma skipped_not D i j : skipped D i j = false <-> ~ compared_before D i j.
Proof. rewrite <- skipped_iff. destruct (skipped D i j); split; congruence. Qed.

Section Main.
  Variable env : kind_env.
  Variable pool : context.
  Variable ts : list ty.
  Variable D : decls.
  Hypothesis Hr : reachable env pool ts.
  Hypothesis Hdec : declared env pool ts D.

  Lemma start : exists kap, wf env kap pool /\ Forall (typed env kap pool) ts /\ decl env D kap pool.
  Proof.
    destruct (reachable_good env pool ts Hr) as (kap & Hwf & Hts). exists kap. split; [exact Hwf|]. split; [exact Hts|]. eapply decl_of; eauto.
  Qed.

  Lemma overlap_exact_all checked cl : NoDup (available D cl) -> ~ In cl checked ->
    exists pool' r, conv (fun n => ensure_overlap_checked D env n (pool, checked) cl) (pool', cl :: checked, r) /\
      (exists s, solution env pool' s) /\ (forall s, equations pool' s -> equations pool s) /\
      match r with
      | Ok => forall i j, In i (available D cl) -> In j (available D cl) -> i <> j -> compared_before D i j \/ apart env pool D i j
      | Err _ => exists i j, In i (available D cl) /\ In j (available D cl) /\ i <> j /\ ~ compared_before D i j /\ overlapping env pool D i j
      end.
  Proof.
    intros Hnd Hni. destruct start as (kap & Hwf & Hts & Hd).
    destruct (pairs_ok env D cl (pairs (available D cl)) (pairs_in _) kap pool Hwf Hd) as (k1 & p1 & r & H1 & L1 & X1).
    pose proof (proj2 (proj2 (proj2 L1))) as E1. exists p1, r. split; [|split; [|split; [exact E1|]]].
    - unfold ensure_overlap_checked. destruct (existsb (N.eqb cl) checked) eqn:E.
      + exfalso. apply existsb_exists in E. destruct E as (x & Hx & Ex). apply N.eqb_eq in Ex. subst. contradiction.
      + eapply (conv_bind (fun n => for_each (overlap_one D env n) pool (pairs (available D cl)))); [exact H1|]. apply conv_ret.
    - eapply solvable. apply L1.
    - destruct r as [|e].
      + intros i j Hi Hj Hne. assert (Hs1 : exists s, equations p1 s). { destruct (canonical_exists p1 (proj1 (proj1 (proj2 L1)))) as (s & Hs). exists s. apply Hs. }
        assert (Hback : forall a b, separate env D p1 a b -> separate env D pool a b) by (intros a b; apply separate_back; eauto).
        destruct (pairs_cover _ i j Hi Hj Hne) as [H|H].
        * destruct (X1 i j H) as [X|X]; [left; apply skipped_iff, X|right; exact (Hback _ _ X)].
        * destruct (X1 j i H) as [X|X]; [left; apply skipped_iff in X; destruct X as (Y1 & Y2); split; congruence|right]. apply separate_sym in X. exact (Hback _ _ X).
      + destruct X1 as (i & j & q & Y1 & Y2 & Y3 & Y4). exists i, j. destruct (pairs_in _ i j Y1) as (Hi & Hj). split; [exact Hi|]. split; [exact Hj|]. split; [|split].
        * intros <-. clear -Y1 Hnd. induction (available D cl) as [|a l IH]; [destruct Y1|]. apply NoDup_cons_iff in Hnd. destruct Hnd as (Hn & Hnd).
          cbn [pairs] in Y1. apply in_app_or in Y1. destruct Y1 as [Y1|Y1]; [|auto]. apply in_map_iff in Y1. destruct Y1 as (x & E & Hx). injection E as <- <-. contradiction.
        * apply skipped_not, Y2.
        * exact (meets_back env D pool q i j Y3 Y4).
  Qed.

  Hypothesis Hwfc : well_founded_classes D.
  Variable assumed : list constr.
  Hypothesis Hass : Forall (constraint_ok env pool ts D) assumed.

  Lemma installed : exists kap, wf env kap pool /\ Forall (typed env kap pool) ts /\ decl env D kap pool /\
    exists kap' pool' pr, conv (fun n => install_all D n (pool, []) assumed) (pool', pr) /\ calm env kap pool kap' pool' /\ decl env D kap' pool' /\
      premise_of pool' D assumed pr /\ pok env D assumed pr kap' pool' /\ (Forall (known pool) assumed -> grounded pool' pr).
  Proof.
    destruct start as (kap & Hwf & Hts & Hd). exists kap. split; [exact Hwf|]. split; [exact Hts|]. split; [exact Hd|]. destruct Hwfc as (rank & Hrank).
    destruct (install_all_ok env D rank Hrank assumed kap pool [] Hwf Hd) as (k1 & p1 & pr & H1 & H2 & H3 & H4 & H5).
    { eapply Forall_impl; [|exact Hass]. intros c. apply cok_of; auto. }
    exists k1, p1, pr. split; [exact H1|]. split; [exact H2|]. split; [eapply decl_later; [apply H2|exact Hd]|]. split; [exact H3|]. split; [|].
    - split; [exact H4|]. intros s Hs. apply H3, Hs.
    - intros Hk. apply H5. eapply Forall_impl; [|exact Hk]. intros c. apply Forall_impl. intros t (g & G1 & G2 & _). exists g. auto.
  Qed.

  Lemma premise_exact_all : exists pool' pr, conv (fun n => install_all D n (pool, []) assumed) (pool', pr) /\
    (exists s, solution env pool' s) /\ (forall s, equations pool' s -> equations pool s) /\
    (forall v k lv, unresolved pool v k lv -> unresolved pool' v k lv) /\ premise_of pool' D assumed pr.
  Proof.
    destruct installed as (kap & Hwf & Hts & Hd & k1 & p1 & pr & H1 & H2 & H3 & H4 & _). exists p1, pr.
    split; [exact H1|]. split; [eapply solvable; apply H2|]. split; [apply H2|]. split; [apply H2|exact H4].
  Qed.

  Variable c : constr.
  Hypothesis Hc : constraint_ok env pool ts D c.

  Lemma search checked : exists pool1 pr pool2 checked2 r,
    conv (fun n => install_all D n (pool, []) assumed) (pool1, pr) /\
    conv (fun n => build D env pr n (pool1, checked) c 0%N) (pool2, checked2, r) /\
    (exists s, solution env pool2 s) /\ (forall s, equations pool1 s -> equations pool s) /\ (forall s, equations pool2 s -> equations pool1 s) /\
    premise_of pool1 D assumed pr /\ (Forall (known pool) assumed -> grounded pool1 pr) /\ post env D assumed pr 21 pool1 checked c pool2 checked2 r.
  Proof.
    destruct installed as (kap & Hwf & Hts & Hd & k1 & p1 & pr & H1 & H2 & H3 & H4 & H5 & H6).
    destruct (build_ok env D assumed pr 0%N k1 p1 checked c) as (k2 & p2 & ch2 & r & B1 & B2 & B3); auto.
    { apply H2. } { eapply cok_later; [apply H2|]. eapply cok_of; eauto. }
    exists p1, pr, p2, ch2, r. split; [exact H1|]. split; [exact B1|]. split; [eapply solvable; apply B2|]. split; [apply H2|]. split; [apply B2|].
    split; [exact H4|]. split; [exact H6|exact B3].
  Qed.

  Lemma evidence_sound_all checked : exists pool1 pr pool2 checked2 r,
    conv (fun n => install_all D n (pool, []) assumed) (pool1, pr) /\
    conv (fun n => build D env pr n (pool1, checked) c 0%N) (pool2, checked2, r) /\
    (exists s, solution env pool2 s) /\ (forall s, equations pool2 s -> equations pool s) /\
    forall e, r = Yes e -> forall s, solution env pool2 s -> proves env D s assumed e (c_class c) (map (interp s) (c_args c)).
  Proof.
    destruct (search checked) as (p1 & pr & p2 & ch2 & r & H1 & H2 & H3 & H4 & H5 & H6 & H7 & H8). exists p1, pr, p2, ch2, r.
    split; [exact H1|]. split; [exact H2|]. split; [exact H3|]. split; [auto|]. intros e -> s Hs. apply H8. apply solution_ksol, Hs.
  Qed.

  Section Complete.
    Variables (checked : list N) (pool1 : context) (pr : premise) (pool2 : context) (checked2 : list N) (r : answer sat).
    Hypothesis Hoth : others_apart env pool D.
    Hypothesis Hused : parameters_used pool D.
    Hypothesis Hka : Forall (known pool) assumed.
    Hypothesis Hkc : known pool c.
    Hypothesis Hch : forall cl i j, In cl checked -> In i (available D cl) -> In j (available D cl) -> i <> j -> apart env pool D i j.
    Hypothesis C1 : conv (fun n => install_all D n (pool, []) assumed) (pool1, pr).
    Hypothesis C2 : conv (fun n => build D env pr n (pool1, checked) c 0%N) (pool2, checked2, r).

    Lemma failed_excludes e s d : r = No e -> solution env pool2 s -> bounded 21 e d -> ~ holds_within env D s assumed d (c_class c) (map (interp s) (c_args c)).
    Proof.
      intros -> Hs Hb. destruct (search checked) as (p1 & pr' & p2 & ch2 & r' & H1 & H2 & H3 & H4 & H5 & H6 & H7 & H8).
      pose proof (conv_unique _ _ _ C1 H1) as E. injection E as <- <-. pose proof (conv_unique _ _ _ C2 H2) as E. injection E as <- <- <-.
      destruct H8 as (_ & H8). apply H8; [|eapply chk_mono; [exact H4|exact Hch]|eapply closedc_mono; [exact H4|exact Hkc]|apply solution_ksol, Hs|exact Hb].
      split; [|split; [|split]].
      - intros cl i j Hi Hj Hne Hsk. eapply separate_mono; [exact H4|]. apply skipped_iff in Hsk. exact (Hoth cl i j Hi Hj Hne Hsk).
      - intros i g Hg. destruct (Hused i g Hg) as (t & Ht & Hl). exists t. split; [exact Ht|]. intros s' Hs'. apply Hl, H4, Hs'.
      - intros s' Hs' a path cl args Ha Hl. destruct (proj2 (H6 s' Hs') a path cl args Ha Hl) as (e' & X1 & _ & _ & X2 & X3). exists e'. auto.
      - apply H7, Hka.
    Qed.
  End Complete.

  Lemma overlap_reported_all checked pool1 pr pool2 checked2 : (forall cl, NoDup (available D cl)) ->
    conv (fun n => install_all D n (pool, []) assumed) (pool1, pr) ->
    conv (fun n => build D env pr n (pool1, checked) c 0%N) (pool2, checked2, No OverlappingInstances) ->
    exists cl i j, In i (available D cl) /\ In j (available D cl) /\ i <> j /\ ~ compared_before D i j /\ overlapping env pool D i j.
  Proof.
    intros Hnd C1 C2. destruct (search checked) as (p1 & pr' & p2 & ch2 & r & H1 & H2 & H3 & H4 & H5 & H6 & H7 & H8).
    pose proof (conv_unique _ _ _ C1 H1) as E. injection E as <- <-. pose proof (conv_unique _ _ _ C2 H2) as E. injection E as <- <- <-.
    destruct H8 as (H8 & _). destruct (H8 eq_refl) as (cl & i & j & Y1 & Y2 & Y4). exists cl, i, j. destruct (pairs_in _ i j Y1) as (Hi & Hj). split; [exact Hi|]. split; [exact Hj|]. split; [|split].
    - specialize (Hnd cl). intros <-. clear -Y1 Hnd. induction (available D cl) as [|a l IH]; [destruct Y1|]. apply NoDup_cons_iff in Hnd. destruct Hnd as (Hn & Hnd).
      cbn [pairs] in Y1. apply in_app_or in Y1. destruct Y1 as [Y1|Y1]; [|auto]. apply in_map_iff in Y1. destruct Y1 as (x & E & Hx). injection E as <- <-. contradiction.
    - apply skipped_not, Y2.
    - eapply (meets_back env D pool); [exact H4|exact Y4].
  Qed.
End Main.

(** * Depth of evidence *)
Lemma within_mono env D s assumed d : forall cl args, holds_within env D s assumed d cl args -> forall d', (d <= d')%nat -> holds_within env D s assumed d' cl args.
Proof.
  induction d as [|d IH]; intros cl args H d' Hd; inversion H as [d0 a path cl0 args0 args' Ha Hl Heq|d0 i tys cl0 args0 Hi Hk Ht HF]; subst.
  - destruct d' as [|d']; [lia|]. eapply within_premise; eauto.
  - destruct d' as [|d']; [lia|]. eapply within_instance; eauto. eapply Forall_impl; [|exact HF]. intros c Hc. apply IH; [exact Hc|lia].
Qed.

Lemma holds_depth env D s assumed : forall cl args, holds env D s assumed cl args -> exists d, holds_within env D s assumed d cl args.
Proof.
  fix IH 3. intros cl args [a path cl0 args0 args' Ha Hl Heq|i tys cl0 args0 Hi Hk Ht HF].
  - exists 1%nat. eapply within_premise; eauto.
  - assert (X : exists d, Forall (fun c => holds_within env D s assumed d (c_class c)
      (map (fun t => instance_of (i_params (instances D i)) tys (interp s t)) (c_args c))) (i_s_params (instances D i))).
    { clear Hi Hk Ht. induction HF as [|c l Hc _ (d2 & X2)]; [exists O; constructor|]. destruct (IH _ _ Hc) as (d1 & X1). exists (Nat.max d1 d2). constructor.
      - eapply within_mono; [exact X1|lia].
      - eapply Forall_impl; [|exact X2]. intros x Hx. eapply within_mono; [exact Hx|lia]. }
    destruct X as (d & X). exists (S d). eapply within_instance; eauto.
Qed.

(** * The superclasses of an instance *)
Lemma instance_superclasses_all env pool ts D i checked : reachable env pool ts -> declared env pool ts D -> well_founded_classes D ->
  exists pool' checked' r, conv (fun n => instance_satisfaction D env n (pool, checked) i) (pool', checked', r) /\
    (exists s, solution env pool' s) /\ (forall s, equations pool' s -> equations pool s) /\
    forall es, r = Yes es -> forall s, solution env pool' s ->
      Forall2 (fun e c => proves env D s (i_s_params (instances D i)) e (c_class c)
                 (map (fun t => instance_of (k_params (classes D (c_class (i_target (instances D i))))) (map (interp s) (c_args (i_target (instances D i)))) (interp s t)) (c_args c)))
              es (k_supers (classes D (c_class (i_target (instances D i))))).
Proof.
  intros Hr Hdec Hwfc.
  assert (Hass : Forall (constraint_ok env pool ts D) (i_s_params (instances D i))).
  { destruct Hdec as (_ & Hi & _). destruct (Hi i) as (_ & _ & H). eapply Forall_impl; [|exact H]. intros x Hx. apply Hx. }
  destruct (installed env pool ts D Hr Hdec Hwfc _ Hass) as (kap & Hwf & Hts & Hd & k1 & p1 & pr & H1 & H2 & H3 & H4 & H5 & H6).
  pose proof (proj1 (proj1 (proj2 (proj1 (proj2 H3) i)))) as Ht.
  destruct (apply_class_ok env D k1 p1 (c_class (i_target (instances D i))) (c_args (i_target (instances D i))) (proj1 (proj2 (proj1 H2))) H3 Ht) as (con & k2 & p2 & A1 & A2 & A3).
  pose proof (proj1 A2) as L2.
  destruct (all_satisfied_ok env D (i_s_params (instances D i)) pr 21 (fun n st c => build D env pr n st c 0%N) (k_supers con) (build_ok env D _ pr 0%N) k2 p2 checked) as (k3 & p3 & ch3 & r & S1 & S2 & S3).
  { apply L2. } { eapply decl_later; eauto. } { eapply pok_later; eauto. }
  { clear -A3. induction A3 as [|x y l l' (_ & _ & H & _) _ IH]; constructor; auto. }
  exists p3, ch3, r. split; [|split; [eapply solvable; apply S2|split]].
  - unfold instance_satisfaction. eapply (conv_bind (fun n => install_all D n (pool, []) (i_s_params (instances D i)))); [exact H1|]. cbn beta iota.
    eapply (conv_bind (fun n => apply_class n p1 (classes D (c_class (i_target (instances D i)))) (c_args (i_target (instances D i))))); [exact A1|]. exact S1.
  - intros s Hs. apply H2, L2, S2, Hs.
  - intros es -> s Hs. destruct S3 as (S3 & _). specialize (S3 s (solution_ksol env p3 s Hs)). clear -A3 S3 S2 Hs. revert es S3.
    assert (Hs2 : equations p2 s) by (apply S2, Hs). clear S2 Hs.
    induction A3 as [|x y l l' (_ & R1 & _ & R2) _ IH]; intros es S3; inversion S3 as [|e ? es' ? S4 S5]; subst; constructor; [|apply IH; exact S5].
    rewrite R1, (R2 s Hs2) in S4. exact S4.
Qed.

(** * Completeness *)
Lemma evidence_complete_all env pool ts D : reachable env pool ts -> declared env pool ts D -> well_founded_classes D ->
  forall assumed, Forall (constraint_ok env pool ts D) assumed -> forall c, constraint_ok env pool ts D c ->
  forall checked pool1 pr pool2 checked2,
    others_apart env pool D -> parameters_used pool D -> Forall (known pool) assumed -> known pool c ->
    (forall cl i j, In cl checked -> In i (available D cl) -> In j (available D cl) -> i <> j -> apart env pool D i j) ->
    conv (fun n => install_all D n (pool, []) assumed) (pool1, pr) ->
    conv (fun n => build D env pr n (pool1, checked) c 0%N) (pool2, checked2, No NoMatchingInstances) ->
    forall s, solution env pool2 s -> ~ holds env D s assumed (c_class c) (map (interp s) (c_args c)).
Proof.
  intros Hr Hd Hw assumed Ha c Hc checked pool1 pr pool2 checked2 H1 H2 H3 H4 H5 C1 C2 s Hs Hh. apply holds_depth in Hh. destruct Hh as (d & Hh).
  exact (failed_excludes env pool ts D Hr Hd Hw assumed Ha c Hc checked pool1 pr pool2 checked2 _ H1 H2 H3 H4 H5 C1 C2 NoMatchingInstances s d eq_refl Hs I Hh).
Qed.

Lemma evidence_found_all env pool ts D : reachable env pool ts -> declared env pool ts D -> well_founded_classes D ->
  forall assumed, Forall (constraint_ok env pool ts D) assumed -> forall c, constraint_ok env pool ts D c ->
  forall checked pool1 pr pool2 checked2 r,
    parameters_used pool D -> Forall (known pool) assumed -> known pool c -> (forall cl, NoDup (available D cl)) ->
    (forall cl i j, In i (available D cl) -> In j (available D cl) -> i <> j -> apart env pool D i j) ->
    conv (fun n => install_all D n (pool, []) assumed) (pool1, pr) ->
    conv (fun n => build D env pr n (pool1, checked) c 0%N) (pool2, checked2, r) ->
    forall s, solution env pool2 s -> holds_within env D s assumed 21 (c_class c) (map (interp s) (c_args c)) -> exists e, r = Yes e.
Proof.
  intros Hr Hd Hw assumed Ha c Hc checked pool1 pr pool2 checked2 r H2 H3 H4 Hn H5 C1 C2 s Hs Hh. destruct r as [e|e]; [exists e; reflexivity|exfalso].
  assert (Hoth : others_apart env pool D) by (intros cl i j X1 X2 X3 _; exact (H5 cl i j X1 X2 X3)).
  pose proof (failed_excludes env pool ts D Hr Hd Hw assumed Ha c Hc checked pool1 pr pool2 checked2 _ Hoth H2 H3 H4 (fun cl i j _ => H5 cl i j) C1 C2 e s 21%nat eq_refl Hs) as X.
  destruct e; [apply X; [cbn; lia|exact Hh]|apply X; [exact I|exact Hh]|].
  destruct (overlap_reported_all env pool ts D Hr Hd Hw assumed Ha c Hc checked pool1 pr pool2 checked2 Hn C1 C2) as (cl & i & j & Y1 & Y2 & Y3 & _ & (s' & t & t' & Z1 & Z2 & Z3 & Z4)).
  exact (H5 cl i j Y1 Y2 Y3 s' Z1 t t' Z2 Z3 Z4).
Qed.
