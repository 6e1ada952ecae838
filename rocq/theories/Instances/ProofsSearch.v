From Verif.Base Require Import Base BaseFacts VecFacts.
From Verif.Types Require Import Model Spec Proofs ProofsUnify ProofsMain ProofsApi ProofsReach.
From Verif.Instances Require Import Model Spec ProofsBase ProofsDecl ProofsLists ProofsOverlap.

Lemma pairs_cover l i j : In i l -> In j l -> i <> j -> In (i, j) (pairs l) \/ In (j, i) (pairs l).
Proof.
  induction l as [|a l IH]; intros Hi Hj Hne; [destruct Hi|]. cbn [pairs]. destruct Hi as [->|Hi], Hj as [->|Hj].
  - contradiction.
  - left. apply in_or_app. left. apply in_map, Hj.
  - right. apply in_or_app. left. apply in_map, Hi.
  - destruct (IH Hi Hj Hne); [left|right]; apply in_or_app; right; assumption.
Qed.

Lemma pairs_in l i j : In (i, j) (pairs l) -> In i l /\ In j l.
Proof.
  induction l as [|a l IH]; [intros []|]. cbn [pairs]. intros H. apply in_app_or in H. destruct H as [H|H].
  - apply in_map_iff in H. destruct H as (x & E & Hx). injection E as <- <-. split; [left; reflexivity|right; exact Hx].
  - destruct (IH H). split; right; assumption.
Qed.

Section Search.
  Variable env : kind_env.
  Variable D : decls.
  Variable assumed : list constr.
  Variable pr : premise.
  Notation wf := (wf env).
  Notation later := (later env).
  Notation cok := (cok env D).
  Notation decl := (decl env D).
  Notation separate := (separate env D).
  Notation proves := (fun s => proves env D s assumed).
  Notation holds := (fun s => holds_within env D s assumed).

  Definition nparams (cl : N) : nat := List.length (k_params (classes D cl)).

  (** The premise is made of what is assumed. *)
  Definition pok (kap : var -> ast_kind) (p : context) : Prop :=
    Forall (fun e => cok kap p {| c_id := e_id e; c_class := e_class e; c_args := e_args e |}) pr /\
    (forall s, equations p s -> forall e, In e pr -> exists a, In a assumed /\ c_id a = e_id e /\
       leads D s (c_class a) (map (interp s) (c_args a)) (e_path e) (e_class e) (map (interp s) (e_args e))).

  Lemma pok_later kap p kap' p' : later kap p kap' p' -> pok kap p -> pok kap' p'.
  Proof.
    intros L (H1 & H2). split; [eapply Forall_impl; [|exact H1]; intros e; apply cok_later, L|]. intros s Hs. apply H2, L, Hs.
  Qed.

  (** What completeness needs besides. *)
  Definition gok (p : context) : Prop :=
    (forall cl i j, In i (available D cl) -> In j (available D cl) -> i <> j -> skipped D i j = true -> separate p i j) /\
    (forall i g, In g (i_params (instances D i)) -> exists t, In t (c_args (i_target (instances D i))) /\
       forall s, equations p s -> exists lv, In (TGen g lv) (leaves (interp s t))) /\
    (forall s, equations p s -> forall a path cl args, In a assumed -> leads D s (c_class a) (map (interp s) (c_args a)) path cl args ->
       exists e, In e pr /\ e_class e = cl /\ map (interp s) (e_args e) = args) /\
    (forall e, In e pr -> Forall (ground p) (e_args e)).

  Lemma gok_mono p p' : (forall s, equations p' s -> equations p s) -> gok p -> gok p'.
  Proof.
    intros H (H1 & H2 & H3 & H4). split; [|split; [|split]].
    - intros cl i j Hi Hj Hne Hsk. eapply separate_mono; [exact H|]. eapply H1; eauto.
    - intros i g Hg. destruct (H2 i g Hg) as (t & Ht & Hl). exists t. split; [exact Ht|]. intros s Hs. apply Hl, H, Hs.
    - intros s Hs. apply H3, H, Hs.
    - intros e He. eapply Forall_impl; [|exact (H4 e He)]. intros t. apply ground_mono, H.
  Qed.

  Definition chk (p : context) (checked : list N) : Prop :=
    forall cl i j, In cl checked -> In i (available D cl) -> In j (available D cl) -> i <> j -> separate p i j.

  Lemma chk_mono p p' checked : (forall s, equations p' s -> equations p s) -> chk p checked -> chk p' checked.
  Proof. intros H Hc cl i j H1 H2 H3 H4. eapply separate_mono; [exact H|]. eapply Hc; eauto. Qed.

  Lemma separate_sym p i j : separate p i j -> separate p j i.
  Proof. intros H s Hs tys tys' K K' E. exact (H s Hs tys' tys K' K (eq_sym E)). Qed.

  (** * The overlap check *)
  Definition overlaps (p : context) (cl : N) : Prop :=
    exists i j, In (i, j) (pairs (available D cl)) /\ skipped D i j = false /\ meets env D p i j.

  Lemma pairs_ok cl l : (forall i j, In (i, j) l -> In i (available D cl) /\ In j (available D cl)) -> forall kap p, wf kap p -> decl kap p ->
    exists kap' p' r, conv (fun n => for_each (overlap_one D env n) p l) (p', r) /\ later kap p kap' p' /\
      match r with
      | Ok => forall i j, In (i, j) l -> skipped D i j = true \/ separate p' i j
      | Err _ => exists i j q, In (i, j) l /\ skipped D i j = false /\ (forall s, equations q s -> equations p s) /\ meets env D q i j
      end.
  Proof.
    induction l as [|(a & b) l IH]; intros Hin kap p Hwf Hd.
    - exists kap, p, Ok. split; [apply conv_ret|]. split; [apply later_refl, Hwf|]. intros i j [].
    - destruct (Hin a b (or_introl eq_refl)) as (Ha & Hb).
      destruct (overlap_one_ok env D kap p a b Hwf Hd) as (k1 & p1 & r1 & H1 & L1 & X1).
      { rewrite (proj2 (proj2 Hd) cl a Ha), (proj2 (proj2 Hd) cl b Hb). reflexivity. }
      destruct r1 as [|e].
      + destruct (IH (fun i j H => Hin i j (or_intror H)) k1 p1 (proj1 (proj2 L1)) (decl_later env D _ _ _ _ L1 Hd)) as (k2 & p2 & r2 & H2 & L2 & X2).
        exists k2, p2, r2. split; [|split; [eapply later_trans; eauto|]].
        * cbn [for_each]. eapply (conv_bind (fun n => overlap_one D env n p (a, b))); [exact H1|]. exact H2.
        * destruct r2 as [|e2].
          -- intros i j [E|Hij]; [injection E as <- <-|exact (X2 i j Hij)]. destruct X1 as [X1|X1]; [left; exact X1|right].
             eapply separate_mono; [|exact X1]. intros s Hs. apply L1, L2, Hs.
          -- destruct X2 as (i & j & q & Y1 & Y2 & Y3 & Y4). exists i, j, q. split; [right; exact Y1|]. split; [exact Y2|]. split; [|exact Y4].
             intros s Hs. apply L1, Y3, Hs.
      + exists k1, p1, (Err e). split; [|split; [exact L1|]].
        * cbn [for_each]. eapply (conv_bind (fun n => overlap_one D env n p (a, b))); [exact H1|]. apply conv_ret.
        * exists a, b, p. split; [left; reflexivity|]. split; [apply X1|]. split; [auto|apply X1].
  Qed.

  Lemma separate_back p q i j : (exists kap, decl kap p) -> (forall s, equations q s -> equations p s) -> (exists s, equations q s) -> separate q i j -> separate p i j.
  Proof.
    intros (kap & Hd) H (s1 & Hs1) Hsep s Hs tys tys' K K' E. apply (Hsep s1 Hs1 tys tys' K K'). unfold target_of in *.
    rewrite (stands_same p s1 s _ _ _ (H s1 Hs1) Hs (proj2 (proj1 (proj2 (proj1 (proj2 Hd) i))))).
    rewrite (stands_same p s1 s _ _ _ (H s1 Hs1) Hs (proj2 (proj1 (proj2 (proj1 (proj2 Hd) j))))). exact E.
  Qed.

  Lemma meets_back p q i j : (forall s, equations q s -> equations p s) -> meets env D q i j -> meets env D p i j.
  Proof. intros H (s & t & t' & Hs & X). exists s, t, t'. split; [apply H, Hs|exact X]. Qed.

  Lemma ensure_ok kap p checked cl : wf kap p -> decl kap p ->
    exists kap' p' checked' r, conv (fun n => ensure_overlap_checked D env n (p, checked) cl) (p', checked', r) /\ later kap p kap' p' /\
      match r with
      | Ok => In cl checked' /\ (gok p -> chk p checked -> chk p' checked')
      | Err _ => ~ In cl checked /\ overlaps p cl
      end.
  Proof.
    intros Hwf Hd. unfold ensure_overlap_checked. destruct (existsb (N.eqb cl) checked) eqn:E.
    - exists kap, p, checked, Ok. split; [apply conv_ret|]. split; [apply later_refl, Hwf|]. split; [|auto].
      apply existsb_exists in E. destruct E as (x & Hx & Ex). apply N.eqb_eq in Ex. subst. exact Hx.
    - destruct (pairs_ok cl (pairs (available D cl)) (pairs_in _) kap p Hwf Hd) as (k1 & p1 & r1 & H1 & L1 & X1).
      exists k1, p1, (cl :: checked), r1. split; [|split; [exact L1|]].
      + eapply (conv_bind (fun n => for_each (overlap_one D env n) p (pairs (available D cl)))); [exact H1|]. apply conv_ret.
      + destruct r1 as [|e].
        * split; [left; reflexivity|]. intros Hg Hc c i j Hin Hi Hj Hne. destruct Hin as [<-|Hin].
          -- pose proof (proj1 (gok_mono p p1 (proj2 (proj2 (proj2 L1))) Hg)) as Hsk. destruct (pairs_cover _ i j Hi Hj Hne) as [H|H].
             ++ destruct (X1 i j H) as [X|X]; [eapply Hsk; eauto|exact X].
             ++ apply separate_sym. destruct (X1 j i H) as [X|X]; [eapply Hsk; eauto|exact X].
          -- eapply separate_mono; [apply L1|]. eapply Hc; eauto.
        * destruct X1 as (i & j & q & Y1 & Y2 & Y3 & Y4). split.
          -- intros Hin. assert (X : existsb (N.eqb cl) checked = true) by (apply existsb_exists; exists cl; split; [exact Hin|apply N.eqb_refl]). congruence.
          -- exists i, j. split; [exact Y1|]. split; [exact Y2|]. eapply meets_back; eauto.
  Qed.

  (** * The search *)
  Definition closedc (p : context) (c : constr) : Prop :=
    Forall (fun t => exists g, stands p t g /\ nameless g /\ within bottom g) (c_args c).

  Lemma closedc_mono p p' c : (forall s, equations p' s -> equations p s) -> closedc p c -> closedc p' c.
  Proof. intros H. apply Forall_impl. intros t (g & G1 & G2). exists g. split; [|exact G2]. intros s Hs. apply G1, H, Hs. Qed.

  Definition goal (d : nat) (s : var -> gty) (c : constr) : Prop := holds s d (c_class c) (map (interp s) (c_args c)).

  (** How deep the evidence is that a failure excludes. *)
  Definition bounded (b : nat) (e : failure) (d : nat) : Prop :=
    match e with NoMatchingInstances => True | RecursionLimitExceeded => (d <= b)%nat | OverlappingInstances => False end.

  Definition post (b : nat) (p : context) (checked : list N) (c : constr) (p' : context) (checked' : list N) (r : answer sat) : Prop :=
    match r with
    | Yes e => (forall s, ksol env p' s -> proves s e (c_class c) (map (interp s) (c_args c))) /\ (gok p -> chk p checked -> chk p' checked')
    | No e => (e = OverlappingInstances -> exists cl, overlaps p cl) /\
        (gok p -> chk p checked -> closedc p c -> forall s, ksol env p' s -> forall d, bounded b e d -> ~ goal d s c)
    end.

  Definition post_all (b : nat) (p : context) (checked : list N) (cs : list constr) (p' : context) (checked' : list N) (r : answer (list sat)) : Prop :=
    match r with
    | Yes es => (forall s, ksol env p' s -> Forall2 (fun e c => proves s e (c_class c) (map (interp s) (c_args c))) es cs) /\ (gok p -> chk p checked -> chk p' checked')
    | No e => (e = OverlappingInstances -> exists cl, overlaps p cl) /\
        (gok p -> chk p checked -> Forall (closedc p) cs -> forall s, ksol env p' s -> forall d, bounded b e d -> ~ Forall (goal d s) cs)
    end.

  Definition search_ok (b : nat) (f : nat -> context * list N -> constr -> outcome (context * list N * answer sat)) : Prop :=
    forall kap p checked c, wf kap p -> decl kap p -> pok kap p -> cok kap p c ->
      exists kap' p' checked' r, conv (fun n => f n (p, checked) c) (p', checked', r) /\ later kap p kap' p' /\ post b p checked c p' checked' r.

  Lemma overlaps_back p q cl : (forall s, equations q s -> equations p s) -> overlaps q cl -> overlaps p cl.
  Proof.
    intros H (i & j & H1 & H2 & H3). exists i, j. split; [exact H1|]. split; [exact H2|]. eapply meets_back; eauto.
  Qed.

  Lemma all_satisfied_ok b f cs : search_ok b f -> forall kap p checked, wf kap p -> decl kap p -> pok kap p -> Forall (cok kap p) cs ->
    exists kap' p' checked' r, conv (fun n => all_satisfied (f n) (p, checked) cs) (p', checked', r) /\ later kap p kap' p' /\ post_all b p checked cs p' checked' r.
  Proof.
    intros Hf. induction cs as [|c cs IH]; intros kap p checked Hwf Hd Hp Hcs.
    - exists kap, p, checked, (Yes []). split; [apply conv_ret|]. split; [apply later_refl, Hwf|]. split; [constructor|auto].
    - destruct (Hf kap p checked c Hwf Hd Hp (Forall_inv Hcs)) as (k1 & p1 & ch1 & r1 & H1 & L1 & X1). pose proof (proj2 (proj2 (proj2 L1))) as E1.
      destruct r1 as [e|e].
      + destruct X1 as (X1 & C1). destruct (IH k1 p1 ch1) as (k2 & p2 & ch2 & r2 & H2 & L2 & X2).
        { apply L1. } { eapply decl_later; eauto. } { eapply pok_later; eauto. }
        { eapply Forall_impl; [|exact (Forall_inv_tail Hcs)]. intros x. apply cok_later, L1. }
        pose proof (proj2 (proj2 (proj2 L2))) as E2.
        assert (Hconv : conv (fun n => all_satisfied (f n) (p, checked) (c :: cs)) (p2, ch2, match r2 with Yes es => Yes (e :: es) | No x => No x end)).
        { cbn [all_satisfied]. eapply (conv_bind (fun n => f n (p, checked) c)); [exact H1|]. cbn beta iota.
          eapply (conv_bind (fun n => all_satisfied (f n) (p1, ch1) cs)); [exact H2|]. cbn beta iota. destruct r2; apply conv_ret. }
        eexists k2, p2, ch2, _. split; [exact Hconv|]. split; [eapply later_trans; eauto|].
        destruct r2 as [es|e2]; cbn [post_all] in *.
        * destruct X2 as (X2 & C2). split.
          -- intros s Hs. constructor; [apply X1|apply X2, Hs]. apply (ksol_later env k1 p1 k2 p2); auto. apply L1.
          -- intros Hg Hc. apply C2; [eapply gok_mono; eauto|]. apply C1; auto.
        * destruct X2 as (Y & X2). split; [intros Ee; destruct (Y Ee) as (cl & Z); exists cl; eapply overlaps_back; eauto|].
          intros Hg Hc Hcl s Hs d Hb HF. apply (X2 (gok_mono _ _ E1 Hg) (C1 Hg Hc)) with (s := s) (d := d); auto; [|exact (Forall_inv_tail HF)].
          eapply Forall_impl; [|exact (Forall_inv_tail Hcl)]. intros x. apply closedc_mono, E1.
      + exists k1, p1, ch1, (No e). split; [|split; [exact L1|]].
        * cbn [all_satisfied]. eapply (conv_bind (fun n => f n (p, checked) c)); [exact H1|]. apply conv_ret.
        * destruct X1 as (Y & X1). split; [exact Y|]. intros Hg Hc Hcl s Hs d Hb HF. exact (X1 Hg Hc (Forall_inv Hcl) s Hs d Hb (Forall_inv HF)).
  Qed.

  (** What no instance of the list gives. *)
  Definition unmatched (d : nat) (s : var -> gty) (c : constr) (insts : list N) : Prop :=
    forall i tys, In i insts -> kinded_args env tys (i_params (instances D i)) -> target_of D s i tys = map (interp s) (c_args c) ->
      ~ Forall (fun x => holds s d (c_class x) (terms_of s (i_params (instances D i)) tys x)) (i_s_params (instances D i)).

  Definition post_try (b : nat) (p : context) (checked : list N) (c : constr) (insts : list N) (p' : context) (checked' : list N) (r : answer sat) : Prop :=
    match r with
    | Yes e => (forall s, ksol env p' s -> proves s e (c_class c) (map (interp s) (c_args c))) /\ (gok p -> chk p checked -> chk p' checked')
    | No e => (e = OverlappingInstances -> exists cl, overlaps p cl) /\
        (gok p -> chk p checked -> closedc p c -> forall s, ksol env p' s -> forall d, bounded b e d -> unmatched d s c insts)
    end.

  Lemma closed_ground p c : closedc p c -> Forall (ground p) (c_args c).
  Proof. apply Forall_impl. intros t (g & G1 & G2 & _). exists g. split; auto. Qed.

  Lemma closed_same p c s s' : closedc p c -> equations p s -> equations p s' -> map (interp s) (c_args c) = map (interp s') (c_args c).
  Proof. intros H Hs Hs'. apply map_ext_in. intros t Ht. unfold closedc in H. rewrite Forall_forall in H. destruct (H t Ht) as (g & G1 & _). rewrite (G1 s Hs), (G1 s' Hs'). reflexivity. Qed.

  (** The arguments of an instance are inside its target. *)
  Lemma arg_leaves p s i tys c : gok p -> equations p s -> List.length tys = List.length (i_params (instances D i)) ->
    target_of D s i tys = map (interp s) (c_args c) ->
    forall g u x, In g (i_params (instances D i)) -> given (i_params (instances D i)) tys g = Some u -> In x (leaves u) ->
      exists t, In t (c_args c) /\ In x (leaves (interp s t)).
  Proof.
    intros (_ & Hcov & _) Hs Hl He g u x Hg Hu Hx. destruct (Hcov i g Hg) as (t & Ht & Hlf). destruct (Hlf s Hs) as (lv & Hlv).
    unfold target_of, terms_of in He. assert (Hin : In (instance_of (i_params (instances D i)) tys (interp s t)) (map (interp s) (c_args c))).
    { rewrite <- He. apply in_map_iff. exists t. auto. }
    apply in_map_iff in Hin. destruct Hin as (t' & Et & Ht'). exists t'. split; [exact Ht'|]. rewrite Et.
    eapply leaves_replace_in; eauto.
  Qed.

  Lemma args_determined kap p s i tys tys' : wf kap p -> decl kap p -> gok p -> equations p s ->
    List.length tys = List.length (i_params (instances D i)) -> List.length tys' = List.length (i_params (instances D i)) ->
    target_of D s i tys = target_of D s i tys' -> forall g, In g (i_params (instances D i)) ->
    given (i_params (instances D i)) tys g = given (i_params (instances D i)) tys' g.
  Proof.
    intros Hwf Hd (_ & Hcov & _) Hs Hl Hl' He g Hg. destruct (Hcov i g Hg) as (t & Ht & Hlf). destruct (Hlf s Hs) as (lv & Hlv).
    destruct (given_some _ tys g Hl Hg) as (u & Hu & _), (given_some _ tys' g Hl' Hg) as (u' & Hu' & _). rewrite Hu, Hu'. f_equal.
    destruct (proj1 (proj2 Hd) i) as (_ & (Hc & Hst) & _). unfold target_of, terms_of in He.
    assert (Het : instance_of (i_params (instances D i)) tys (interp s t) = instance_of (i_params (instances D i)) tys' (interp s t)).
    { clear -He Ht. induction (c_args (i_target (instances D i))) as [|x l IH]; [destruct Ht|]. cbn [map] in He. injection He as H1 H2. destruct Ht as [<-|Ht]; auto. }
    assert (Hok : exists k, ok env kap p t k).
    { clear -Hc Ht. unfold ProofsDecl.cok in Hc. induction Hc as [|x y l l' H _ IH]; [destruct Ht|]. destruct Ht as [<-|Ht]; eauto. }
    destruct Hok as (k & Hok). rewrite Forall_forall in Hst. destruct (Hst t Ht) as (g0 & _ & G2).
    assert (Hsol : solid (interp s t)) by (rewrite (G2 s Hs); eapply stands_solid; eauto).
    eapply replace_inj; [exact Hsol|exact Het|exact Hlv|exact Hu|exact Hu'].
  Qed.

  Lemma terms_agree p s ps tys tys' c : equations p s -> (forall g, In g ps -> given ps tys g = given ps tys' g) ->
    Forall (fun t => exists g, closed_over ps g /\ stands p t g) (c_args c) -> terms_of s ps tys c = terms_of s ps tys' c.
  Proof.
    intros Hs Hg Hc. apply map_ext_in. intros t Ht. rewrite Forall_forall in Hc. destruct (Hc t Ht) as (g & G1 & G2). rewrite (G2 s Hs).
    apply replace_agree. intros x lv Hx. apply Hg. apply (G1 _ Hx).
  Qed.

  Lemma inst_eta (c : inst_con) : c = {| i_params := i_params c; i_s_params := i_s_params c; i_target := i_target c |}.
  Proof. destruct c. reflexivity. Qed.

  Lemma try_ok b f c insts : search_ok b f -> forall kap p checked, wf kap p -> decl kap p -> pok kap p -> cok kap p c -> In (c_class c) checked ->
    incl insts (available D (c_class c)) ->
    exists kap' p' checked' r, conv (fun n => try_instances D env (f n) n (p, checked) c insts) (p', checked', r) /\ later kap p kap' p' /\
      post_try b p checked c insts p' checked' r.
  Proof.
    intros Hf. induction insts as [|i insts IH]; intros kap p checked Hwf Hd Hp Hc Hcl Hincl.
    - exists kap, p, checked, (No NoMatchingInstances). split; [apply conv_ret|]. split; [apply later_refl, Hwf|]. split; [discriminate|]. intros _ _ _ s _ d _ i tys [].
    - pose proof (Hincl i (or_introl eq_refl)) as Hav. pose proof (proj2 (proj2 Hd) _ i Hav) as Eclass.
      destruct (proj1 (proj2 Hd) i) as (Nd & Td & Sd).
      destruct (instantiate_ok env D kap p _ _ _ bottom Nd Hwf Td Sd) as (con & xs & k1 & p1 & A1 & A2 & A3 & A4 & A5 & A6 & A7).
      rewrite <- inst_eta in A1. pose proof (proj1 A2) as L1. pose proof (proj1 (proj2 L1)) as Hwf1. pose proof (proj2 (proj2 (proj2 L1))) as E1.
      destruct (match_types_ok env k1 p1 (i_target con) c Hwf1) as (p2 & r & M1 & M2 & M3).
      { apply (cok_typed env D). apply A6. } { apply (cok_typed env D). eapply cok_later; eauto. }
      { destruct A6 as (_ & Ea & Ka & _). apply Forall2_len in Ka. rewrite Ka, Ea, Eclass. symmetry. eapply Forall2_len. exact Hc. }
      pose proof (proj2 (proj2 (proj2 M2))) as E2. pose proof (later_trans env _ _ _ _ _ _ L1 M2) as L2.
      destruct A6 as (_ & _ & _ & Atgt).
      assert (Hlen : forall s, List.length (map (interp s) xs) = List.length (i_params (instances D i))).
      { intros s. rewrite map_length. eapply Forall2_len. exact A3. }
      destruct r as [|err]; cbn [pair_spec] in M3.
      + (* the instance matches *)
        assert (Hteq : forall s, equations p2 s -> target_of D s i (map (interp s) xs) = map (interp s) (c_args c)).
        { intros s Hs. unfold target_of. rewrite <- (Atgt s (E2 s Hs)). apply M3, Hs. }
        assert (A7' : Forall2 (replaced env D (i_params (instances D i)) xs k1 p2) (i_s_params (instances D i)) (i_s_params con)).
        { eapply Forall2_imp; [|exact A7]. intros x y. apply replaced_later, M2. }
        destruct (all_satisfied_ok b f (i_s_params con) Hf k1 p2 checked) as (k3 & p3 & ch3 & r3 & S1 & S2 & S3).
        { apply M2. } { eapply decl_later; eauto. } { eapply pok_later; eauto. }
        { clear -A7'. induction A7' as [|x y l l' (_ & _ & H & _) _ IH]; constructor; auto. }
        pose proof (proj2 (proj2 (proj2 S2))) as E3.
        assert (Hconv : conv (fun n => try_instances D env (f n) n (p, checked) c (i :: insts)) (p3, ch3, match r3 with Yes es => Yes (ByInstance i xs es) | No e => No e end)).
        { cbn [try_instances]. eapply (conv_bind (fun n => instantiate_instance env n p (instances D i) bottom)); [exact A1|]. cbn beta iota.
          eapply (conv_bind (fun n => match_types_to_right env n p1 (i_target con) c)); [exact M1|]. cbn beta iota.
          eapply (conv_bind (fun n => all_satisfied (f n) (p2, checked) (i_s_params con))); [exact S1|]. cbn beta iota. destruct r3; apply conv_ret. }
        eexists k3, p3, ch3, _. split; [exact Hconv|]. split; [eapply later_trans; eauto|].
        assert (Hrel : forall s, equations p2 s -> 
          Forall2 (fun x y => c_class y = c_class x /\ map (interp s) (c_args y) = terms_of s (i_params (instances D i)) (map (interp s) xs) x) (i_s_params (instances D i)) (i_s_params con)).
        { intros s Hs. eapply Forall2_imp; [|exact A7']. intros x y (_ & H2 & _ & H4). split; [exact H2|apply H4, Hs]. }
        destruct r3 as [es|e3]; cbn [post_try post_all] in *.
        * destruct S3 as (S3 & C3). split.
          -- intros s Hs. pose proof (E3 s (proj1 Hs)) as Hs2. apply proves_instance.
             ++ exact Hav.
             ++ pose proof (ksol_later env k1 p1 k3 p3 s Hwf1 (later_trans env _ _ _ _ _ _ M2 S2) Hs) as Hk1. clear -A3 Hk1 Hwf1.
                induction A3 as [|t g tys ps H _ IH]; constructor; [apply (ksol_ok env k1 p1); auto|exact IH].
             ++ apply (Hteq s Hs2).
             ++ specialize (S3 s Hs). specialize (Hrel s Hs2). clear -S3 Hrel. revert es S3.
                induction Hrel as [|x y l l' (R1 & R2) _ IH]; intros es S3; inversion S3 as [|e ? es' ? S4 S5]; subst; constructor; [|apply IH; exact S5].
                rewrite R1, R2 in S4. exact S4.
          -- intros Hg Hch. apply C3; [eapply gok_mono; [|exact Hg]; auto|eapply chk_mono; [|exact Hch]; auto].
        * destruct S3 as (Y & S3). split; [intros Ee; destruct (Y Ee) as (cl & Z); exists cl; eapply overlaps_back; [|exact Z]; auto|].
          intros Hg Hch Hclosed s Hs d Hb i' tys' Hi' Hk' Ht' HF.
          pose proof (E3 s (proj1 Hs)) as Hs2. pose proof (E2 s Hs2) as Hs1. pose proof (E1 s Hs1) as Hs0.
          assert (Hg2 : gok p2) by (eapply gok_mono; [|exact Hg]; auto). assert (Hch2 : chk p2 checked) by (eapply chk_mono; [|exact Hch]; auto).
          assert (Hkx : kinded_args env (map (interp s) xs) (i_params (instances D i))).
          { apply (args_kinded env k1 p1); auto. apply (ksol_later env k1 p1 k3 p3); auto. eapply later_trans; eauto. }
          destruct (N.eq_dec i i') as [<-|Hne].
          2:{ refine (Hch2 (c_class c) i i' Hcl Hav _ Hne s Hs2 _ tys' Hkx Hk' _); [apply Hincl; exact Hi'|]. rewrite (Hteq s Hs2), Ht'. reflexivity. }
          assert (Hl' : List.length tys' = List.length (i_params (instances D i))) by (eapply Forall2_len; exact Hk').
          assert (Hsame : forall g, In g (i_params (instances D i)) -> given (i_params (instances D i)) tys' g = given (i_params (instances D i)) (map (interp s) xs) g).
          { apply (args_determined kap p s i tys' (map (interp s) xs)); auto. rewrite Ht', (Hteq s Hs2). reflexivity. }
          refine (S3 Hg2 Hch2 _ s Hs d Hb _).
          -- (* the instantiated constraints are closed *)
             clear HF S3 Hconv S1. destruct (canonical_exists p2 (proj1 (proj1 (proj2 M2)))) as (s0 & Hcan). pose proof (proj1 Hcan) as Hs02.
             assert (Hdet : forall s1, equations p2 s1 -> forall g, In g (i_params (instances D i)) ->
               given (i_params (instances D i)) (map (interp s1) xs) g = given (i_params (instances D i)) (map (interp s0) xs) g).
             { intros s1 Hs1'. apply (args_determined kap p s1 i); auto. unfold target_of at 2.
               rewrite (stands_same p s1 s0 (i_params (instances D i)) (map (interp s0) xs) (i_target (instances D i))); [|auto|auto|apply Td].
               fold (target_of D s0 i (map (interp s0) xs)). rewrite (Hteq s1 Hs1'), (Hteq s0 Hs02). apply (closed_same p); auto. }
             rewrite Forall_forall. intros y Hy. assert (Hyx : exists x, In x (i_s_params (instances D i)) /\ replaced env D (i_params (instances D i)) xs k1 p2 x y).
             { clear -A7' Hy. induction A7' as [|x z l l' H _ IH]; [destruct Hy|]. destruct Hy as [<-|Hy]; [exists x; split; [left; reflexivity|exact H]|].
               destruct (IH Hy) as (x' & H1 & H2). exists x'. split; [right; exact H1|exact H2]. }
             destruct Hyx as (x & Hx & (_ & _ & _ & Hy4)). rewrite Forall_forall in Sd. destruct (Sd x Hx) as (_ & Hxcl).
             unfold closedc. unfold terms_of in Hy4.
             assert (Hpoint : forall t', In t' (c_args y) -> exists t, In t (c_args x) /\ forall s1, equations p2 s1 -> interp s1 t' = instance_of (i_params (instances D i)) (map (interp s1) xs) (interp s1 t)).
             { clear -Hy4 Hcan. revert Hy4. generalize (c_args x). induction (c_args y) as [|t' l IHl]; intros [|t lx] Hy4 u Hu.
               - destruct Hu.
               - destruct Hu.
               - specialize (Hy4 s0 (proj1 Hcan)). discriminate.
               - destruct Hu as [<-|Hu].
                 + exists t. split; [left; reflexivity|]. intros s1 H1. specialize (Hy4 s1 H1). cbn [map] in Hy4. injection Hy4 as H _. exact H.
                 + destruct (IHl lx) with (t' := u) as (t0 & H1 & H2); auto.
                   * intros s1 H1. specialize (Hy4 s1 H1). cbn [map] in Hy4. injection Hy4 as _ H. exact H.
                   * exists t0. split; [right; exact H1|exact H2]. }
             rewrite Forall_forall. intros t' Ht''. destruct (Hpoint t' Ht'') as (t & Htx & Hti). rewrite Forall_forall in Hxcl. destruct (Hxcl t Htx) as (g & G1 & G2).
             exists (instance_of (i_params (instances D i)) (map (interp s0) xs) g).
             assert (Hleaf : forall z, In z (leaves (instance_of (i_params (instances D i)) (map (interp s0) xs) g)) ->
               (exists cc, z = TCon cc) \/ exists ct, In ct (c_args c) /\ In z (leaves (interp s0 ct))).
             { intros z Hz. apply leaves_replace in Hz. destruct Hz as [(Hz & Hnone)|(yy & lv & u & Hz1 & Hz2 & Hz3)].
               - pose proof (G1 z Hz) as Gz. destruct z as [n k lv|cc|callee args|gg lv]; try contradiction; [left; eauto|]. exfalso.
                 destruct (given_some (i_params (instances D i)) (map (interp s0) xs) gg (Hlen s0) (proj1 Gz)) as (u & Hu & _). rewrite (Hnone gg lv eq_refl) in Hu. discriminate.
               - right. destruct (arg_leaves p s0 i (map (interp s0) xs) c Hg (E1 _ (E2 _ Hs02)) (Hlen s0) (Hteq s0 Hs02) yy u z (proj1 (G1 _ Hz1)) Hz2 Hz3) as (ct & Hct & Hzc). eauto. }
             unfold closedc in Hclosed. rewrite Forall_forall in Hclosed.
             split; [|split].
             ++ intros s1 H1. rewrite (Hti s1 H1), (G2 s1 (E1 _ (E2 _ H1))). apply replace_agree. intros z lv Hz. apply Hdet; auto. apply (G1 _ Hz).
             ++ intros n k lv Hz. destruct (Hleaf _ Hz) as [(cc & E)|(ct & Hct & Hzc)]; [discriminate|].
                destruct (Hclosed ct Hct) as (gc & C1 & C2 & _). rewrite (C1 s0 (E1 _ (E2 _ Hs02))) in Hzc. exact (C2 n k lv Hzc).
             ++ intros z Hz. destruct (Hleaf _ Hz) as [(cc & ->)|(ct & Hct & Hzc)]; [exact I|].
                destruct (Hclosed ct Hct) as (gc & C1 & _ & C3). rewrite (C1 s0 (E1 _ (E2 _ Hs02))) in Hzc. exact (C3 z Hzc).
          -- specialize (Hrel s Hs2). assert (Sd' : Forall (fun x => Forall (fun t => exists g, closed_over (i_params (instances D i)) g /\ stands p t g) (c_args x)) (i_s_params (instances D i))).
             { eapply Forall_impl; [|exact Sd]. intros x Hx. apply Hx. }
             clear -HF Hrel Hsame Hs0 Sd'. induction Hrel as [|x y l l' (R1 & R2) _ IH]; constructor; [|apply IH; [exact (Forall_inv_tail HF)|exact (Forall_inv_tail Sd')]].
             unfold goal. rewrite R1, R2, <- (terms_agree p s (i_params (instances D i)) tys' (map (interp s) xs) x Hs0 Hsame (Forall_inv Sd')). exact (Forall_inv HF).
      + (* the next one *)
        destruct (IH k1 p2 checked) as (k3 & p3 & ch3 & r3 & S1 & S2 & S3); auto.
        { apply M2. } { eapply decl_later; eauto. } { eapply pok_later; eauto. } { eapply cok_later; eauto. } { intros x Hx. apply Hincl. right. exact Hx. }
        pose proof (proj2 (proj2 (proj2 S2))) as E3.
        exists k3, p3, ch3, r3. split; [|split; [eapply later_trans; eauto|]].
        { cbn [try_instances]. eapply (conv_bind (fun n => instantiate_instance env n p (instances D i) bottom)); [exact A1|]. cbn beta iota.
          eapply (conv_bind (fun n => match_types_to_right env n p1 (i_target con) c)); [exact M1|]. exact S1. }
        assert (E02 : forall s, equations p2 s -> equations p s) by auto.
        destruct r3 as [es|e3]; cbn [post_try] in *.
        * destruct S3 as (S3 & C3). split; [exact S3|]. intros Hg Hch. apply C3; [eapply gok_mono; eauto|eapply chk_mono; eauto].
        * destruct S3 as (Y & S3). split; [intros Ee; destruct (Y Ee) as (cl & Z); exists cl; eapply overlaps_back; [|exact Z]; auto|].
          intros Hg Hch Hclosed s Hs d Hb i' tys' [<-|Hi'] Hk' Ht'.
          2:{ apply (S3 (gok_mono _ _ E02 Hg) (chk_mono _ _ _ E02 Hch) (closedc_mono _ _ _ E02 Hclosed) s Hs d Hb i' tys' Hi' Hk' Ht'). }
          exfalso. pose proof (E02 s (E3 s (proj1 Hs))) as Hs0.
          assert (Hl' : List.length tys' = List.length (i_params (instances D i))) by (eapply Forall2_len; exact Hk').
          destruct (realize env p1 bottom xs (i_params (instances D i)) tys') as (s1 & Hsol & Es1); auto.
          { apply Hwf1. } { eapply fresh_open. exact A4. }
          { apply Forall_forall. intros u Hu z Hz.
            assert (Hgu : exists g, In g (i_params (instances D i)) /\ given (i_params (instances D i)) tys' g = Some u).
            { clear -Hu Hl' Nd. unfold given. revert tys' Hu Hl'. induction (i_params (instances D i)) as [|g ps IHp]; intros [|t tys] Hu Hl; try discriminate; [destruct Hu|].
              destruct Hu as [<-|Hu]; [exists g; split; [left; reflexivity|cbn [combine find fst]; rewrite N.eqb_refl; reflexivity]|].
              destruct (IHp (proj2 (proj1 (NoDup_cons_iff _ _) Nd)) tys Hu ltac:(cbn in Hl; lia)) as (g' & H1 & H2). exists g'. split; [right; exact H1|].
              cbn [combine find fst]. destruct (N.eqb_spec g g') as [->|_]; [exfalso; apply NoDup_cons_iff in Nd; tauto|exact H2]. }
            destruct Hgu as (g & Hg1 & Hg2). destruct (arg_leaves p s i tys' c Hg Hs0 Hl' Ht' g u z Hg1 Hg2 Hz) as (ct & Hct & Hzc).
            unfold closedc in Hclosed. rewrite Forall_forall in Hclosed. destruct (Hclosed ct Hct) as (gc & C1 & _ & C3). rewrite (C1 s Hs0) in Hzc. exact (C3 z Hzc). }
          apply (M3 (closed_ground _ _ (closedc_mono _ _ _ E1 Hclosed)) s1 Hsol). rewrite (Atgt s1 (proj1 Hsol)), Es1.
          rewrite (stands_same p s1 s _ _ _ (E1 _ (proj1 Hsol)) Hs0 (proj2 Td)). fold (target_of D s i tys'). rewrite Ht'.
          apply (closed_same p); auto. apply E1, (proj1 Hsol).
  Qed.
End Search.
