From Verif.Base Require Import Base BaseFacts VecFacts.
From Verif.Types Require Import Model Spec Proofs ProofsUnify ProofsMain ProofsApi ProofsReach.
From Verif.Instances Require Import Model Spec ProofsBase ProofsDecl ProofsLists ProofsOverlap ProofsSearch ProofsBuild.

(** The loop over the superclasses. *)
Definition supers_loop (D : decls) (fuel : nat) (id : N) (path : list N) :=
  fix go (st : context * premise) (supers : list constr) : outcome (context * premise) :=
    match supers with
    | [] => Ret st
    | c :: supers =>
      let* st := install D fuel st id (path ++ [c_id c]) (c_class c) (c_args c) in
      go st supers
    end.

Lemma install_unfold D fuel pool pr id path cl args :
  install D (S fuel) (pool, pr) id path cl args =
  let* r := apply_class fuel pool (classes D cl) args in
  let* q := supers_loop D fuel id path (snd r, pr) (k_supers (fst r)) in
  Ret (fst q, snd q ++ [{| e_class := cl; e_id := id; e_path := path; e_args := args |}]).
Proof.
  cbn [install]. destruct (apply_class fuel pool (classes D cl) args) as [[con p]| |]; cbn [bind fst snd]; auto.
  unfold supers_loop. match goal with |- bind ?x _ = bind ?y _ => change y with x; destruct x as [[q1 q2]| |] end; reflexivity.
Qed.

Section Install.
  Variable env : kind_env.
  Variable D : decls.
  Variable rank : N -> nat.
  Hypothesis Hrank : forall cl c, In c (k_supers (classes D cl)) -> (rank (c_class c) < rank cl)%nat.
  Notation wf := (wf env).
  Notation later := (later env).
  Notation calm := (calm env).
  Notation cok := (cok env D).
  Notation decl := (decl env D).

  Definition entry_constr (e : entry) : constr := {| c_id := e_id e; c_class := e_class e; c_args := e_args e |}.

  (** The entries are those above one of the constraints. *)
  Definition above (p : context) (starts : (var -> gty) -> list N -> N -> list gty -> Prop) (id : N) (path : list N) (new : premise) : Prop :=
    forall s, equations p s ->
      (forall e, In e new -> e_id e = id /\ exists path', e_path e = path ++ path' /\ starts s path' (e_class e) (map (interp s) (e_args e))) /\
      (forall path' cl args, starts s path' cl args -> exists e, In e new /\ e_id e = id /\ e_path e = path ++ path' /\ e_class e = cl /\ map (interp s) (e_args e) = args).

  Definition from (cl : N) (args : list ty) (s : var -> gty) (path : list N) (cl' : N) (args' : list gty) : Prop :=
    leads D s cl (map (interp s) args) path cl' args'.

  Definition from_some (l : list constr) (ps : list gen) (tys : list ty) (s : var -> gty) (path : list N) (cl' : N) (args' : list gty) : Prop :=
    exists c path', In c l /\ path = c_id c :: path' /\ leads D s (c_class c) (terms_of s ps (map (interp s) tys) c) path' cl' args'.

  Definition grounded (p : context) (new : premise) : Prop := forall e, In e new -> Forall (ground p) (e_args e).

  Lemma grounded_mono p p' new : (forall s, equations p' s -> equations p s) -> grounded p new -> grounded p' new.
  Proof. intros H Hg e He. eapply Forall_impl; [|exact (Hg e He)]. intros t. apply ground_mono, H. Qed.

  Lemma above_mono p p' st id path new : (forall s, equations p' s -> equations p s) -> above p st id path new -> above p' st id path new.
  Proof. intros H Ha s Hs. apply Ha, H, Hs. Qed.

  Definition entries_ok (kap : var -> ast_kind) (p : context) (new : premise) : Prop := Forall (fun e => cok kap p (entry_constr e)) new.

  Lemma entries_later kap p kap' p' new : later kap p kap' p' -> entries_ok kap p new -> entries_ok kap' p' new.
  Proof. intros L. apply Forall_impl. intros e. apply cok_later, L. Qed.

  Lemma args_later kap p kap' p' tys ps : later kap p kap' p' -> args_ok env kap p tys ps -> args_ok env kap' p' tys ps.
  Proof. intros L. apply Forall2_imp. intros t g. apply later_ok, L. Qed.

  (** Replacing the parameters of a declaration by closed types leaves it closed. *)
  Lemma replaced_ground kap p ps tys c c' : wf kap p -> List.length tys = List.length ps -> Forall (ground p) tys ->
    Forall (fun t => exists g, closed_over ps g /\ stands p t g) (c_args c) -> replaced env D ps tys kap p c c' -> Forall (ground p) (c_args c').
  Proof.
    intros Hwf Hlen Hg Hcl (_ & _ & _ & Hr). destruct (canonical_exists p (proj1 Hwf)) as (s0 & Hcan).
    assert (Hsame : forall s, equations p s -> map (interp s) tys = map (interp s0) tys).
    { intros s Hs. apply map_ext_in. intros t Ht. rewrite Forall_forall in Hg. destruct (Hg t Ht) as (g & G & _). rewrite (G s Hs), (G s0 (proj1 Hcan)). reflexivity. }
    assert (Hnn : forall u, In u (map (interp s0) tys) -> forall n k lv, ~ In (TName n k lv) (leaves u)).
    { intros u Hu. apply in_map_iff in Hu. destruct Hu as (t & <- & Ht). rewrite Forall_forall in Hg. destruct (Hg t Ht) as (g & G & Gn). rewrite (G s0 (proj1 Hcan)). exact Gn. }
    unfold terms_of in Hr. revert Hr Hcl. generalize (c_args c). induction (c_args c') as [|t' l IH]; intros [|t lx] Hr Hcl.
    - constructor.
    - constructor.
    - specialize (Hr s0 (proj1 Hcan)). discriminate.
    - constructor.
      + destruct (Forall_inv Hcl) as (g & G1 & G2). exists (instance_of ps (map (interp s0) tys) g). split.
        * intros s Hs. specialize (Hr s Hs). cbn [map] in Hr. injection Hr as E _. rewrite E, (G2 s Hs), (Hsame s Hs). reflexivity.
        * intros n k lv Hx. apply leaves_replace in Hx. destruct Hx as [(Hx & Hn)|(y & ly & u & H1 & H2 & H3)].
          -- exact (G1 _ Hx).
          -- refine (Hnn u _ n k lv H3). assert (L : List.length (map (interp s0) tys) = List.length ps) by (rewrite map_length; exact Hlen).
             destruct (given_some ps (map (interp s0) tys) y L (proj1 (G1 _ H1))) as (u' & E & Hin). rewrite E in H2. injection H2 as <-. exact Hin.
      + apply (IH lx); [|exact (Forall_inv_tail Hcl)]. intros s Hs. specialize (Hr s Hs). cbn [map] in Hr. injection Hr as _ E. exact E.
  Qed.

  Definition install_post (kap : var -> ast_kind) (p : context) (id : N) (path : list N) (starts : (var -> gty) -> list N -> N -> list gty -> Prop) (closed : Prop) (kap' : var -> ast_kind) (p' : context) (new : premise) : Prop :=
    calm kap p kap' p' /\ above p' starts id path new /\ entries_ok kap' p' new /\ (closed -> grounded p' new).

  Lemma install_ok k : forall cl, (rank cl < k)%nat -> forall kap p pr id path args, wf kap p -> decl kap p -> args_ok env kap p args (k_params (classes D cl)) ->
    exists kap' p' new, conv (fun n => install D n (p, pr) id path cl args) (p', pr ++ new) /\
      install_post kap p id path (from cl args) (Forall (ground p) args) kap' p' new.
  Proof.
    induction k as [|k IH]; intros cl Hk kap p pr id path args Hwf Hd Hargs; [lia|].
    destruct (apply_class_ok env D kap p cl args Hwf Hd Hargs) as (con & k1 & p1 & A1 & A2 & A3).
    assert (Hloop : forall l l', incl l (k_supers (classes D cl)) -> forall kap p pr, wf kap p -> decl kap p -> args_ok env kap p args (k_params (classes D cl)) ->
      Forall2 (replaced env D (k_params (classes D cl)) args kap p) l l' ->
      exists kap' p' new, conv (fun n => supers_loop D n id path (p, pr) l') (p', pr ++ new) /\
        install_post kap p id path (from_some l (k_params (classes D cl)) args) (Forall (ground p) args) kap' p' new).
    { clear A1 A2 A3 p1 k1 con kap p pr Hwf Hd Hargs. induction l as [|c l IHl]; intros l' Hincl kap p pr Hwf Hd Hargs HF; inversion HF as [|? c' ? l'' Hc Hl]; subst.
      - exists kap, p, []. split; [rewrite app_nil_r; apply conv_ret|]. split; [apply calm_refl, Hwf|]. split; [|split; [constructor|intros _ e []]].
        intros s Hs. split; [intros e []|]. intros path' cl' args' (x & y & [] & _).
      - destruct Hc as (Hc1 & Hc2 & Hc3 & Hc4). pose proof (Hincl c (or_introl eq_refl)) as Hcin.
        destruct (IH (c_class c') ltac:(rewrite Hc2; specialize (Hrank cl c Hcin); lia) kap p pr id (path ++ [c_id c']) (c_args c') Hwf Hd Hc3) as (k2 & p2 & new1 & B1 & B2 & B3 & B4 & B5).
        pose proof (proj1 B2) as L2. pose proof (proj2 (proj2 (proj2 L2))) as E2.
        destruct (IHl l'' (fun x Hx => Hincl x (or_intror Hx)) k2 p2 (pr ++ new1)) as (k3 & p3 & new2 & C1 & C2 & C3 & C4 & C5).
        { apply L2. } { eapply decl_later; eauto. } { eapply args_later; eauto. }
        { eapply Forall2_imp; [|exact Hl]. intros x y. apply replaced_later, L2. }
        pose proof (proj1 C2) as L3. pose proof (proj2 (proj2 (proj2 L3))) as E3.
        exists k3, p3, (new1 ++ new2). split; [|split; [eapply calm_trans; eauto|split; [|split]]].
        + cbn [supers_loop]. eapply (conv_bind (fun n => install D n (p, pr) id (path ++ [c_id c']) (c_class c') (c_args c'))); [exact B1|]. rewrite app_assoc. exact C1.
        + intros s Hs. destruct (B3 s (E3 s Hs)) as (B31 & B32), (C3 s Hs) as (C31 & C32).
          assert (Ec : map (interp s) (c_args c') = terms_of s (k_params (classes D cl)) (map (interp s) args) c) by (apply Hc4; auto).
          split.
          * intros e He. apply in_app_or in He. destruct He as [He|He].
            -- destruct (B31 e He) as (X1 & path' & X2 & X3). split; [exact X1|]. exists (c_id c :: path'). split; [rewrite X2, Hc1, <- app_assoc; reflexivity|].
               exists c, path'. split; [left; reflexivity|]. split; [reflexivity|]. unfold from in X3. rewrite Ec, Hc2 in X3. exact X3.
            -- destruct (C31 e He) as (X1 & path' & X2 & (x & y & X3 & X4 & X5)). split; [exact X1|]. exists path'. split; [exact X2|]. exists x, y. split; [right; exact X3|auto].
          * intros path' cl' args' (x & y & [<-|Hx] & -> & Hle).
            -- destruct (B32 y cl' args') as (e & X1 & X2 & X3 & X4); [unfold from; rewrite Ec, Hc2; exact Hle|].
               exists e. split; [apply in_or_app; left; exact X1|]. split; [exact X2|]. split; [rewrite X3, Hc1, <- app_assoc; reflexivity|exact X4].
            -- destruct (C32 (c_id x :: y) cl' args') as (e & X1 & X2); [exists x, y; auto|]. exists e. split; [apply in_or_app; right; exact X1|exact X2].
        + apply Forall_app. split; [eapply entries_later; eauto|exact C4].
        + intros Hg e He. apply in_app_or in He. destruct He as [He|He].
          * refine (grounded_mono p2 p3 new1 E3 (B5 _) e He). apply (replaced_ground kap p (k_params (classes D cl)) args c c' Hwf); auto.
            -- eapply Forall2_len. exact Hargs.
            -- pose proof (proj2 (proj1 Hd cl)) as Hsup. rewrite Forall_forall in Hsup. apply (Hsup c Hcin).
            -- split; [exact Hc1|]. split; [exact Hc2|]. split; [exact Hc3|exact Hc4].
          * apply C5; [|exact He]. eapply Forall_impl; [|exact Hg]. intros t. apply ground_mono, E2. }
    pose proof (proj1 A2) as L1. pose proof (proj2 (proj2 (proj2 L1))) as E1.
    destruct (Hloop _ _ (incl_refl _) k1 p1 pr (proj1 (proj2 L1)) (decl_later env D _ _ _ _ L1 Hd) (args_later _ _ _ _ _ _ L1 Hargs) A3) as (k2 & p2 & new & B1 & B2 & B3 & B4 & B5).
    pose proof (proj1 B2) as L2. pose proof (proj2 (proj2 (proj2 L2))) as E2.
    exists k2, p2, (new ++ [{| e_class := cl; e_id := id; e_path := path; e_args := args |}]). split; [|split; [eapply calm_trans; eauto|split; [|split]]].
    - eapply (conv_step _ _ _ (fun n => install_unfold D n p pr id path cl args)).
      eapply (conv_bind (fun n => apply_class n p (classes D cl) args)); [exact A1|]. cbn [fst snd].
      eapply (conv_bind (fun n => supers_loop D n id path (p1, pr) (k_supers con))); [exact B1|]. cbn [fst snd]. rewrite app_assoc. apply conv_ret.
    - intros s Hs. destruct (B3 s Hs) as (B31 & B32). split.
      + intros e He. apply in_app_or in He. destruct He as [He|[<-|[]]].
        * destruct (B31 e He) as (X1 & path' & X2 & (x & y & X3 & -> & X5)). split; [exact X1|]. exists (c_id x :: y). split; [exact X2|]. eapply leads_up; [exact X3|exact X5].
        * split; [reflexivity|]. exists []. split; [cbn; symmetry; apply app_nil_r|]. apply leads_here.
      + intros path' cl' args' Hle. unfold from in Hle. inversion Hle as [|? ? x y ? ? X1 X2]; subst.
        * eexists. split; [apply in_or_app; right; left; reflexivity|]. cbn. rewrite app_nil_r. auto.
        * destruct (B32 (c_id x :: y) cl' args') as (e & Y1 & Y2); [exists x, y; auto|]. exists e. split; [apply in_or_app; left; exact Y1|exact Y2].
    - apply Forall_app. split; [exact B4|]. constructor; [|constructor]. unfold ProofsDecl.cok, entry_constr. cbn. eapply args_later; [|exact Hargs]. eapply later_trans; eauto.
    - intros Hg e He. apply in_app_or in He. destruct He as [He|[<-|[]]].
      + apply B5; [|exact He]. eapply Forall_impl; [|exact Hg]. intros t. apply ground_mono, E1.
      + cbn. eapply Forall_impl; [|exact Hg]. intros t. apply ground_mono. auto.
  Qed.

  Lemma install_all_ok cs : forall kap p pr, wf kap p -> decl kap p -> Forall (cok kap p) cs ->
    exists kap' p' new, conv (fun n => install_all D n (p, pr) cs) (p', pr ++ new) /\ calm kap p kap' p' /\
      (forall s, equations p' s ->
        (forall e, In e new -> exists a, In a cs /\ c_id a = e_id e /\ leads D s (c_class a) (map (interp s) (c_args a)) (e_path e) (e_class e) (map (interp s) (e_args e))) /\
        (forall a path cl args, In a cs -> leads D s (c_class a) (map (interp s) (c_args a)) path cl args ->
           exists e, In e new /\ e_id e = c_id a /\ e_path e = path /\ e_class e = cl /\ map (interp s) (e_args e) = args)) /\
      entries_ok kap' p' new /\ (Forall (fun c => Forall (ground p) (c_args c)) cs -> grounded p' new).
  Proof.
    induction cs as [|c cs IH]; intros kap p pr Hwf Hd Hcs.
    - exists kap, p, []. split; [rewrite app_nil_r; apply conv_ret|]. split; [apply calm_refl, Hwf|]. split; [|split; [constructor|intros _ e []]].
      intros s Hs. split; [intros e []|intros a path cl args []].
    - destruct (install_ok (S (rank (c_class c))) (c_class c) (Nat.lt_succ_diag_r _) kap p pr (c_id c) [] (c_args c) Hwf Hd (Forall_inv Hcs)) as (k1 & p1 & n1 & B1 & B2 & B3 & B4 & B5).
      pose proof (proj1 B2) as L1. pose proof (proj2 (proj2 (proj2 L1))) as E1.
      destruct (IH k1 p1 (pr ++ n1)) as (k2 & p2 & n2 & C1 & C2 & C3 & C4 & C5).
      { apply L1. } { eapply decl_later; eauto. } { eapply Forall_impl; [|exact (Forall_inv_tail Hcs)]. intros x. apply cok_later, L1. }
      pose proof (proj1 C2) as L2. pose proof (proj2 (proj2 (proj2 L2))) as E2.
      exists k2, p2, (n1 ++ n2). split; [|split; [eapply calm_trans; eauto|split; [|split]]].
      + cbn [install_all]. eapply (conv_bind (fun n => install D n (p, pr) (c_id c) [] (c_class c) (c_args c))); [exact B1|]. rewrite app_assoc. exact C1.
      + intros s Hs. destruct (B3 s (E2 s Hs)) as (B31 & B32), (C3 s Hs) as (C31 & C32). split.
        * intros e He. apply in_app_or in He. destruct He as [He|He].
          -- destruct (B31 e He) as (X1 & path' & X2 & X3). exists c. split; [left; reflexivity|]. split; [auto|]. rewrite X2. exact X3.
          -- destruct (C31 e He) as (a & X1 & X2). exists a. split; [right; exact X1|exact X2].
        * intros a path cl args [<-|Ha] Hle.
          -- destruct (B32 path cl args Hle) as (e & X1 & X2). exists e. split; [apply in_or_app; left; exact X1|exact X2].
          -- destruct (C32 a path cl args Ha Hle) as (e & X1 & X2). exists e. split; [apply in_or_app; right; exact X1|exact X2].
      + apply Forall_app. split; [eapply entries_later; eauto|exact C4].
      + intros Hg e He. apply in_app_or in He. destruct He as [He|He].
        * exact (grounded_mono p1 p2 n1 E2 (B5 (Forall_inv Hg)) e He).
        * apply C5; [|exact He]. eapply Forall_impl; [|exact (Forall_inv_tail Hg)]. intros x. apply Forall_impl. intros t. apply ground_mono, E1.
  Qed.
End Install.
