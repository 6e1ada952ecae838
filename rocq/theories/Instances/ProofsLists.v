From Verif.Base Require Import Base BaseFacts VecFacts.
From Verif.Types Require Import Model Spec Proofs ProofsUnify ProofsMain ProofsApi ProofsReach.
From Verif.Instances Require Import Model Spec ProofsBase ProofsDecl.

(** * More about replacement *)
Lemma leaves_gapp c l : leaves (gapp c l) = leaves c ++ flat_map leaves l.
Proof. destruct l; [cbn; rewrite app_nil_r; reflexivity|reflexivity]. Qed.

Lemma leaves_replace M g x : In x (leaves (replace_gens M g)) ->
  (In x (leaves g) /\ forall y lv, x = TGen y lv -> M y = None) \/ exists y lv u, In (TGen y lv) (leaves g) /\ M y = Some u /\ In x (leaves u).
Proof.
  induction g as [n k lv|c|callee args IHc IHa|y lv] using gty_ind'; cbn [replace_gens].
  - intros [<-|[]]. left. split; [left; reflexivity|discriminate].
  - intros [<-|[]]. left. split; [left; reflexivity|discriminate].
  - rewrite leaves_gapp. intros H. apply in_app_or in H. destruct H as [H|H].
    + destruct (IHc H) as [(H1 & H2)|(y & lv & u & H1 & H2)]; [left|right].
      * split; [cbn [leaves]; apply in_or_app; auto|exact H2].
      * exists y, lv, u. split; [cbn [leaves]; apply in_or_app; auto|exact H2].
    + apply in_flat_map in H. destruct H as (b & Hb & H). apply in_map_iff in Hb. destruct Hb as (a & <- & Ha).
      rewrite Forall_forall in IHa. destruct (IHa a Ha H) as [(H1 & H2)|(y & lv & u & H1 & H2)]; [left|right].
      * split; [cbn [leaves]; apply in_or_app; right; apply in_flat_map; eauto|exact H2].
      * exists y, lv, u. split; [cbn [leaves]; apply in_or_app; right; apply in_flat_map; eauto|exact H2].
  - destruct (M y) as [u|] eqn:E; intros H; [right|left].
    + exists y, lv, u. split; [left; reflexivity|auto].
    + split; [exact H|]. destruct H as [<-|[]]. intros z l Ez. injection Ez as -> _. exact E.
Qed.

Lemma leaves_replace_in M g y lv u x : In (TGen y lv) (leaves g) -> M y = Some u -> In x (leaves u) -> In x (leaves (replace_gens M g)).
Proof.
  induction g as [n k l|c|callee args IHc IHa|z l] using gty_ind'; cbn [replace_gens leaves]; intros Hy Hm Hx.
  - destruct Hy as [E|[]]; discriminate.
  - destruct Hy as [E|[]]; discriminate.
  - rewrite leaves_gapp. apply in_app_or in Hy. apply in_or_app. destruct Hy as [Hy|Hy]; [left; auto|right].
    apply in_flat_map in Hy. destruct Hy as (a & Ha & Hy). apply in_flat_map. exists (replace_gens M a). split; [apply in_map, Ha|].
    rewrite Forall_forall in IHa. apply IHa; auto.
  - destruct Hy as [E|[]]. injection E as -> _. rewrite Hm. exact Hx.
Qed.

Lemma replace_inj M M' g : solid g -> replace_gens M g = replace_gens M' g ->
  forall x lv u u', In (TGen x lv) (leaves g) -> M x = Some u -> M' x = Some u' -> u = u'.
Proof.
  induction g as [n k l|c|callee args IHc IHa|z l] using gty_ind'; cbn [replace_gens leaves]; intros Hs He x lv u u' Hx Hu Hu'.
  - destruct Hx as [E|[]]; discriminate.
  - destruct Hx as [E|[]]; discriminate.
  - apply solid_app in Hs. destruct Hs as (S1 & S2 & S3). rewrite !gapp_ne in He by (destruct args; [contradiction|discriminate]).
    injection He as He1 He2. apply in_app_or in Hx. destruct Hx as [Hx|Hx]; [eapply IHc; eauto|].
    apply in_flat_map in Hx. destruct Hx as (a & Ha & Hx). rewrite Forall_forall in IHa, S3. eapply (IHa a Ha (S3 a Ha)); eauto.
    clear -Ha He2. induction args as [|b args IH]; [destruct Ha|]. cbn [map] in He2. injection He2 as H1 H2. destruct Ha as [<-|Ha]; auto.
  - destruct Hx as [E|[]]. injection E as -> _. rewrite Hu, Hu' in He. exact He.
Qed.

Lemma erase_gsubst s t : erase (gsubst s t) = gsubst (fun v => erase (s v)) (erase t).
Proof.
  induction t as [n k lv|c|callee args IHc IHa|g lv] using gty_ind'; cbn [gsubst erase]; try reflexivity.
  rewrite IHc. f_equal. rewrite !map_map. apply map_ext_in. rewrite Forall_forall in IHa. exact IHa.
Qed.

(** * Several types at once *)
Section Lists.
  Variable env : kind_env.
  Notation wf := (wf env).
  Notation ok := (ok env).
  Notation later := (later env).
  Notation calm := (calm env).

  Section Each.
    Variable op : nat -> context -> ty -> ty -> outcome (context * result error).
    Variable G : context -> ty -> Prop.
    Hypothesis G_mono : forall p p' t, (forall s, equations p' s -> equations p s) -> G p t -> G p' t.
    Hypothesis op_ok : forall kap p a b, wf kap p -> typed env kap p a -> typed env kap p b ->
      exists p' r, conv (fun n => op n p a b) (p', r) /\ extends env kap p p' /\
        exact_for env (G p b) p (fun s => interp s a = interp s b) p' r.

    Definition each_spec (p : context) (l : list (ty * ty)) (p' : context) (r : result error) : Prop :=
      match r with
      | Ok => forall s, (equations p' s <-> equations p s /\ Forall (fun ab => interp s (fst ab) = interp s (snd ab)) l) /\
                        (equations p' s -> (fits env p' s <-> fits env p s))
      | Err _ => Forall (fun ab => G p (snd ab)) l -> forall s, solution env p s -> ~ Forall (fun ab => interp s (fst ab) = interp s (snd ab)) l
      end.

    Lemma each_ok l : forall kap p, wf kap p -> Forall (fun ab => typed env kap p (fst ab) /\ typed env kap p (snd ab)) l ->
      exists p' r, conv (fun n => for_each (fun pool ab => op n pool (fst ab) (snd ab)) p l) (p', r) /\ later kap p kap p' /\ each_spec p l p' r.
    Proof.
      induction l as [|(a & b) l IH]; intros kap p Hwf Hl.
      - exists p, Ok. split; [apply conv_ret|]. split; [apply later_refl, Hwf|]. intros s. split; [|reflexivity]. split; [auto|tauto].
      - destruct (Forall_inv Hl) as (Ta & Tb). cbn [fst snd] in Ta, Tb.
        destruct (op_ok kap p a b Hwf Ta Tb) as (p1 & r1 & H1 & E1 & X1). pose proof (extends_later env _ _ _ E1) as L1.
        destruct r1 as [|e].
        + destruct (IH kap p1) as (p2 & r2 & H2 & L2 & X2).
          { apply E1. }
          { eapply Forall_impl; [|exact (Forall_inv_tail Hl)]. intros (x & y) (Tx & Ty). cbn [fst snd] in *.
            split; apply (typed_kap env kap kap p p1); auto; symmetry; apply E1. }
          exists p2, r2. split; [|split; [eapply later_trans; eauto|]].
          { cbn [for_each fst snd]. eapply (conv_bind (fun n => op n p a b)); [exact H1|]. exact H2. }
          cbn in X1. destruct r2 as [|e2]; cbn [each_spec] in *.
          * intros s. destruct (X1 s) as (A1 & A2), (X2 s) as (B1 & B2). split.
            -- rewrite B1, A1. split; [intros ((H & HP) & HF); split; [exact H|constructor; auto]|].
               intros (H & HF). split; [split; [exact H|exact (Forall_inv HF)]|exact (Forall_inv_tail HF)].
            -- intros Hs. rewrite (B2 Hs). apply A2. apply B1, Hs.
          * intros HG s (Hs & Hf) HF. pose proof (Forall_inv HF) as HP. cbn [fst snd] in HP.
            destruct (X1 s) as (A1 & A2). assert (Hs1 : equations p1 s) by (apply A1; auto).
            refine (X2 _ s (conj Hs1 (proj2 (A2 Hs1) Hf)) (Forall_inv_tail HF)).
            eapply Forall_impl; [|exact (Forall_inv_tail HG)]. intros ab. apply G_mono, L1.
        + exists p1, (Err e). split; [|split; [exact L1|]].
          { cbn [for_each fst snd]. eapply (conv_bind (fun n => op n p a b)); [exact H1|]. apply conv_ret. }
          cbn [each_spec]. intros HG s (Hs & Hf) HF. pose proof (Forall_inv HF) as HP. cbn [fst snd] in HP.
          destruct e; cbn in X1; [exact (X1 s Hs HP)|]. exact (X1 (Forall_inv HG) s (conj Hs Hf) HP).
    Qed.
  End Each.

  Lemma combine_eq (s : var -> gty) la lb : List.length la = List.length lb ->
    (Forall (fun ab => interp s (fst ab) = interp s (snd ab)) (combine la lb) <-> map (interp s) la = map (interp s) lb).
  Proof.
    revert lb. induction la as [|a la IH]; intros [|b lb] H; try discriminate; [split; [reflexivity|constructor]|].
    cbn [combine map]. specialize (IH lb ltac:(cbn in H; lia)). split.
    - intros HF. f_equal; [exact (Forall_inv HF)|]. apply IH. exact (Forall_inv_tail HF).
    - intros HE. injection HE as H1 H2. constructor; [exact H1|]. apply IH, H2.
  Qed.

  Lemma Forall_combine_both {A} (P : A -> Prop) la lb : Forall P la -> Forall P lb -> Forall (fun ab => P (fst ab) /\ P (snd ab)) (combine la lb).
  Proof.
    intros Ha. revert lb. induction Ha as [|a la H _ IH]; intros lb Hb; [constructor|]. destruct Hb as [|b lb Hb1 Hb2]; [constructor|].
    constructor; [auto|]. apply IH, Hb2.
  Qed.

  Lemma Forall_combine_snd {A} (P : A -> Prop) (la lb : list A) : Forall P lb -> Forall (fun ab => P (snd ab)) (combine la lb).
  Proof. intros Hb. revert la. induction Hb as [|b lb H _ IH]; intros [|a la]; constructor; auto. Qed.

  Definition pair_spec (G : context -> ty -> Prop) (p : context) (a b : list ty) (p' : context) (r : result error) : Prop :=
    match r with
    | Ok => forall s, equations p' s -> map (interp s) a = map (interp s) b
    | Err _ => Forall (G p) b -> forall s, solution env p s -> map (interp s) a <> map (interp s) b
    end.

  Lemma each_pair G p la lb p' r : List.length la = List.length lb -> each_spec G p (combine la lb) p' r -> pair_spec G p la lb p' r.
  Proof.
    intros Hl. destruct r as [|e]; cbn.
    - intros H s Hs. apply combine_eq; [exact Hl|]. apply H, Hs.
    - intros H HG s Hs He. apply (H (Forall_combine_snd _ la lb HG) s Hs). apply combine_eq; auto.
  Qed.

  Lemma match_types_ok kap p a b : wf kap p -> Forall (typed env kap p) (c_args a) -> Forall (typed env kap p) (c_args b) ->
    List.length (c_args a) = List.length (c_args b) ->
    exists p' r, conv (fun n => match_types_to_right env n p a b) (p', r) /\ later kap p kap p' /\ pair_spec ground p (c_args a) (c_args b) p' r.
  Proof.
    intros Hwf Ha Hb Hl. destruct (each_ok (fun n => match_to_right env n) ground ground_mono) with (l := combine (c_args a) (c_args b)) (kap := kap) (p := p)
      as (p' & r & H1 & H2 & H3); auto.
    - intros k q x y W X Y. apply match_ok; auto.
    - apply Forall_combine_both; auto.
    - exists p', r. split; [exact H1|]. split; [exact H2|]. apply each_pair; auto.
  Qed.

  Lemma unify_types_ok kap p a b : wf kap p -> Forall (typed env kap p) (c_args a) -> Forall (typed env kap p) (c_args b) ->
    List.length (c_args a) = List.length (c_args b) ->
    exists p' r, conv (fun n => unify_types env n p a b) (p', r) /\ later kap p kap p' /\ pair_spec (fun _ _ => True) p (c_args a) (c_args b) p' r.
  Proof.
    intros Hwf Ha Hb Hl. destruct (each_ok (fun n => unify env n) (fun _ _ => True)) with (l := combine (c_args a) (c_args b)) (kap := kap) (p := p)
      as (p' & r & H1 & H2 & H3); auto.
    - intros k q x y W X Y. apply unify_ok; auto.
    - apply Forall_combine_both; auto.
    - exists p', r. split; [exact H1|]. split; [exact H2|]. apply each_pair; auto.
  Qed.

  (** * Comparing with the premise *)
  Lemma all_equal_ok kap s0 l : forall p, wf kap p -> canonical p s0 -> Forall (fun ab => typed env kap p (fst ab) /\ typed env kap p (snd ab)) l ->
    exists r p', conv (fun n => all_ctx (fun pool ab => equal n pool (fst ab) (snd ab)) p l) (r, p') /\ same env kap p p' /\
      (r = true <-> Forall (fun ab => erase (interp s0 (fst ab)) = erase (interp s0 (snd ab))) l).
  Proof.
    induction l as [|(a & b) l IH]; intros p Hwf Hc Hl.
    - exists true, p. split; [apply conv_ret|]. split; [apply same_refl, Hwf|]. split; auto.
    - destruct (Forall_inv Hl) as (Ta & Tb). cbn [fst snd] in Ta, Tb.
      destruct (equal_exact env kap p s0 a b Hwf Hc (proj1 Ta) (proj1 Tb)) as (r1 & p1 & H1 & S1 & X1). destruct r1.
      + destruct (IH p1) as (r2 & p2 & H2 & S2 & X2).
        { apply S1. } { eapply same_canonical; eauto. }
        { eapply Forall_impl; [|exact (Forall_inv_tail Hl)]. intros (x & y) (Tx & Ty). cbn [fst snd] in *.
          split; apply (typed_kap env kap kap p p1); auto; symmetry; apply S1. }
        exists r2, p2. split; [|split; [eapply same_trans; eauto|]].
        * cbn [all_ctx fst snd]. eapply (conv_bind (fun n => equal n p a b)); [exact H1|]. exact H2.
        * rewrite X2. split; [intros HF; constructor; [apply X1; reflexivity|exact HF]|intros HF; exact (Forall_inv_tail HF)].
      + exists false, p1. split; [|split; [exact S1|]].
        * cbn [all_ctx fst snd]. eapply (conv_bind (fun n => equal n p a b)); [exact H1|]. apply conv_ret.
        * split; [discriminate|]. intros HF. apply X1. exact (Forall_inv HF).
  Qed.

  Lemma combine_erase (s : var -> gty) la lb : List.length la = List.length lb ->
    (Forall (fun ab => erase (interp s (fst ab)) = erase (interp s (snd ab))) (combine la lb) <->
     map erase (map (interp s) la) = map erase (map (interp s) lb)).
  Proof.
    revert lb. induction la as [|a la IH]; intros [|b lb] H; try discriminate; [split; [reflexivity|constructor]|].
    cbn [combine map]. specialize (IH lb ltac:(cbn in H; lia)). split.
    - intros HF. f_equal; [exact (Forall_inv HF)|]. apply IH. exact (Forall_inv_tail HF).
    - intros HE. injection HE as H1 H2. constructor; [exact H1|]. apply IH, H2.
  Qed.

  Definition eok (kap : var -> ast_kind) (p : context) (n : N -> nat) (e : entry) : Prop :=
    Forall (typed env kap p) (e_args e) /\ List.length (e_args e) = n (e_class e).

  Lemma find_premise_ok nparams cl args pr : List.length args = nparams cl -> forall kap p s0, wf kap p -> canonical p s0 -> Forall (typed env kap p) args ->
    Forall (eok kap p nparams) pr ->
    exists o p', conv (fun n => find_premise n p pr cl args) (o, p') /\ same env kap p p' /\
      match o with
      | Some e => In e pr /\ e_class e = cl /\ map erase (map (interp s0) (e_args e)) = map erase (map (interp s0) args)
      | None => forall e, In e pr -> e_class e = cl -> map erase (map (interp s0) (e_args e)) <> map erase (map (interp s0) args)
      end.
  Proof.
    intros Hlen. induction pr as [|e pr IH]; intros kap p s0 Hwf Hc Ha Hpr.
    - exists None, p. split; [apply conv_ret|]. split; [apply same_refl, Hwf|]. intros e [].
    - destruct (Forall_inv Hpr) as (He & Hel). cbn [find_premise]. destruct (N.eqb_spec (e_class e) cl) as [Ec|Ec].
      + assert (Hl : List.length (e_args e) = List.length args) by congruence.
        destruct (all_equal_ok kap s0 (combine (e_args e) args) p Hwf Hc (Forall_combine_both _ _ _ He Ha)) as (r1 & p1 & H1 & S1 & X1). destruct r1.
        * exists (Some e), p1. split; [|split; [exact S1|]].
          -- eapply (conv_bind (fun n => all_ctx (fun pool ab => equal n pool (fst ab) (snd ab)) p (combine (e_args e) args))); [exact H1|]. apply conv_ret.
          -- split; [left; reflexivity|]. split; [exact Ec|]. apply combine_erase; [exact Hl|]. apply X1. reflexivity.
        * assert (Htyp : forall t, typed env kap p t -> typed env kap p1 t).
          { intros t. apply (typed_kap env kap kap p p1); auto; symmetry; apply S1. }
          destruct (IH kap p1 s0) as (o & p2 & H2 & S2 & X2).
          { apply S1. } { eapply same_canonical; eauto. } { eapply Forall_impl; [|exact Ha]. exact Htyp. }
          { eapply Forall_impl; [|exact (Forall_inv_tail Hpr)]. intros x (X & Y). split; [|exact Y]. eapply Forall_impl; [|exact X]. exact Htyp. }
          exists o, p2. split; [|split; [eapply same_trans; eauto|]].
          -- eapply (conv_bind (fun n => all_ctx (fun pool ab => equal n pool (fst ab) (snd ab)) p (combine (e_args e) args))); [exact H1|]. exact H2.
          -- destruct o as [x|]; [split; [right|]; apply X2|]. intros x [<-|Hx] Hxc; [|apply X2; auto].
             intros HE. apply combine_erase in HE; [|exact Hl]. apply X1 in HE. discriminate.
      + destruct (IH kap p s0 Hwf Hc Ha (Forall_inv_tail Hpr)) as (o & p2 & H2 & S2 & X2). exists o, p2. split; [exact H2|]. split; [exact S2|].
        destruct o as [x|]; [split; [right|]; apply X2|]. intros x [<-|Hx] Hxc; [contradiction|apply X2; auto].
  Qed.

  Lemma erase_all kap p s0 s la lb : wf kap p -> canonical p s0 -> equations p s -> Forall (typed env kap p) la -> Forall (typed env kap p) lb ->
    map erase (map (interp s0) la) = map erase (map (interp s0) lb) -> map erase (map (interp s) la) = map erase (map (interp s) lb).
  Proof.
    intros Hwf Hc Hs Ha Hb.
    assert (E : forall l, Forall (typed env kap p) l -> map erase (map (interp s) l) = map (gsubst (fun v => erase (s v))) (map erase (map (interp s0) l))).
    { intros l Hl. rewrite !map_map. apply map_ext_in. intros t Ht. rewrite Forall_forall in Hl.
      rewrite (canonical_gsubst_t p s0 s t (proj1 Hwf) Hc Hs (proj1 (Hl t Ht))). apply erase_gsubst. }
    intros He. rewrite (E la Ha), (E lb Hb), He. reflexivity.
  Qed.
End Lists.
