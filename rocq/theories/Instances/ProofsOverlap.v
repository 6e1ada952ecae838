From Verif.Base Require Import Base BaseFacts VecFacts.
From Verif.Types Require Import Model Spec Proofs ProofsUnify ProofsMain ProofsApi ProofsReach.
From Verif.Instances Require Import Model Spec ProofsBase ProofsDecl ProofsLists.

(** * Terms with all levels at the top *)
Fixpoint flat (t : gty) : gty :=
  match t with
  | TName n k _ => TName n k top
  | TApp callee args => TApp (flat callee) (map flat args)
  | TGen g _ => TGen g top
  | t => t
  end.

Lemma flat_kind env t : kind_of env (flat t) = kind_of env t.
Proof. induction t as [n k lv|c|callee args IHc IHa|g lv] using gty_ind'; cbn; try reflexivity. rewrite IHc. reflexivity. Qed.

Lemma flat_within t : within top (flat t).
Proof.
  unfold within. induction t as [n k lv|c|callee args IHc IHa|g lv] using gty_ind'; cbn [flat leaves]; intros x Hx.
  - destruct Hx as [<-|[]]. reflexivity.
  - destruct Hx as [<-|[]]. exact I.
  - apply in_app_or in Hx. destruct Hx as [Hx|Hx]; [exact (IHc x Hx)|]. apply in_flat_map in Hx. destruct Hx as (b & Hb & Hx). apply in_map_iff in Hb.
    destruct Hb as (a & <- & Ha). rewrite Forall_forall in IHa. apply (IHa a Ha x Hx).
  - destruct Hx as [<-|[]]. reflexivity.
Qed.

Lemma flat_replace M g : (forall x, In x (leaves g) -> match x with TName _ _ _ => False | TGen _ lv => lv = top | _ => True end) ->
  flat (replace_gens M g) = replace_gens (fun x => option_map flat (M x)) g.
Proof.
  induction g as [n k lv|c|callee args IHc IHa|x lv] using gty_ind'; intros H; cbn [replace_gens flat]; try reflexivity.
  - destruct (H (TName n k lv) (or_introl eq_refl)).
  - rewrite <- IHc by (intros y Hy; apply H; cbn [leaves]; apply in_or_app; auto).
    assert (E : map (replace_gens (fun x => option_map flat (M x))) args = map flat (map (replace_gens M) args)).
    { rewrite map_map. apply map_ext_in. intros a Ha. symmetry. rewrite Forall_forall in IHa. apply IHa; [exact Ha|].
      intros y Hy. apply H. cbn [leaves]. apply in_or_app. right. apply in_flat_map. eauto. }
    rewrite E. destruct (map (replace_gens M) args); reflexivity.
  - pose proof (H (TGen x lv) (or_introl eq_refl)) as E. cbn in E. subst lv. destruct (M x); reflexivity.
Qed.

Lemma given_map f ps tys g : given ps (map f tys) g = option_map f (given ps tys g).
Proof.
  unfold given. revert tys. induction ps as [|p ps IH]; intros [|t tys]; try reflexivity. cbn [map combine find fst].
  destruct (p =? g)%N; [reflexivity|apply IH].
Qed.

Lemma given_some ps (tys : list gty) g : List.length tys = List.length ps -> In g ps -> exists u, given ps tys g = Some u /\ In u tys.
Proof.
  unfold given. revert tys. induction ps as [|p ps IH]; intros [|t tys] Hl Hg; try discriminate; [destruct Hg|].
  cbn [combine find fst]. destruct (N.eqb_spec p g) as [->|Hne]; [exists t; split; [reflexivity|left; reflexivity]|].
  destruct Hg as [<-|Hg]; [contradiction|]. destruct (IH tys ltac:(cbn in Hl; lia) Hg) as (u & H1 & H2). exists u. split; [exact H1|right; exact H2].
Qed.

Lemma app_inj {A} (l l' r r' : list A) : List.length l = List.length l' -> l ++ r = l' ++ r' -> l = l' /\ r = r'.
Proof.
  revert l'. induction l as [|x l IH]; intros [|y l'] Hl He; try discriminate; [auto|]. cbn [app] in He. injection He as -> He.
  destruct (IH l' ltac:(cbn in Hl; lia) He) as (-> & ->). auto.
Qed.

Section Overlap.
  Variable env : kind_env.
  Variable D : decls.
  Notation wf := (wf env).
  Notation ok := (ok env).
  Notation later := (later env).
  Notation calm := (calm env).
  Notation cok := (cok env D).
  Notation decl := (decl env D).

  Definition kinded_args (tys : list gty) (ps : list gen) : Prop := Forall2 (fun t g => kind_of env t = Some (gen_kind env g)) tys ps.

  (** * Any choice for fresh variables *)
  Definition open (p : context) (lv : level) (t : ty) (g : gen) : Prop :=
    exists v, t = YVar v (gen_kind env g) lv /\ unresolved p v (gen_kind env g) lv.

  Lemma realize p lv tys ps gs : shaped p -> Forall2 (open p lv) tys ps -> NoDup tys -> kinded_args gs ps -> Forall (within lv) gs ->
    exists s, solution env p s /\ map (interp s) tys = gs.
  Proof.
    intros Hsh Ho Hnd Hk Hw.
    set (pick := fun (l : list (ty * gty)) v => find (fun x => match fst x with YVar w _ _ => Nat.eqb w v | _ => false end) l).
    set (f := fun v => match pick (combine tys gs) v with
                       | Some (_, g) => g
                       | None => match nth_error p v with Some (YVar _ k l) => TName v k l | _ => TCon 0%N end
                       end).
    destruct (equations_exists p f Hsh) as (s & Hs & Hf). exists s.
    assert (Hpick : forall tys ps gs, Forall2 (open p lv) tys ps -> kinded_args gs ps -> Forall (within lv) gs -> forall v k l, unresolved p v k l ->
      match pick (combine tys gs) v with Some (_, g) => kind_of env g = Some k /\ within l g | None => True end).
    { clear. intros tys ps gs Ho. revert gs. induction Ho as [|t g tys ps (v & -> & Hu) _ IH]; intros gs Hk Hw w k l Hwu; [exact I|].
      inversion Hk as [|u ? gs' ? Hu1 Hk']; subst. unfold pick. cbn [combine find fst]. destruct (Nat.eqb_spec v w) as [->|Hne].
      - unfold unresolved in *. rewrite Hu in Hwu. injection Hwu as <- <-. split; [exact Hu1|exact (Forall_inv Hw)].
      - apply (IH gs'); auto. exact (Forall_inv_tail Hw). }
    split; [split; [exact Hs|]|].
    - intros v k l Hu. rewrite (Hf v) by (exists k, l; exact Hu). unfold f. pose proof (Hpick tys ps gs Ho Hk Hw v k l Hu) as X.
      destruct (pick (combine tys gs) v) as [(t & g)|]; [exact X|]. unfold unresolved in Hu. rewrite Hu. split; [reflexivity|].
      intros x [<-|[]]. reflexivity.
    - assert (E : forall pre tys1 ps1 gs1, Forall2 (open p lv) tys1 ps1 -> kinded_args gs1 ps1 -> NoDup (map fst pre ++ tys1) ->
        Forall (fun x => exists v k, fst x = YVar v k lv /\ unresolved p v k lv) pre -> combine tys gs = pre ++ combine tys1 gs1 ->
        map (interp s) tys1 = gs1).
      { intros pre tys1 ps1 gs1 Ho1. revert pre gs1. induction Ho1 as [|t g tys1 ps1 (v & -> & Hu) _ IH]; intros pre gs1 Hk1 Hn Hp Hc.
        - inversion Hk1. reflexivity.
        - inversion Hk1 as [|u ? gs' ? Hu1 Hk']; subst. cbn [map]. f_equal.
          + cbn [interp]. rewrite (Hf v) by (eexists _, _; exact Hu). unfold f. rewrite Hc. unfold pick.
            assert (Hskip : forall l : list (ty * gty), (forall x, In x l -> ~ In (fst x) (YVar v (gen_kind env g) lv :: tys1)) ->
              Forall (fun x => exists w k, fst x = YVar w k lv /\ unresolved p w k lv) l -> forall r,
              find (fun x => match fst x with YVar w _ _ => Nat.eqb w v | _ => false end) (l ++ r) =
              find (fun x => match fst x with YVar w _ _ => Nat.eqb w v | _ => false end) r).
            { induction l as [|x l IHl]; intros Hx HF r; [reflexivity|]. cbn [app find]. destruct (Forall_inv HF) as (w & k & Ew & Huw). rewrite Ew.
              destruct (Nat.eqb_spec w v) as [->|_].
              - exfalso. apply (Hx x (or_introl eq_refl)). left. rewrite Ew. unfold unresolved in *. congruence.
              - apply IHl; [intros y Hy; apply Hx; right; exact Hy|exact (Forall_inv_tail HF)]. }
            rewrite Hskip; [|intros x Hx Hi|exact Hp].
            * cbn [combine find fst]. rewrite Nat.eqb_refl. reflexivity.
            * assert (Hin : In (fst x) (map fst pre)) by (apply in_map, Hx). clear -Hn Hin Hi.
              induction (map fst pre) as [|y l IHl]; [destruct Hin|]. cbn [app] in Hn. apply NoDup_cons_iff in Hn. destruct Hn as (N1 & N2).
              destruct Hin as [E|Hin]; [apply N1; rewrite E; apply in_or_app; right; exact Hi|apply IHl; auto].
          + apply (IH (pre ++ [(YVar v (gen_kind env g) lv, u)])); auto.
            * rewrite map_app, <- app_assoc. exact Hn.
            * apply Forall_app. split; [exact Hp|]. constructor; [|constructor]. eexists _, _. split; [reflexivity|exact Hu].
            * rewrite <- app_assoc. exact Hc. }
      apply (E [] tys ps gs Ho Hk Hnd (Forall_nil _) eq_refl).
  Qed.

  (** * Two instances *)
  Definition target_of (s : var -> gty) (i : N) (tys : list gty) : list gty := terms_of s (i_params (instances D i)) tys (i_target (instances D i)).

  (** The targets have no common instance. *)
  Definition separate (p : context) (i j : N) : Prop :=
    forall s, equations p s -> forall tys tys', kinded_args tys (i_params (instances D i)) -> kinded_args tys' (i_params (instances D j)) ->
      target_of s i tys <> target_of s j tys'.

  (** They have one. *)
  Definition meets (p : context) (i j : N) : Prop :=
    exists s tys tys', equations p s /\ kinded_args tys (i_params (instances D i)) /\ kinded_args tys' (i_params (instances D j)) /\
      target_of s i tys = target_of s j tys'.

  Lemma separate_mono p p' i j : (forall s, equations p' s -> equations p s) -> separate p i j -> separate p' i j.
  Proof. intros H Hsep s Hs. apply Hsep, H, Hs. Qed.

  Lemma terms_flat p s ps tys c : equations p s -> Forall (fun t => exists g, closed_over ps g /\ stands p t g) (c_args c) ->
    map flat (terms_of s ps tys c) = terms_of s ps (map flat tys) c.
  Proof.
    intros Hs Hc. unfold terms_of. rewrite map_map. apply map_ext_in. intros t Ht. rewrite Forall_forall in Hc. destruct (Hc t Ht) as (g & G1 & G2).
    rewrite (G2 s Hs). unfold instance_of. rewrite flat_replace.
    - apply replace_ext. intros x. symmetry. apply given_map.
    - intros x Hx. specialize (G1 x Hx). destruct x; auto. apply G1.
  Qed.

  Lemma kinded_flat tys ps : kinded_args tys ps -> kinded_args (map flat tys) ps.
  Proof. induction 1; constructor; auto. rewrite flat_kind. assumption. Qed.

  Lemma stands_same p s s' ps tys c : equations p s -> equations p s' -> Forall (fun t => exists g, closed_over ps g /\ stands p t g) (c_args c) ->
    terms_of s ps tys c = terms_of s' ps tys c.
  Proof.
    intros Hs Hs' Hc. apply map_ext_in. intros t Ht. rewrite Forall_forall in Hc. destruct (Hc t Ht) as (g & _ & G2). rewrite (G2 s Hs), (G2 s' Hs'). reflexivity.
  Qed.

  Definition skipped (a b : N) : bool := (module_of D a =? module_of D b)%N && negb (module_of D a =? here D)%N.

  Lemma args_kinded kap p s tys ps : wf kap p -> ksol env p s -> args_ok env kap p tys ps -> kinded_args (map (interp s) tys) ps.
  Proof. intros Hwf Hs. induction 1 as [|t g tys ps H _ IH]; constructor; [|exact IH]. apply (ksol_ok env kap p); auto. Qed.

  Lemma canonical_ksol p s : canonical p s -> ksol env p s.
  Proof. intros (H1 & H2). split; [exact H1|]. intros v k lv Hu. rewrite (H2 v k lv Hu). reflexivity. Qed.

  Lemma cok_typed kap p c : cok kap p c -> Forall (typed env kap p) (c_args c).
  Proof. unfold ProofsDecl.cok. induction 1; constructor; auto. eapply ok_typed; eauto. Qed.

  Lemma fresh_open p0 p lv tys ps : Forall2 (fresh env p0 p lv) tys ps -> Forall2 (open p lv) tys ps.
  Proof. apply Forall2_imp. intros t g (v & H1 & H2 & _). exists v. auto. Qed.

  Lemma open_calm kap p kap' p' lv tys ps : calm kap p kap' p' -> Forall2 (open p lv) tys ps -> Forall2 (open p' lv) tys ps.
  Proof. intros (_ & H). apply Forall2_imp. intros t g (v & H1 & H2). exists v. auto. Qed.

  Lemma NoDup_app_both {A} (l l' : list A) : NoDup l -> NoDup l' -> (forall x, In x l -> ~ In x l') -> NoDup (l ++ l').
  Proof.
    induction 1 as [|x l Hx _ IH]; intros H' Hd; [exact H'|]. cbn [app]. constructor.
    - intros Hi. apply in_app_or in Hi. destruct Hi as [Hi|Hi]; [contradiction|]. exact (Hd x (or_introl eq_refl) Hi).
    - apply IH; [exact H'|]. intros y Hy. apply Hd. right. exact Hy.
  Qed.

  Lemma overlap_one_ok kap p a b : wf kap p -> decl kap p -> c_class (i_target (instances D a)) = c_class (i_target (instances D b)) ->
    exists kap' p' r, conv (fun n => overlap_one D env n p (a, b)) (p', r) /\ later kap p kap' p' /\
      match r with Ok => skipped a b = true \/ separate p a b | Err _ => skipped a b = false /\ meets p a b end.
  Proof.
    intros Hwf Hd Hcl. unfold overlap_one. fold (skipped a b). destruct (skipped a b) eqn:Esk.
    { exists kap, p, Ok. split; [apply conv_ret|]. split; [apply later_refl, Hwf|auto]. }
    destruct (proj1 (proj2 Hd) a) as (Na & Ta & _). pose proof (proj2 Ta) as Ca.
    destruct (proj1 (proj2 Hd) b) as (Nb & Tb & _). pose proof (proj2 Tb) as Cb.
    set (pa := i_params (instances D a)) in *. set (pb := i_params (instances D b)) in *.
    set (ta := i_target (instances D a)) in *. set (tb := i_target (instances D b)) in *.
    destruct (instantiate_ok env D kap p pa [] ta top Na Hwf Ta (Forall_nil _)) as (ia & xa & k1 & p1 & A1 & A2 & A3 & A4 & A5 & A6 & _).
    destruct (instantiate_ok env D k1 p1 pb [] tb top Nb (proj1 (proj2 (proj1 A2))) (dcok_later env D _ _ _ _ _ _ (proj1 A2) Tb) (Forall_nil _))
      as (ib & xb & k2 & p2 & B1 & B2 & B3 & B4 & B5 & B6 & _).
    pose proof (proj1 (proj2 (proj1 B2))) as Hwf2. pose proof (replaced_later env D _ _ _ _ _ _ _ _ (proj1 B2) A6) as A6'.
    pose proof (later_trans env _ _ _ _ _ _ (proj1 A2) (proj1 B2)) as L2.
    destruct (unify_types_ok env k2 p2 (i_target ia) (i_target ib) Hwf2) as (p3 & r & U1 & U2 & U3).
    { apply cok_typed, A6'. } { apply cok_typed, B6. }
    { destruct A6' as (_ & Ea & Ka & _), B6 as (_ & Eb & Kb & _). apply Forall2_len in Ka, Kb. rewrite Ka, Kb, Ea, Eb, Hcl. reflexivity. }
    assert (Hconv : conv (fun n => overlap_one D env n p (a, b)) (p3, match r with Ok => Err tt | Err _ => Ok end)).
    { unfold overlap_one. fold (skipped a b). rewrite Esk. fold pa pb ta tb.
      eapply (conv_bind (fun n => instantiate_instance env n p {| i_params := pa; i_s_params := []; i_target := ta |} top)); [exact A1|]. cbn beta iota.
      eapply (conv_bind (fun n => instantiate_instance env n p1 {| i_params := pb; i_s_params := []; i_target := tb |} top)); [exact B1|]. cbn beta iota.
      eapply (conv_bind (fun n => unify_types env n p2 (i_target ia) (i_target ib))); [exact U1|]. cbn beta iota. destruct r; apply conv_ret. }
    unfold overlap_one in Hconv. fold (skipped a b) in Hconv. rewrite Esk in Hconv.
    exists k2, p3, (match r with Ok => Err tt | Err _ => Ok end). split; [exact Hconv|]. split; [eapply later_trans; eauto|].
    destruct r as [|e]; cbn in U3.
    - split; [reflexivity|]. destruct (canonical_exists p3 (proj1 (proj1 (proj2 U2)))) as (s & Hs).
      pose proof (proj1 Hs) as Hs3. pose proof (proj2 (proj2 (proj2 U2)) s Hs3) as Hs2. pose proof (proj2 (proj2 (proj2 L2)) s Hs2) as Hs0.
      pose proof (ksol_later env k2 p2 k2 p3 s Hwf2 U2 (canonical_ksol p3 s Hs)) as Hk.
      exists s, (map (interp s) xa), (map (interp s) xb). split; [exact Hs0|split; [|split]].
      + apply (args_kinded k2 p2); auto. eapply args_later; [apply B2|exact A3].
      + apply (args_kinded k2 p2); auto.
      + unfold target_of. fold pa pb ta tb. destruct A6' as (_ & _ & _ & Ea), B6 as (_ & _ & _ & Eb). rewrite <- (Ea s Hs2), <- (Eb s Hs2). apply U3, Hs3.
    - right. intros s0 Hs0 ga gb Ka Kb Heq.
      destruct (realize p2 top (xa ++ xb) (pa ++ pb) (map flat ga ++ map flat gb)) as (s & Hs & Es).
      + apply Hwf2.
      + apply Forall2_app; [apply (open_calm _ _ _ _ _ _ _ B2)|]; eapply fresh_open; eauto.
      + apply NoDup_app_both; auto. intros x Hxa Hxb.
        assert (H1 : forall t, In t xa -> tbound (len p1) t).
        { clear -A3 A2. assert (A3' : args_ok env k1 p1 xa pa).
          { exact A3. } clear A3. induction A3' as [|t g tys ps (Hb & _) _ IH]; [intros u []|intros u [<-|Hu]; auto]. }
        assert (H2 : forall t, In t xb -> exists v k, t = YVar v k top /\ (len p1 <= v)%nat).
        { clear -B4. induction B4 as [|t g tys ps (v & -> & _ & Hv) _ IH]; [intros u []|intros u [<-|Hu]; eauto]. }
        destruct (H2 x Hxb) as (v & k & -> & Hv). pose proof (H1 _ Hxa v eq_refl). lia.
      + apply Forall2_app; apply kinded_flat; assumption.
      + apply Forall_forall. intros x Hx. apply in_app_or in Hx. destruct Hx as [Hx|Hx]; apply in_map_iff in Hx; destruct Hx as (y & <- & _); apply flat_within.
      + apply (U3 (proj2 (Forall_forall _ _) (fun _ _ => I)) s Hs). destruct Hs as (Hs & _). pose proof (proj2 (proj2 (proj2 L2)) s Hs) as Hsp.
        destruct A6' as (_ & _ & _ & Ea), B6 as (_ & _ & _ & Eb). rewrite (Ea s Hs), (Eb s Hs).
        rewrite map_app in Es. apply app_inj in Es; [|rewrite !map_length; rewrite (Forall2_len _ _ _ A3), (Forall2_len _ _ _ Ka); reflexivity].
        destruct Es as (-> & ->). rewrite <- (terms_flat p s pa ga ta Hsp Ca), <- (terms_flat p s pb gb tb Hsp Cb). f_equal.
        rewrite (stands_same p s s0 pa ga ta Hsp Hs0 Ca), (stands_same p s s0 pb gb tb Hsp Hs0 Cb). exact Heq.
  Qed.
End Overlap.
