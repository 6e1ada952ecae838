(** Local continuations. *)
From Coq Require Import ZArith Lia.
From Verif.Base Require Import Base.
From Verif.Ir Require Import Model RtInd.
From Verif.Layout Require Import Model Spec Proofs ProofsResolve.
From Verif.Frame Require Model.
From Verif.Frame Require Spec Proofs.
From Verif.Stack Require Import Machine Model Spec Facts Proofs ProofsValue ProofsMove.
From Verif.Codegen Require Import Model Machine Spec Facts ProofsGen ProofsFrame ProofsRun ProofsInv ProofsStatic ProofsEval ProofsSimple ProofsHeap ProofsAlloc ProofsEach ProofsStruct ProofsJump ProofsCond ProofsLet.
Local Open Scope Z_scope.

Section Cases.
Variable M : machine.
Variable r : resolver.
Variable known : nat -> bool.
Variable start : Z.
Variable F : nat.
Variable b : Z.
Variable offs : list (nat * Z).
Hypothesis X : setting M r start F b.

Notation heap_ok := (heap_ok start).
Notation leads := (leads M).
Notation code_at := (code_at M F).
Notation chain := (chain (type_words r) offs).
Notation placed := (placed (type_words r) offs).
Notation placed_lets := (placed_lets (type_words r) offs).
Notation kept := (kept start b).
Notation lev := (lev b).
Notation vars_ok := (vars_ok start b offs).
Notation konts_ok := (konts_ok M r F offs).
Notation Inv := (Inv M r start F b offs).
Notation At := (At M r start F b offs).
Notation leaves := (leaves M start F b offs).
Notation gen := (gen r known offs).
Notation fine := (fine (balanced r)).
Notation world := (world (memo M)).
Notation fun_address := (fun f => address M f 0).

Notation Dyn := (Dyn M r start F b offs).
Notation Peval := (Peval M r start F b offs known).
Ltac setting := let a := fresh "Xb" in let c := fresh "Xs" in pose proof (x_below X) as a; pose proof (x_start X) as c.
Ltac pos := repeat rewrite app_length; cbn [fst keep map List.length]; unfold at_rdi; lia.
Notation name := (fun k : nat * list param * rt => fst (fst k)).

(** ** The code of continuations *)
Lemma gen_conts_merged cs merge : forall merged g c m g', gen_conts gen cs merge merged g = Ret (c, m, g') -> forall p, merged = Some p -> m = Some p.
Proof.
  induction cs as [|[[k ps] y] cs IH]; intros merged g c m g' H p ->; cbn [gen_conts] in H; [congruence|].
  destruct (find (conts g) k) as [lc|]; [|discriminate]. apply Frame.Proofs.bind_ret in H. destruct H as ([[cy oy] gy] & _ & H).
  apply Frame.Proofs.bind_ret in H. destruct H as (mg & Hm & H). apply Frame.Proofs.bind_ret in H. destruct H as ([[c2 m2] g2] & H2 & H). injection H as <- <- <-.
  apply meet_first in Hm. subst mg. exact (IH _ _ _ _ _ H2 p eq_refl).
Qed.

(** The code of the body of a continuation. *)
Record body_code (cs : list (nat * list param * rt)) (merge : nat) (g0 : gstate) (c : list item) (m : option (layout * Z)) (lc : local_cont) (y : rt)
    (gy : gstate) (cy : list item) (oy : option layout) (gy' : gstate) : Prop := {
  b_gen : gen y gy = Ret (cy, oy, gy');
  b_depth : depth gy = c_depth lc;
  b_names : incl (map fst (conts gy)) (map fst (conts g0));
  b_conts : forall k, ~ In k (map name cs) -> find (conts gy) k = find (conts g0) k;
  b_code : exists pre post, c = pre ++ ([Lab (c_label lc)] ++ cy ++ jump_if oy merge) ++ post;
  b_merged : forall l, oy = Some l -> m = Some (l, depth gy') }.

Lemma gen_conts_body cs merge used : Forall (fine used) (map snd cs) -> NoDup (map name cs) -> forall merged g c m g', incl (map fst (conts g)) used ->
  gen_conts gen cs merge merged g = Ret (c, m, g') -> forall k ps y lc, In (k, ps, y) cs -> find (conts g) k = Some lc ->
  exists gy cy oy gy', body_code cs merge g c m lc y gy cy oy gy'.
Proof.
  induction cs as [|[[k0 ps0] y0] cs IH]; intros Fi Nd merged g c m g' Iu H k ps y lc Hin Hf; [destruct Hin|]. cbn [gen_conts] in H.
  cbn [map snd fst] in Fi, Nd. inversion Fi as [|? ? F1 F2]; subst. inversion Nd as [|? ? N1 N2]; subst.
  destruct (find (conts g) k0) as [lc0|] eqn:Hf0; [|discriminate].
  set (g0 := set_conts (filter (fun e => negb (fst e =? k0)%nat) (conts g)) g) in *.
  apply Frame.Proofs.bind_ret in H. destruct H as ([[cy oy] gy] & Hy & H).
  apply Frame.Proofs.bind_ret in H. destruct H as (mg & Hm & H). apply Frame.Proofs.bind_ret in H. destruct H as ([[c2 m2] g2] & H2 & H). injection H as <- <- <-.
  assert (I0 : incl (map fst (conts g0)) (map fst (conts g))).
  { intros a Ha. cbn [g0 set_conts conts] in Ha. apply in_map_iff in Ha. destruct Ha as (e & <- & He). apply filter_In in He. apply in_map, He. }
  assert (Iu0 : incl (map fst (conts (set_depth (c_depth lc0) g0))) used) by (cbn [set_depth conts]; eapply incl_tran; eassumption).
  pose proof (st_conts _ _ _ (gen_sound r known offs (balanced r) y0 used _ F1 Iu0 _ _ _ Hy)) as Coy. cbn [set_depth conts] in Coy.
  destruct Hin as [E|Hin].
  - injection E as -> -> ->. rewrite Hf0 in Hf. injection Hf as ->. exists (set_depth (c_depth lc) g0), cy, oy, gy. split.
    + exact Hy.
    + reflexivity.
    + exact I0.
    + intros k' Nk. cbn [set_depth conts g0 set_conts]. apply find_filter. intros ->. apply Nk. now left.
    + exists [], c2. cbn [app]. now rewrite <- app_assoc.
    + intros l ->. cbn [ends] in Hm. apply meet_second in Hm. subst mg. exact (gen_conts_merged _ _ _ _ _ _ _ H2 _ eq_refl).
  - assert (Nk : k0 <> k). { intros ->. apply N1. apply in_map_iff. exists (k, ps, y). auto. }
    assert (Hf' : find (conts gy) k = Some lc). { rewrite Coy. cbn [g0 set_conts conts]. rewrite find_filter by exact Nk. exact Hf. }
    assert (Iu1 : incl (map fst (conts gy)) used) by (rewrite Coy; exact Iu0).
    destruct (IH F2 N2 mg gy c2 m2 g2 Iu1 H2 k ps y lc Hin Hf') as (gy1 & cy1 & oy1 & gy1' & [B1 B2 B3 B4 B5 B6]). exists gy1, cy1, oy1, gy1'. split; try assumption.
    + eapply incl_tran; [exact B3|]. rewrite Coy. exact I0.
    + intros k' Nk'. cbn [map In fst] in Nk'. rewrite B4 by tauto. rewrite Coy. cbn [g0 set_conts conts]. apply find_filter. tauto.
    + destruct B5 as (pre & post & ->). exists (Lab (c_label lc0) :: cy ++ jump_if oy merge ++ pre), post. cbn [app]. now rewrite <- !app_assoc.
Qed.

(** ** What is known of the continuations of a scope *)
Section Scope.
Variables (n j m : nat) (g : gstate) (cs : list (nat * list param * rt)).
Notation lc := (fun k => match find (conts (add_conts cs g)) k with Some c => c | None => LocalCont 0 [] 0 end).
Definition scope_konts : konts := map (fun x => (name x, Kont (lc (name x)) (snd (fst x)) n j m)) cs.

Lemma scope_find K k : find (scope_konts ++ K) k = match find (map Frame.Spec.cont_entry cs) k with Some ps => Some (Kont (lc k) ps n j m) | None => find K k end.
Proof.
  clear. unfold scope_konts. generalize (conts (add_conts cs g)). intros L. induction cs as [|[[i ps] y] cs0 IH]; [reflexivity|]. cbn [map app find fst snd Frame.Spec.cont_entry].
  destruct (Nat.eqb_spec i k) as [->|D]; [reflexivity | exact IH].
Qed.
Lemma entry_in k ps : find (map Frame.Spec.cont_entry cs) k = Some ps -> exists y, In (k, ps, y) cs.
Proof.
  clear. induction cs as [|[[i ps0] y] cs0 IH]; cbn [map find Frame.Spec.cont_entry fst]; [discriminate|]. destruct (Nat.eqb_spec i k) as [->|D].
  - intros H. injection H as ->. exists y. now left.
  - intros H. destruct (IH H) as (y' & Hy). exists y'. now right.
Qed.
Lemma in_entry k ps y : NoDup (map name cs) -> In (k, ps, y) cs -> find (map Frame.Spec.cont_entry cs) k = Some ps.
Proof.
  clear. induction cs as [|[[i ps0] y0] cs0 IH]; cbn [map find Frame.Spec.cont_entry fst]; intros N H; [destruct H|]; destruct H as [E|H]; inversion N as [|? ? N1 N2]; subst.
  - injection E as -> -> ->. now rewrite Nat.eqb_refl.
  - destruct (Nat.eqb_spec i k) as [->|D]; [|now apply IH]. elim N1. apply in_map_iff. exists (k, ps, y). auto.
Qed.
Lemma not_entry k : find (map Frame.Spec.cont_entry cs) k = None <-> ~ In k (map name cs).
Proof.
  clear. induction cs as [|[[i ps0] y] cs0 IH]; cbn [map find Frame.Spec.cont_entry fst In]; [tauto|]. destruct (Nat.eqb_spec i k) as [->|D]; [|tauto].
  split; [discriminate | tauto].
Qed.
Lemma entry_names k : In k (map fst (map Frame.Spec.cont_entry cs)) <-> In k (map name cs).
Proof. clear. rewrite map_map. reflexivity. Qed.
Lemma scope_cont k ps y : NoDup (map name cs) -> In (k, ps, y) cs ->
  find (conts (add_conts cs g)) k = Some (lc k) /\ c_params (lc k) = map fst ps /\ c_depth (lc k) = depth g.
Proof.
  clear. intros N H. pose proof (add_conts_found cs N g) as Fd. apply In_nth_error in H. destruct H as (i & Hi).
  assert (E : exists q, find (conts (add_conts cs g)) k = Some (LocalCont q (map fst ps) (depth g))).
  { revert i Hi Fd. generalize (conts (add_conts cs g)) as L. generalize (List.seq (next g) (List.length cs)). clear. intros qs L i Hi Fd. revert i Hi. induction Fd as [|x q cs qs H _ IH]; intros [|i] Hi; cbn in Hi; try discriminate.
    - injection Hi as ->. eauto. - eauto. }
  destruct E as (q & ->). auto.
Qed.
End Scope.

Lemma chain_param n0 ps i p : chain n0 ps i -> In p ps -> exists l, find offs (fst p) = Some (Frame.Model.offset_of l) /\ (n0 <= l <= i)%nat.
Proof.
  clear. induction 1 as [|n id t ps j i [Hf Lj] C IH]; intros H; [destruct H|]. pose proof (chain_le _ _ _ _ _ C). destruct H as [<-|H].
  - exists j. split; [exact Hf | lia].
  - destruct (IH H) as (l & E & L). exists l. split; [exact E | lia].
Qed.
Lemma body_placed j m cs k ps y : Forall (placed_cont (type_words r) offs j m) cs -> In (k, ps, y) cs -> exists i, chain j ps i /\ (i <= m)%nat /\ placed i m y.
Proof. clear. intros Fa H. rewrite Forall_forall in Fa. specialize (Fa _ H). inversion Fa; subst. eauto. Qed.

Lemma scope_inv K G ks n j m g (w : world) s cs : Inv K G ks n m g w s -> NoDup (map name cs) -> (forall k, In k (map name cs) -> ~ In k (map fst (conts g))) ->
  (n <= j)%nat -> (j <= m)%nat -> Forall (placed_cont (type_words r) offs j m) cs ->
  (forall k ps y lc, In (k, ps, y) cs -> find (conts (add_conts cs g)) k = Some lc -> exists q, find_label (c_label lc) (code_of M F) = Some q) ->
  Inv (scope_konts n j m g cs ++ K) G (map Frame.Spec.cont_entry cs ++ ks) n j (skip_labels 1 (add_conts cs g)) w s.
Proof.
  clear known. intros [Rb Rs Le De No He Va [Ka Kb]] Nd Fr L1 L2 Pl Lb. pose proof (add_conts_depth cs g) as Dg.
  split; try assumption; cbn [skip_labels depth conts]; try (rewrite Dg; assumption || lia).
  split.
  - intros k c Hk. rewrite scope_find in Hk. cbn [skip_labels depth conts]. rewrite Dg. destruct (find (map Frame.Spec.cont_entry cs) k) as [ps|] eqn:Ek.
    + injection Hk as <-. destruct (entry_in _ _ _ Ek) as (y & Hy). destruct (scope_cont g cs k ps y Nd Hy) as (S1 & S2 & S3). cbn [k_cont k_params k_lo k_j k_hi].
      split; [exact S1|]. unfold kont_ok. cbn [k_cont k_params k_lo k_j k_hi]. rewrite S3. split; [exact S2|]. split; [lia|]. split; [lia|].
      destruct (body_placed _ _ _ _ _ _ Pl Hy) as (i & C & Li & _). split; [now exists i|]. split; [lia|]. exact (Lb k ps y _ Hy S1).
    + destruct (Ka k c Hk) as (Hf & H1 & H2 & H3 & H4 & H5 & H6). rewrite add_conts_other by now apply not_entry.
      split; [exact Hf|]. unfold kont_ok. repeat (split; [first [assumption | lia]|]). assumption.
  - intros k ps Hk. rewrite scope_find.
    assert (E : find (map Frame.Spec.cont_entry cs ++ ks) k = match find (map Frame.Spec.cont_entry cs) k with Some ps => Some ps | None => find ks k end).
    { clear. induction (map Frame.Spec.cont_entry cs) as [|[i p] l IH]; [reflexivity|]. cbn [app find]. now destruct (i =? k)%nat. }
    rewrite E in Hk. destruct (find (map Frame.Spec.cont_entry cs) k) as [ps'|]; [|exact (Kb k ps Hk)]. injection Hk as ->. eexists. split; reflexivity.
Qed.

Lemma find_params ps vs G id (v : val) : find (combine (map fst ps) vs ++ G) id = Some v ->
  (exists p : param, In (p, v) (combine ps vs) /\ fst p = id) \/ find G id = Some v.
Proof.
  clear. revert vs. induction ps as [|p ps IH]; intros vs; [now right|]. destruct vs as [|v0 vs]; [now right|]. cbn [map combine app find].
  destruct (Nat.eqb_spec (fst p) id) as [E|D].
  - intros H. injection H as ->. left. exists p. split; [now left | exact E].
  - intros H. destruct (IH vs H) as [(p' & Hp & E)|H']; [left; exists p'; split; [now right | exact E] | now right].
Qed.
Lemma Forall2_combine {A B} (P : A -> B -> Prop) xs ys x y : Forall2 P xs ys -> In (x, y) (combine xs ys) -> P x y.
Proof. clear. induction 1; cbn; [tauto|]. intros [E|H1]; [injection E as -> ->; assumption | auto]. Qed.

(** Where the code of a continuation starts. *)
Lemma cont_inv K G ks n j m i g (w w1 : world) s s1 gy ps vs : Inv K G ks n m g w s -> (n <= j)%nat -> chain j ps i -> (i <= m)%nat ->
  gp s1 Rsp = b - 8 * depth g -> norm s1 -> heap_ok (snd w1) s1 -> kept n (depth g) m s s1 -> rest s s1 -> Forall2 (param_at b offs (mem s1) j m) ps vs ->
  depth gy = depth g -> (forall k c, find K k = Some c -> find (conts gy) k = find (conts g) k) ->
  Inv K (combine (map fst ps) vs ++ G) ks i m gy w1 s1.
Proof.
  clear known. intros [Rb Rs Le De No He Va [Ka Kb]] L1 Ch Li Rs1 No1 He1 Ke Re Pa Dy Cy. setting. pose proof (chain_le _ _ _ _ _ Ch) as Lc. split; try assumption.
  - rewrite Re by (reflexivity || discriminate). exact Rb.
  - now rewrite Dy.
  - now rewrite Dy.
  - intros id v Hf. apply find_params in Hf. destruct Hf as [(p & Hp & <-)|Hf].
    + destruct (chain_param _ _ _ _ Ch (in_combine_l _ _ _ _ Hp)) as (l & El & Ll). destruct (Forall2_combine _ _ _ _ _ Pa Hp) as (o & Eo & P1 & P2 & P3).
      exists o. split; [exact Eo|]. rewrite El in Eo. injection Eo as <-. unfold ProofsInv.lev, Frame.Model.offset_of in *. split; [lia|]. split; [lia | exact P3].
    + destruct (Va id v Hf) as (o & E & A1 & A2 & A3). exists o. split; [exact E|]. unfold ProofsInv.lev in *. split; [lia|]. split; [exact A2|].
      eapply holds_ext; [exact A3|]. intros q Hq. apply Ke; unfold ProofsInv.lev; lia.
  - split; [|exact Kb]. intros k c Hk. destruct (Ka k c Hk) as (Hf & H1 & H2 & H3 & H4 & H5 & H6). rewrite Cy with (c := c) by exact Hk. rewrite Dy.
    split; [exact Hf|]. unfold kont_ok. repeat (split; [first [assumption | lia]|]). assumption.
Qed.

Section LetCont.
Variables (G : env) (ks : Spec.conts) (cs : list (nat * list param * rt)) (bd : rt) (used : list nat) (g : gstate) (c : list item) (og : option layout) (g' : gstate).
Hypothesis H : gen (RLetCont cs bd) g = Ret (c, og, g').
Hypothesis Fi : fine used (RLetCont cs bd).
Hypothesis Iu : incl (map fst (conts g)) used.
Notation g0 := (skip_labels 1 (add_conts cs g)).
Notation merge := (next (add_conts cs g)).
Notation inner := (map name cs ++ used).
Notation entries := (map Frame.Spec.cont_entry cs).

Lemma scope_names : NoDup (map name cs) /\ (forall k, In k (map name cs) -> ~ In k (map fst (conts g))) /\ fine inner bd /\ Forall (fine inner) (map snd cs) /\ incl (map fst (conts g0)) inner.
Proof.
  inversion Fi as [? ? (_ & Nd & Fr) Fc]; subst. cbn [introduced children] in *. apply Forall_app in Fc. destruct Fc as [F1 F2]. inversion F2; subst.
  split; [exact Nd|]. split; [intros k Hk Hk'; exact (Fr k Hk (Iu k Hk'))|]. split; [assumption|]. split; [exact F1|].
  intros k Hk. cbn [skip_labels conts] in Hk. apply in_or_app. apply add_conts_ids in Hk. destruct Hk as [Hk|Hk]; [now left | right; now apply Iu].
Qed.
Lemma scope_code : exists c1 o1 g1 c2 mm g2, gen bd g0 = Ret (c1, o1, g1) /\ gen_conts gen cs merge (ends o1 g1) g1 = Ret (c2, mm, g2) /\
  c = c1 ++ jump_if o1 merge ++ c2 ++ [Lab merge] /\ finish mm g2 = (og, g') /\ conts g1 = conts (add_conts cs g).
Proof.
  destruct scope_names as (_ & _ & Fb & _ & Iu0). pose proof H as H'. cbn [Model.gen] in H'. cbv zeta in H'. apply Frame.Proofs.bind_ret in H'. destruct H' as ([[c1 o1] g1] & H1 & H').
  apply Frame.Proofs.bind_ret in H'. destruct H' as ([[c2 mm] g2] & H2 & H'). destruct (finish mm g2) as [oo gg] eqn:Ef. injection H' as <- <- <-.
  exists c1, o1, g1, c2, mm, g2. repeat (split; [assumption || reflexivity|]).
  exact (st_conts _ _ _ (gen_sound r known offs (balanced r) bd inner g0 Fb Iu0 _ _ _ H1)).
Qed.

(** The end of the code, with the value of one of its parts. *)
Lemma scope_end K n m p s s1 (w w1 : world) l v q : code_at p c -> Inv K G ks n m g w s -> find_label merge (code_of M F) = Some q ->
  kept n (depth g) m s s1 -> rest s s1 -> norm s1 -> heap_ok (snd w1) s1 -> gp s1 Rsp = b - 8 * depth g' -> depth g <= depth g' -> has l v s1 -> (q + 1 = p + List.length c)%nat ->
  leads (ending M r start F b offs K G ks n m g s g' (p + List.length c) (OVal l v) w1) (Config F q s1 (fst w1)).
Proof.
  intros C Iv Lq Ke Re No He Rs De V E. destruct scope_code as (c1 & o1 & g1 & c2 & mm & g2 & _ & _ & Ec & _ & _).
  assert (C' : code_at q [Lab merge]).
  { rewrite Ec in C, E. rewrite !app_assoc in C. apply code_at_app in C. destruct C as [_ C]. rewrite !app_assoc, app_length in E. cbn [List.length] in E.
    replace q with (p + List.length ((c1 ++ jump_if o1 merge) ++ c2))%nat by lia. exact C. }
  eapply leads_label; [exact C'|]. apply leads_here. exists s1. split; [f_equal; exact E|]. split; [|exact V].
  eapply at_later; [exact (at_refl Iv) | exact Ke | exact Re | exact No | exact He | exact Rs | exact De|].
  exact (st_conts _ _ _ (gen_sound r known offs (balanced r) (RLetCont cs bd) used g Fi Iu _ _ _ H)).
Qed.

(** The code of the body. *)
Lemma scope_body w w1 ob K n m p s : Peval G (entries ++ ks) bd w w1 ob -> code_at p c -> placed n m (RLetCont cs bd) -> Inv K G ks n m g w s ->
  exists j c1 o1 g1 c2 mm g2, gen bd g0 = Ret (c1, o1, g1) /\ gen_conts gen cs merge (ends o1 g1) g1 = Ret (c2, mm, g2) /\
  c = c1 ++ jump_if o1 merge ++ c2 ++ [Lab merge] /\ finish mm g2 = (og, g') /\ conts g1 = conts (add_conts cs g) /\
  (n <= j)%nat /\ (j <= m)%nat /\ Forall (placed_cont (type_words r) offs j m) cs /\ stat bd ob g0 o1 g1 /\
  find_label merge (code_of M F) = Some (p + List.length (c1 ++ jump_if o1 merge ++ c2))%nat /\
  leads (ending M r start F b offs (scope_konts n j m g cs ++ K) G (entries ++ ks) n j g0 s g1 (p + List.length c1) ob w1) (Config F p s (fst w)).
Proof.
  intros Pb C P Iv. destruct scope_names as (Nd & Fr & Fb & Fc & Iu0). destruct scope_code as (c1 & o1 & g1 & c2 & mm & g2 & H1 & H2 & Ec & Ef & Co1).
  inversion P as [? ? ? _ U _|?|? ? ? ? j L1 L2 Pb' Pc]; subst; [discriminate U|]. exists j, c1, o1, g1, c2, mm, g2.
  destruct (Pb inner g0 c1 o1 g1 H1 Fb Iu0) as [St Dy]. pose proof (x_labels X) as Nl.
  pose proof C as Cm. rewrite !app_assoc in Cm. apply code_at_app in Cm. destruct Cm as [_ Cm]. rewrite <- !app_assoc in Cm. apply code_at_label in Cm; [|exact Nl].
  repeat (split; [assumption || reflexivity|]). apply code_at_app in C. destruct C as [C1 C]. apply code_at_app in C. destruct C as [_ C]. apply code_at_app in C. destruct C as [C2 _].
  apply (Dy _ n j p s C1 Pb'). apply scope_inv; try assumption. intros k ps y lc Hin Hf. rewrite <- Co1 in Hf.
  assert (Iu1 : incl (map fst (conts g1)) inner) by (rewrite Co1; exact Iu0).
  destruct (gen_conts_body cs merge inner Fc Nd _ _ _ _ _ Iu1 H2 k ps y lc Hin Hf) as (gy & cy & oy & gy' & [_ _ _ _ (pre & post & E) _]). subst c2.
  apply code_at_app in C2. destruct C2 as [_ C2]. apply code_at_app in C2. destruct C2 as [C2 _]. cbn [app] in C2. apply code_at_label in C2; [|exact Nl]. eauto.
Qed.
End LetCont.

Lemma leaves_scope K n j m g cs o w' s cf : (forall k vs, o = OJump k vs -> ~ In k (map name cs)) -> leaves (scope_konts n j m g cs ++ K) n o w' s cf -> leaves K n o w' s cf.
Proof.
  intros Nk L. destruct o as [|k vs|l v]; [exact L | | exact L]. cbn [ProofsInv.leaves] in *. destruct L as (s' & c & q & Hf & L). exists s', c, q. split; [|exact L].
  rewrite scope_find in Hf. now rewrite (proj2 (not_entry cs k) (Nk k vs eq_refl)) in Hf.
Qed.

Lemma ev_scope G ks cs bd w w' o : Peval G (map Frame.Spec.cont_entry cs ++ ks) bd w w' o ->
  (forall k vs, o = OJump k vs -> ~ In k (map fst (map Frame.Spec.cont_entry cs))) -> Peval G ks (RLetCont cs bd) w w' o.
Proof.
  intros Pb Nk used g c og g' H Fi Iu. pose proof (add_conts_depth cs g) as Dg. split.
  - destruct (scope_code _ _ _ _ _ _ _ H Fi Iu) as (c1 & o1 & g1 & c2 & mm & g2 & H1 & H2 & Ec & Ef & Co1). destruct (scope_names _ _ _ _ Fi Iu) as (_ & _ & Fb & _ & Iu0).
    destruct (Pb _ _ _ _ _ H1 Fb Iu0) as [St _]. destruct o as [l v|k vs|l v]; cbn [stat] in *; [|intros J N; apply (St J); eapply jumpless_child; [exact N|]; apply in_or_app; right; now left | intros []].
    destruct St as (-> & Gl & De). cbn [ends] in H2. pose proof (gen_conts_merged _ _ _ _ _ _ _ H2 _ eq_refl) as ->. injection Ef as <- <-. cbn [skip_labels set_depth depth] in *.
    split; [reflexivity|]. split; [exact Gl | lia].
  - intros K n m p s C P Iv. destruct (scope_body _ _ _ _ _ _ _ _ _ H Fi Iu _ _ _ _ _ _ _ _ Pb C P Iv) as (j & c1 & o1 & g1 & c2 & mm & g2 & H1 & H2 & Ec & Ef & Co1 & L1 & L2 & Pl & St & Lm & Ld).
    eapply leads_trans; [exact Ld|]. intros cf He. destruct o as [l v|k vs|l v].
    + cbn [ending] in He. destruct He as (s1 & -> & A1 & V1). destruct St as (-> & Gl & De). cbn [ends] in H2. pose proof (gen_conts_merged _ _ _ _ _ _ _ H2 _ eq_refl) as ->. injection Ef as <- <-.
      pose proof C as C0. rewrite Ec in C. apply code_at_app in C. destruct C as [_ C]. cbn [jump_if] in C. eapply leads_jmp; [exact C | exact Lm|].
      cbn [skip_labels depth] in De. pose proof (taken_bounds l) as Tb.
      assert (D0 : depth (skip_labels 1 (add_conts cs g)) = depth g) by exact Dg.
      eapply scope_end; [exact H | exact Fi | exact Iu | exact C0 | exact Iv | exact Lm | | | | | | | exact V1 |].
      * eapply kept_mono; [exact (a_kept A1) | lia | exact L2 | lia].
      * apply A1.
      * apply A1.
      * apply A1.
      * cbn [set_depth depth]. apply A1.
      * cbn [set_depth depth]. lia.
      * rewrite Ec. cbn [jump_if]. pos.
    + apply leads_here. cbn [ending] in He |- *. eapply leaves_scope; [|exact He]. intros k' vs' E. rewrite <- entry_names. exact (Nk k' vs' E).
    + apply leads_here. cbn [ending] in He |- *. eapply leaves_scope; [|exact He]. discriminate.
Qed.

Lemma ev_cont G ks cs bd k ps y vs w w1 w2 o : Peval G (map Frame.Spec.cont_entry cs ++ ks) bd w w1 (OJump k vs) -> In (k, ps, y) cs -> List.length vs = List.length ps ->
  Peval (combine (map fst ps) vs ++ G) ks y w1 w2 o -> Peval G ks (RLetCont cs bd) w w2 o.
Proof.
  intros Pb Hin Lv Py used g c og g' H Fi Iu. pose proof (add_conts_depth cs g) as Dg. destruct (scope_names _ _ _ _ Fi Iu) as (Nd & Fr & Fb & Fc & Iu0).
  destruct (scope_cont g cs k ps y Nd Hin) as (S1 & S2 & S3). set (lc := match find (conts (add_conts cs g)) k with Some c => c | None => LocalCont 0 [] 0 end) in *.
  assert (Fy : fine (map name cs ++ used) y). { rewrite Forall_forall in Fc. apply Fc. apply in_map_iff. exists (k, ps, y). auto. }
  assert (Bo : forall c1 o1 g1 c2 mm g2, gen bd (skip_labels 1 (add_conts cs g)) = Ret (c1, o1, g1) -> conts g1 = conts (add_conts cs g) ->
    gen_conts gen cs (next (add_conts cs g)) (ends o1 g1) g1 = Ret (c2, mm, g2) ->
    exists gy cy oy gy', body_code cs (next (add_conts cs g)) g1 c2 mm lc y gy cy oy gy' /\ stat y o gy oy gy' /\ Dyn (combine (map fst ps) vs ++ G) ks y w1 w2 o gy cy gy').
  { intros c1 o1 g1 c2 mm g2 H1 Co1 H2. assert (Iu1 : incl (map fst (conts g1)) (map name cs ++ used)) by (rewrite Co1; exact Iu0). rewrite <- Co1 in S1.
    destruct (gen_conts_body cs _ _ Fc Nd _ _ _ _ _ Iu1 H2 k ps y lc Hin S1) as (gy & cy & oy & gy' & B). exists gy, cy, oy, gy'. split; [exact B|].
    apply (Py _ _ _ _ _ (b_gen _ _ _ _ _ _ _ _ _ _ _ B) Fy). eapply incl_tran; [exact (b_names _ _ _ _ _ _ _ _ _ _ _ B) | exact Iu1]. }
  split.
  - destruct (scope_code _ _ _ _ _ _ _ H Fi Iu) as (c1 & o1 & g1 & c2 & mm & g2 & H1 & H2 & Ec & Ef & Co1). destruct (Bo _ _ _ _ _ _ H1 Co1 H2) as (gy & cy & oy & gy' & B & St & _).
    destruct o as [l v|k' vs'|l v]; cbn [stat] in *; [|intros J N; apply (St J); eapply jumpless_child; [exact N|]; apply in_or_app; left; apply in_map_iff; exists (k, ps, y); auto | intros []].
    destruct St as (-> & Gl & De). pose proof (b_merged _ _ _ _ _ _ _ _ _ _ _ B _ eq_refl) as ->. pose proof (b_depth _ _ _ _ _ _ _ _ _ _ _ B) as Bd. injection Ef as <- <-. cbn [set_depth depth] in *.
    split; [reflexivity|]. split; [exact Gl | lia].
  - intros K n m p s C P Iv. destruct (scope_body _ _ _ _ _ _ _ _ _ H Fi Iu _ _ _ _ _ _ _ _ Pb C P Iv) as (j & c1 & o1 & g1 & c2 & mm & g2 & H1 & H2 & Ec & Ef & Co1 & L1 & L2 & Pl & _ & Lm & Ld).
    destruct (Bo _ _ _ _ _ _ H1 Co1 H2) as (gy & cy & oy & gy' & B & St & Dy). pose proof (b_depth _ _ _ _ _ _ _ _ _ _ _ B) as Bd. rewrite S3 in Bd.
    eapply leads_trans; [exact Ld|]. intros cf He. cbn [ending ProofsInv.leaves] in He. destruct He as (s1 & kc & q & Hf & Lq & -> & Rs1 & No1 & He1 & Ke1 & Re1 & Pa1).
    rewrite scope_find, (in_entry cs k ps y Nd Hin) in Hf. fold lc in Hf. injection Hf as <-. cbn [k_cont k_params k_lo k_j k_hi] in *. rewrite S3 in *.
    destruct (body_placed _ _ _ _ _ _ Pl Hin) as (i & Ch & Li & Py'). pose proof (chain_le _ _ _ _ _ Ch) as Lji.
    assert (Iv1 : Inv K (combine (map fst ps) vs ++ G) ks i m gy w1 s1).
    { eapply cont_inv; [exact Iv | exact L1 | exact Ch | exact Li | exact Rs1 | exact No1 | exact He1 | exact Ke1 | exact Re1 | exact Pa1 | exact Bd|].
      intros k' c' Hk'. destruct (proj1 (i_konts Iv) k' c' Hk') as [Hf' _].
      assert (Nk : ~ In k' (map name cs)). { intros Hn. apply (Fr k' Hn). clear -Hf'. induction (conts g) as [|[a b0] l IH]; cbn in *; [discriminate|]. destruct (Nat.eqb_spec a k'); [now left | right; auto]. }
      rewrite (b_conts _ _ _ _ _ _ _ _ _ _ _ B) by exact Nk. rewrite Co1. now apply add_conts_other. }
    destruct (b_code _ _ _ _ _ _ _ _ _ _ _ B) as (pre & post & E2). pose proof C as C0. rewrite Ec in C. apply code_at_app in C. destruct C as [_ C]. apply code_at_app in C. destruct C as [_ C].
    apply code_at_app in C. destruct C as [C _]. rewrite E2 in C. apply code_at_app in C. destruct C as [_ C]. apply code_at_app in C. destruct C as [C _].
    apply code_at_app in C. destruct C as [Cl C]. pose proof (code_at_label _ _ _ _ _ Cl (x_labels X)) as Lq'. rewrite Lq in Lq'. injection Lq' as ->.
    apply code_at_app in C. destruct C as [Cy Cj]. eapply leads_label; [exact Cl|]. eapply leads_trans; [exact (Dy K i m _ s1 Cy Py' Iv1)|]. intros cf He.
    assert (Back : forall o', o' = o -> leaves K i o' w2 s1 cf -> leaves K n o' w2 s cf).
    { intros o' _ Lv'. eapply leaves_back; [exact (i_konts Iv) | apply Iv | apply Iv | exact Ke1 | exact Re1|]. eapply leaves_level; [|exact Lv']. lia. }
    destruct o as [l v|k' vs'|l v]; cbn [ending] in He |- *; [|apply leads_here; now apply Back | apply leads_here; now apply Back].
    destruct He as (s2 & -> & A2 & V2). destruct St as (-> & Gl & De). cbn [jump_if] in Cj. eapply leads_jmp; [exact Cj | exact Lm|].
    pose proof (b_merged _ _ _ _ _ _ _ _ _ _ _ B _ eq_refl) as ->. injection Ef as <- <-. pose proof (taken_bounds l) as Tb.
    eapply scope_end; [exact H | exact Fi | exact Iu | exact C0 | exact Iv | exact Lm | | | | | | | exact V2 |].
    + eapply kept_trans; [exact Ke1 | | apply Z.le_refl]. eapply kept_mono; [exact (a_kept A2) | lia | lia | lia].
    + eapply rest_trans; [exact Re1 | apply A2].
    + apply A2.
    + apply A2.
    + cbn [set_depth depth]. apply A2.
    + cbn [set_depth depth]. lia.
    + rewrite Ec. pos.
Qed.
End Cases.
