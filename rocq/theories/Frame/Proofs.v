(** * Variables that are alive together are apart *)
From Coq Require Import ZArith Permutation.
From Verif.Base Require Import Base.
From Verif.Ir Require Import Model RtInd.
From Verif.Frame Require Import Model Spec.

(** ** The traversal of forms that bind nothing *)

Section Frame.
Variable words : ct -> nat.
Notation go := (go words).
Notation add_var := (add_var words).
Notation add_vars := (add_vars words).

Lemma gos_app xs ys : forall f, gos go (xs ++ ys) f = (let* f := gos go xs f in gos go ys f).
Proof.
  induction xs as [|x xs IH]; intro f; cbn; [reflexivity|]. destruct (go x f); cbn; [apply IH|reflexivity|reflexivity].
Qed.

Lemma go_clauses_gos cs : forall f, go_clauses go cs f = gos go (map snd cs) f.
Proof.
  induction cs as [|[p x] cs IH]; intro f; cbn; [reflexivity|]. destruct (go x f); cbn; [apply IH|reflexivity|reflexivity].
Qed.

Definition same (f g : frame) : Prop := offsets f = offsets g /\ vars f = vars g /\ scope f = scope g.

Lemma same_refl f : same f f.
Proof. repeat split. Qed.

Definition unbinding (x : rt) : bool := match x with RLetVar _ _ | RLetCont _ _ => false | _ => true end.

Lemma bind_ret {A B} (o : outcome A) (k : A -> outcome B) b : (let* a := o in k a) = Ret b ->
  exists a, o = Ret a /\ k a = Ret b.
Proof. destruct o as [a| |]; cbn; intro H; try discriminate H. exists a. auto. Qed.

Lemma go_unbinding x f f' : unbinding x = true -> go x f = Ret f' ->
  exists f0, same f f0 /\ gos go (children x) f0 = Ret f'.
Proof.
  intros U H.
  assert (Self : gos go (children x) f = Ret f' -> exists f0, same f f0 /\ gos go (children x) f0 = Ret f')
    by (intro K; exists f; split; [apply same_refl|exact K]).
  assert (One : forall a g, go a g = Ret f' -> gos go [a] g = Ret f') by (intros a g K; cbn; now rewrite K).
  assert (Two : forall a b g, (let* h := go a g in go b h) = Ret f' -> gos go [a; b] g = Ret f').
  { intros a b g K. apply bind_ret in K. destruct K as (h & K1 & K2). cbn. rewrite K1. cbn. now rewrite K2. }
  assert (Three : forall a b c g, (let* h := go a g in let* h := go b h in go c h) = Ret f' ->
    gos go [a; b; c] g = Ret f').
  { intros a b c g K. apply bind_ret in K. destruct K as (h & K1 & K2). apply bind_ret in K2.
    destruct K2 as (h' & K2 & K3). cbn. rewrite K1. cbn. rewrite K2. cbn. now rewrite K3. }
  destruct x as [id t|fn t o|c|fn es|lb r es|k fn r es|k es r|o|o a|o a b|o a b c|l a|l t a|l es|t i es|t es
    |m a|es a|a b c|a b|a b|a b|a cs|a| |vs b|ks b]; cbn [go children] in *;
    try discriminate U; try (apply Self; solve [exact H|apply One, H|apply Two, H|apply Three, H]).
  - destruct o as [a|]; apply Self; [apply One, H|exact H].
  - destruct (is_static l); [|apply Self, One, H]. apply bind_ret in H. destruct H as ([t|] & T & H).
    + exists (add_allocs (words t) f). split; [repeat split|apply One, H].
    + exists f. split; [apply same_refl|apply One, H].
  - destruct (is_static l); [discriminate H|apply Self, One, H].
  - destruct (is_static l); [discriminate H|apply Self, H].
  - apply Self. rewrite gos_app. apply bind_ret in H. destruct H as (g & H1 & H2). rewrite H1. apply One, H2.
  - apply Self. cbn. apply bind_ret in H. destruct H as (g & H1 & H2). rewrite H1. cbn. now rewrite <- go_clauses_gos.
Qed.

Lemma all_binders_app xs ys : all_binders binders (xs ++ ys) = all_binders binders xs ++ all_binders binders ys.
Proof. induction xs as [|x xs IH]; cbn; [reflexivity|]. now rewrite IH, app_assoc. Qed.

Lemma clauses_binders_all cs : clauses_binders binders cs = all_binders binders (map snd cs).
Proof. induction cs as [|[p x] cs IH]; cbn; [reflexivity|]. now rewrite IH. Qed.

Lemma binders_unbinding x : unbinding x = true -> binders x = all_binders binders (children x).
Proof.
  intro U. destruct x as [id t|fn t o|c|fn es|lb r es|k fn r es|k es r|o|o a|o a b|o a b c|l a|l t a|l es|t i es|t es
    |m a|es a|a b c|a b|a b|a b|a cs|a| |vs b|ks b]; try discriminate U; cbn; rewrite ?app_nil_r; try reflexivity.
  - destruct o; cbn; now rewrite ?app_nil_r.
  - rewrite all_binders_app. cbn. now rewrite app_nil_r.
  - now rewrite clauses_binders_all.
Qed.

(** ** Places in a list of entries *)

Definition at_ (G : list (nat * Z)) (v : param) (r : region) : Prop :=
  exists o, In (fst v, o) G /\ r = (o, o + Z.of_nat (words (snd v)) * 8)%Z.

Inductive sep (G : list (nat * Z)) : list param -> Prop :=
| sep_nil : sep G []
| sep_cons v vs : (exists r, at_ G v r) ->
    (forall w r r', In w vs -> at_ G v r -> at_ G w r' -> apart r r') -> sep G vs -> sep G (v :: vs).

Lemma apart_sym a b : apart a b -> apart b a.
Proof. unfold apart. tauto. Qed.

Lemma sep_app G a b : sep G a -> sep G b ->
  (forall v w r r', In v a -> In w b -> at_ G v r -> at_ G w r' -> apart r r') -> sep G (a ++ b).
Proof.
  induction 1 as [|v vs E F _ IH]; intros B H; [exact B|]. cbn. constructor.
  - exact E.
  - intros w r r' I A A'. apply in_app_iff in I. destruct I as [I|I]; [eapply F; eassumption|].
    eapply H; try eassumption. left. reflexivity.
  - apply IH; [exact B|]. intros v' w r r' I J. apply H; [right; exact I|exact J].
Qed.

Lemma sep_place G a v : sep G a -> In v a -> exists r, at_ G v r.
Proof. induction 1 as [|w vs E _ _ IH]; intros []; [subst; exact E|auto]. Qed.

Lemma in_firstn {A} (x : A) n : forall l, In x (firstn n l) -> In x l.
Proof.
  induction n as [|n IH]; intros l I; [destruct I|]. destruct l as [|y l]; [destruct I|].
  destruct I as [I|I]; [left; exact I|right; apply IH, I].
Qed.

Lemma sep_firstn G n : forall a, sep G a -> sep G (firstn n a).
Proof.
  induction n as [|n IH]; intros a S; [constructor|]. destruct S as [|v vs E F S]; [constructor|]. cbn.
  constructor; [exact E| |apply IH, S]. intros w r r' I. apply F. eapply in_firstn, I.
Qed.

Definition functional (G : list (nat * Z)) : Prop := NoDup (map fst G).

Lemma functional_in G id o o' : functional G -> In (id, o) G -> In (id, o') G -> o = o'.
Proof.
  unfold functional. induction G as [|[i x] G IH]; cbn; intros N I J; [destruct I|]. inversion N as [|? ? N1 N2]; subst.
  assert (K : forall y, In (id, y) G -> id <> i).
  { intros y L ->. apply N1. change i with (fst (i, y)). apply in_map, L. }
  destruct I as [I|I], J as [J|J].
  - congruence.
  - injection I as -> ->. now apply K in J.
  - injection J as -> ->. now apply K in I.
  - apply IH; assumption.
Qed.

Lemma at_functional G v r r' : functional G -> at_ G v r -> at_ G v r' -> r = r'.
Proof. intros N (o & I & ->) (o' & I' & ->). now rewrite (functional_in _ _ _ _ N I I'). Qed.

(** Variables above eightbyte [n], and below it. *)
Definition above (G : list (nat * Z)) (n : nat) (vs : list param) : Prop :=
  forall v r, In v vs -> at_ G v r -> (offset_of n <= fst r)%Z.
Definition below (G : list (nat * Z)) (n : nat) (vs : list param) : Prop :=
  forall v r, In v vs -> at_ G v r -> (snd r <= offset_of n)%Z.

Lemma offset_le n m : (n <= m)%nat -> (offset_of m <= offset_of n)%Z.
Proof. unfold offset_of. lia. Qed.

Lemma above_le G n m vs : (n <= m)%nat -> above G n vs -> above G m vs.
Proof. intros L A v r I P. specialize (A v r I P). pose proof (offset_le _ _ L). lia. Qed.
Lemma below_le G n m vs : (n <= m)%nat -> below G m vs -> below G n vs.
Proof. intros L A v r I P. specialize (A v r I P). pose proof (offset_le _ _ L). lia. Qed.

Definition ks_ok (G : list (nat * Z)) (n : nat) (ks : conts) : Prop :=
  forall k ps, In (k, ps) ks -> sep G ps /\ below G n ps.

Lemma ks_le G n m ks : (n <= m)%nat -> ks_ok G m ks -> ks_ok G n ks.
Proof. intros L K k ps I. destruct (K k ps I) as [S B]. split; [exact S|eapply below_le; eassumption]. Qed.

Lemma ks_params G n ks k : ks_ok G n ks -> sep G (params_of ks k) /\ below G n (params_of ks k).
Proof.
  intro K. induction ks as [|[i ps] ks IH]; cbn.
  - split; [constructor|]. intros v r [].
  - destruct (i =? k); [apply (K i ps); left; reflexivity|]. apply IH. intros k' ps' I. apply (K k' ps'). right. exact I.
Qed.

Lemma sep_two G n m a b : (n <= m)%nat -> sep G a -> below G m a -> sep G b -> above G n b -> sep G (a ++ b).
Proof.
  intros L A B C D. apply sep_app; [exact A|exact C|]. intros v w r r' I J P Q. left.
  specialize (B v r I P). specialize (D w r' J Q). pose proof (offset_le _ _ L). lia.
Qed.

(** ** What running over an expression adds *)

Record ran (bs : list param) (f f' : frame) (new : list (nat * Z)) : Prop := {
  r_offsets : offsets f' = new ++ offsets f;
  r_ids : Permutation (map fst new) (map fst bs);
  r_places : forall id t, In (id, t) bs ->
    exists m, In (id, offset_of m) new /\ (scope f + words t <= m)%nat /\ (m <= vars f')%nat;
  r_scope : (scope f <= scope f')%nat;
  r_wf : (scope f' <= vars f')%nat;
  r_vars : (vars f <= vars f')%nat }.

Definition safe (x : rt) (f f' : frame) (new : list (nat * Z)) : Prop :=
  forall G sc set ks, functional G -> incl new G ->
  sep G sc -> above G (scope f) sc -> sep G set -> below G (vars f') set -> ks_ok G (vars f') ks ->
  forall sc', live sc set ks x sc' -> sep G sc'.

Definition good (x : rt) : Prop := forall f f', (scope f <= vars f)%nat -> go x f = Ret f' ->
  exists new, ran (binders x) f f' new /\ safe x f f' new.

Lemma ran_nil f : (scope f <= vars f)%nat -> ran [] f f [].
Proof. intro W. split; try lia; try reflexivity. intros id t []. Qed.

Lemma ran_app b1 b2 f1 f2 f3 n1 n2 : ran b1 f1 f2 n1 -> ran b2 f2 f3 n2 -> ran (b1 ++ b2) f1 f3 (n2 ++ n1).
Proof.
  intros A B. split.
  - rewrite (r_offsets _ _ _ _ B), (r_offsets _ _ _ _ A), app_assoc. reflexivity.
  - rewrite !map_app. rewrite (r_ids _ _ _ _ A), (r_ids _ _ _ _ B). apply Permutation_app_comm.
  - intros id t I. pose proof (r_scope _ _ _ _ A). pose proof (r_vars _ _ _ _ B). apply in_app_iff in I.
    destruct I as [I|I].
    + destruct (r_places _ _ _ _ A id t I) as (m & J & L & U). exists m.
      split; [apply in_app_iff; right; exact J|lia].
    + destruct (r_places _ _ _ _ B id t I) as (m & J & L & U). exists m.
      split; [apply in_app_iff; left; exact J|lia].
  - pose proof (r_scope _ _ _ _ A). pose proof (r_scope _ _ _ _ B). lia.
  - apply (r_wf _ _ _ _ B).
  - pose proof (r_vars _ _ _ _ A). pose proof (r_vars _ _ _ _ B). lia.
Qed.

Lemma ran_same bs f f0 f' new : same f f0 -> ran bs f0 f' new -> ran bs f f' new.
Proof.
  intros (O & V & S) R. split.
  - rewrite (r_offsets _ _ _ _ R). now rewrite O.
  - apply (r_ids _ _ _ _ R).
  - rewrite S. apply (r_places _ _ _ _ R).
  - rewrite S. apply (r_scope _ _ _ _ R).
  - apply (r_wf _ _ _ _ R).
  - rewrite V. apply (r_vars _ _ _ _ R).
Qed.

Lemma safe_same x f f0 f' new : same f f0 -> safe x f0 f' new -> safe x f f' new.
Proof. intros (O & V & S) H. unfold safe in *. now rewrite S. Qed.

Lemma safe_within x f1 f2 g1 g2 new new' : safe x g1 g2 new -> incl new new' ->
  (scope f1 <= scope g1)%nat -> (vars g2 <= vars f2)%nat -> safe x f1 f2 new'.
Proof.
  intros H I L U G sc set ks Fn In_ Ss Sa Ps Pb K sc' Lv. eapply (H G sc set ks); try eassumption.
  - intros e J. apply In_, I, J.
  - eapply above_le; eassumption.
  - eapply below_le; eassumption.
  - eapply ks_le; eassumption.
Qed.

Lemma gos_good xs : Forall good xs -> forall f f', (scope f <= vars f)%nat -> gos go xs f = Ret f' ->
  exists new, ran (all_binders binders xs) f f' new /\ forall y, In y xs -> safe y f f' new.
Proof.
  induction 1 as [|x xs Hx _ IH]; intros f f' W H; cbn in H.
  - injection H as <-. exists []. split; [apply ran_nil, W|]. intros y [].
  - apply bind_ret in H. destruct H as (g & H1 & H2). destruct (Hx f g W H1) as (n1 & R1 & S1).
    destruct (IH g f' (r_wf _ _ _ _ R1) H2) as (n2 & R2 & S2). exists (n2 ++ n1).
    split; [apply (ran_app _ _ _ _ _ _ _ R1 R2)|]. intros y [<-|I].
    + eapply safe_within; [exact S1|apply incl_appr, incl_refl|lia|apply (r_vars _ _ _ _ R2)].
    + eapply safe_within; [apply (S2 y I)|apply incl_appl, incl_refl|apply (r_scope _ _ _ _ R1)|lia].
Qed.

Lemma live_here_sep x f f' new G sc set : ran x f f' new -> (scope f <= vars f)%nat ->
  sep G sc -> above G (scope f) sc -> sep G set -> below G (vars f') set -> sep G (set ++ sc).
Proof.
  intros R W A B C D. eapply sep_two; [|exact C|exact D|exact A|exact B]. pose proof (r_vars _ _ _ _ R). lia.
Qed.

(** ** Variables *)

Lemma add_var_ran id t f : (scope f <= vars f)%nat ->
  ran [(id, t)] f (add_var id t f) [(id, offset_of (scope f + words t))].
Proof.
  intro W. split; cbn; try lia; try reflexivity.
  intros i u [E|[]]. injection E as <- <-. exists (scope f + words t). split; [left; reflexivity|lia].
Qed.

Lemma add_vars_ran ps : forall f, (scope f <= vars f)%nat -> exists new, ran ps f (add_vars ps f) new /\
  forall G, functional G -> incl new G -> sep G ps /\ below G (scope f) ps /\ above G (scope (add_vars ps f)) ps.
Proof.
  induction ps as [|[id t] ps IH]; intros f W.
  - exists []. split; [apply ran_nil, W|]. intros G _ _. split; [constructor|]. split; intros v r [].
  - cbn [Model.add_vars]. pose proof (add_var_ran id t f W) as R1.
    destruct (IH (add_var id t f) (r_wf _ _ _ _ R1)) as (n2 & R2 & S2). eexists. split.
    + change ((id, t) :: ps) with ([(id, t)] ++ ps). eapply ran_app; eassumption.
    + intros G Fn I. destruct (S2 G Fn) as (S & B & A); [intros e J; apply I, in_app_iff; left; exact J|].
      assert (P : forall r, at_ G (id, t) r -> r = (offset_of (scope f + words t), offset_of (scope f))).
      { intros r Q. assert (E : at_ G (id, t) (offset_of (scope f + words t), offset_of (scope f + words t) + Z.of_nat (words t) * 8)%Z).
        { exists (offset_of (scope f + words t)). split; [|reflexivity]. apply I, in_app_iff. right. left. reflexivity. }
        rewrite (at_functional _ _ _ _ Fn Q E). f_equal. unfold offset_of. lia. }
      assert (Sc : scope (add_var id t f) = scope f + words t) by reflexivity. rewrite Sc in *.
      split; [|split].
      * constructor; [| |exact S].
        -- eexists. exists (offset_of (scope f + words t)). split; [|reflexivity]. apply I, in_app_iff. right. left. reflexivity.
        -- intros w r r' J Q Q'. apply P in Q. subst r. right. cbn. apply (B w r' J Q').
      * intros v r [<-|J] Q; [apply P in Q; subst r; cbn; lia|]. specialize (B v r J Q).
        pose proof (offset_le (scope f) (scope f + words t) ltac:(lia)). lia.
      * intros v r [<-|J] Q; [|apply (A v r J Q)]. apply P in Q. subst r. cbn [fst].
        apply offset_le. pose proof (r_scope _ _ _ _ R2). rewrite Sc in *. assumption.
Qed.

Lemma lets_good vs : Forall good (map snd vs) -> forall f f', (scope f <= vars f)%nat -> go_lets words go vs f = Ret f' ->
  exists new, ran (lets_binders binders vs) f f' new /\
  forall G sc set ks, functional G -> incl new G ->
    sep G sc -> above G (scope f) sc -> sep G set -> below G (vars f') set -> ks_ok G (vars f') ks ->
    (forall v1 id t y v2 sc', vs = v1 ++ (id, t, y) :: v2 ->
       live (sc ++ map let_param v1) set ks y sc' -> sep G sc') /\
    sep G (sc ++ map let_param vs) /\ above G (scope f') (sc ++ map let_param vs).
Proof.
  induction vs as [|[[id t] y] vs IH]; intros Fg f f' W H; cbn in H.
  - injection H as <-. exists []. split; [apply ran_nil, W|]. intros G sc set ks Fn I Ss Sa Ps Pb K.
    cbn [map]. rewrite app_nil_r. split; [|split; assumption]. intros v1 i u z v2 sc' E. destruct v1; discriminate E.
  - cbn [map] in Fg. inversion Fg as [|? ? Hy Hvs]; subst. cbn in Hy.
    apply bind_ret in H. destruct H as (g & H1 & H2).
    pose proof (add_var_ran id t f W) as R0. set (f1 := add_var id t f) in *.
    assert (Sc : scope f1 = scope f + words t) by reflexivity.
    destruct (Hy f1 g (r_wf _ _ _ _ R0) H1) as (n1 & R1 & S1).
    destruct (IH Hvs g f' (r_wf _ _ _ _ R1) H2) as (n2 & R2 & S2).
    exists (n2 ++ (n1 ++ [(id, offset_of (scope f + words t))])). split.
    + cbn [lets_binders]. change ((id, t) :: binders y ++ lets_binders binders vs)
        with (([(id, t)] ++ binders y) ++ lets_binders binders vs).
      eapply ran_app; [eapply ran_app; [exact R0|exact R1]|exact R2].
    + intros G sc set ks Fn I Ss Sa Ps Pb K.
      pose proof (r_vars _ _ _ _ R2) as V2. pose proof (r_scope _ _ _ _ R1) as L1. pose proof (r_scope _ _ _ _ R2) as L2.
      assert (I0 : In (id, offset_of (scope f + words t)) G)
        by (apply I, in_app_iff; right; apply in_app_iff; right; left; reflexivity).
      assert (P : forall r, at_ G (id, t) r -> r = (offset_of (scope f + words t), offset_of (scope f))).
      { intros r Q. assert (E : at_ G (id, t) (offset_of (scope f + words t), offset_of (scope f + words t) + Z.of_nat (words t) * 8)%Z)
          by (eexists; split; [exact I0|reflexivity]).
        rewrite (at_functional _ _ _ _ Fn Q E). f_equal. unfold offset_of. lia. }
      assert (Sv : sep G (sc ++ [(id, t)])).
      { apply sep_app; [exact Ss| |].
        - constructor; [eexists; eexists; split; [exact I0|reflexivity]| |constructor]. intros w r r' [].
        - intros v w r r' J [<-|[]] Q Q'. apply P in Q'. subst r'. right. cbn. apply (Sa v r J Q). }
      assert (Av : above G (scope g) (sc ++ [(id, t)])).
      { intros v r J Q. apply in_app_iff in J. destruct J as [J|[<-|[]]].
        - specialize (Sa v r J Q). pose proof (offset_le (scope f) (scope g) ltac:(lia)). lia.
        - apply P in Q. subst r. cbn [fst]. apply offset_le. lia. }
      destruct (S2 G (sc ++ [(id, t)]) set ks Fn) as (A1 & A2 & A3);
        [intros e J; apply I, in_app_iff; left; exact J|exact Sv|exact Av|exact Ps|exact Pb|exact K|].
      rewrite <- app_assoc in A2, A3. cbn [app] in A2, A3. cbn [map let_param fst].
      split; [|split; [exact A2|exact A3]].
      intros v1 i u z v2 sc' E Lv. destruct v1 as [|v v1]; cbn in E.
      * injection E as <- <- <- <-. cbn in Lv. rewrite app_nil_r in Lv.
        eapply (S1 G sc set ks); [exact Fn| |exact Ss| |exact Ps| | |exact Lv].
        -- intros e J. apply I, in_app_iff. right. apply in_app_iff. left. exact J.
        -- eapply above_le; [|exact Sa]. lia.
        -- eapply below_le; [|exact Pb]. lia.
        -- eapply ks_le; [|exact K]. lia.
      * injection E as E1 E2. subst v. eapply (A1 v1); [exact E2|]. cbn [map let_param fst] in Lv.
        rewrite <- app_assoc. exact Lv.
Qed.

Lemma set_scope_ran bs f f' new n : ran bs f f' new -> (scope f <= n)%nat -> (n <= vars f')%nat ->
  ran bs f (set_scope n f') new.
Proof.
  intros R L U. split; cbn; [apply (r_offsets _ _ _ _ R)|apply (r_ids _ _ _ _ R)|apply (r_places _ _ _ _ R)
    |exact L|exact U|apply (r_vars _ _ _ _ R)].
Qed.

(** ** Continuations *)

Lemma conts_good ks : Forall good (map snd ks) -> forall f f', (scope f <= vars f)%nat -> go_conts words go ks f = Ret f' ->
  exists new, ran (conts_binders binders ks) f f' new /\ scope f' = scope f /\
  forall G, functional G -> incl new G ->
    (forall k ps y, In (k, ps, y) ks -> sep G ps /\ below G (scope f) ps) /\
    (forall sc set out, sep G sc -> above G (scope f) sc -> sep G set -> below G (vars f') set -> ks_ok G (vars f') out ->
     forall k ps y sc', In (k, ps, y) ks -> live (sc ++ ps) set out y sc' -> sep G sc').
Proof.
  induction ks as [|[[k ps] y] ks IH]; intros Fg f f' W H; cbn in H.
  - injection H as <-. exists []. split; [apply ran_nil, W|]. split; [reflexivity|]. intros G Fn I.
    split; [intros ? ? ? []|intros sc set out _ _ _ _ _ ? ? ? ? []].
  - cbn [map] in Fg. inversion Fg as [|? ? Hy Hks]; subst. cbn in Hy.
    apply bind_ret in H. destruct H as (g & H1 & H2).
    destruct (add_vars_ran ps f W) as (n0 & R0 & S0).
    destruct (Hy _ g (r_wf _ _ _ _ R0) H1) as (n1 & R1 & S1).
    pose proof (r_scope _ _ _ _ R0) as L0. pose proof (r_scope _ _ _ _ R1) as L1. pose proof (r_wf _ _ _ _ R1) as Wg.
    assert (R01 : ran (ps ++ binders y) f (set_scope (scope f) g) (n1 ++ n0)).
    { apply set_scope_ran; [eapply ran_app; eassumption|lia|lia]. }
    destruct (IH Hks (set_scope (scope f) g) f' (r_wf _ _ _ _ R01) H2) as (n2 & R2 & E2 & S2). cbn [scope set_scope] in E2, S2.
    exists (n2 ++ (n1 ++ n0)). split; [|split; [exact E2|]].
    + cbn [conts_binders]. rewrite app_assoc. eapply ran_app; eassumption.
    + intros G Fn I. destruct (S0 G Fn) as (Sp & Bp & Ap);
        [intros e J; apply I, in_app_iff; right; apply in_app_iff; right; exact J|].
      destruct (S2 G Fn) as (A1 & A2); [intros e J; apply I, in_app_iff; left; exact J|].
      split.
      * intros k' ps' y' [J|J]; [injection J as <- <- <-; split; assumption|eapply A1; exact J].
      * intros sc set out Ss Sa Ps Pb K k' ps' y' sc' [J|J] Lv; [|eapply (A2 sc set out); eassumption].
        injection J as <- <- <-. pose proof (r_vars _ _ _ _ R2) as V2. cbn [vars set_scope] in V2.
        eapply (S1 G (sc ++ ps) set out); [exact Fn| | | |exact Ps| | |exact Lv].
        -- intros e J. apply I, in_app_iff. right. apply in_app_iff. left. exact J.
        -- apply sep_app; [exact Ss|exact Sp|]. intros v w r r' J J' Q Q'. right.
           specialize (Sa v r J Q). specialize (Bp w r' J' Q'). lia.
        -- intros v r J Q. apply in_app_iff in J. destruct J as [J|J]; [|apply (Ap v r J Q)].
           specialize (Sa v r J Q). pose proof (offset_le _ _ L0). lia.
        -- eapply below_le; [exact V2|exact Pb].
        -- eapply ks_le; [exact V2|exact K].
Qed.

Lemma all_good x : good x.
Proof.
  induction x as [x IH] using rt_children_ind. intros f f' W H.
  destruct (unbinding x) eqn:U.
  - destruct (go_unbinding x f f' U H) as (f0 & Sm & H0).
    destruct (gos_good _ IH f0 f') as (new & R & S); [destruct Sm as (_ & V & Sc); rewrite <- V, <- Sc; exact W|exact H0|].
    exists new. rewrite (binders_unbinding x U). pose proof (ran_same _ _ _ _ _ Sm R) as R'. split; [exact R'|].
    intros G sc set ks Fn I Ss Sa Ps Pb K sc' Lv.
    destruct Lv as [sc set ks x|sc set ks x y sc' Pl In_ Lv|sc set ks vs id t y vs' b sc' Lv|sc set ks vs b sc' Lv
      |sc set ks k es y es' r sc' Lv|sc set ks k es r|sc set ks cs b sc' Lv|sc set ks cs k ps y b sc' In_ Lv];
      try discriminate U.
    + eapply live_here_sep; eassumption.
    + exact (safe_same _ _ _ _ _ Sm (S y In_) G sc set ks Fn I Ss Sa Ps Pb K sc' Lv).
    + destruct (ks_params G (vars f') ks k K) as [Kp Kb].
      assert (Iy : In y (children (RContCall k (es ++ y :: es') r))) by (apply in_app_iff; right; left; reflexivity).
      eapply (safe_same _ _ _ _ _ Sm (S y Iy) G sc _ ks); [exact Fn|exact I|exact Ss|exact Sa| | |exact K|exact Lv].
      * apply sep_firstn, Kp.
      * intros v r' J Q. apply (Kb v r'); [|exact Q]. eapply in_firstn, J.
    + destruct (ks_params G (vars f') ks k K) as [Kp Kb].
      exact (live_here_sep _ _ _ _ G sc (params_of ks k) R' W Ss Sa Kp Kb).
  - destruct x as [| | | | | | | | | | | | | | | | | | | | | | | | |vs b|ks b]; try discriminate U.
    + (* variables *)
      cbn [children] in IH. apply Forall_app in IH. destruct IH as [IHv IHb]. inversion IHb as [|? ? Hb _]; subst.
      cbn [Model.go] in H. apply bind_ret in H. destruct H as (g & H1 & H). apply bind_ret in H.
      destruct H as (g' & H2 & H). injection H as <-.
      destruct (lets_good vs IHv f g W H1) as (n1 & R1 & S1). destruct (Hb g g' (r_wf _ _ _ _ R1) H2) as (n2 & R2 & S2).
      pose proof (r_scope _ _ _ _ R1) as L1. pose proof (r_scope _ _ _ _ R2) as L2. pose proof (r_wf _ _ _ _ R2) as W2.
      assert (R : ran (binders (RLetVar vs b)) f (set_scope (scope f) g') (n2 ++ n1)).
      { cbn [binders]. apply set_scope_ran; [eapply ran_app; eassumption|lia|lia]. }
      exists (n2 ++ n1). split; [exact R|].
      intros G sc set ks Fn I Ss Sa Ps Pb K sc' Lv. cbn [vars set_scope] in Pb, K.
      assert (I1 : incl n1 G) by (intros e J; apply I, in_app_iff; right; exact J).
      assert (I2 : incl n2 G) by (intros e J; apply I, in_app_iff; left; exact J).
      pose proof (r_vars _ _ _ _ R2) as V2.
      destruct (S1 G sc set ks Fn I1 Ss Sa Ps (below_le _ _ _ _ V2 Pb) (ks_le _ _ _ _ V2 K)) as (A1 & A2 & A3).
      inversion Lv as [? ? ? ?|? ? ? ? y ? Pl|? ? ? v1 i u y v2 ? ? Lv'|? ? ? ? ? ? Lv'| | | |]; subst.
      * eapply live_here_sep; eassumption.
      * discriminate Pl.
      * eapply A1; [reflexivity|exact Lv'].
      * eapply (S2 G _ set ks); eassumption.
    + (* continuations *)
      cbn [children] in IH. apply Forall_app in IH. destruct IH as [IHk IHb]. inversion IHb as [|? ? Hb _]; subst.
      cbn [Model.go] in H. apply bind_ret in H. destruct H as (g & H1 & H).
      destruct (Hb (set_vars (scope f) f) g (le_n _) H1) as (n1 & R1 & S1).
      pose proof (r_scope _ _ _ _ R1) as L1. pose proof (r_wf _ _ _ _ R1) as W1. pose proof (r_vars _ _ _ _ R1) as V1.
      cbn [scope set_vars vars] in L1, V1.
      set (g1 := set_vars (Nat.max (vars (set_scope (vars g) g)) (vars f)) (set_scope (vars g) g)) in *.
      assert (Wg1 : (scope g1 <= vars g1)%nat) by (cbn; lia).
      destruct (conts_good ks IHk g1 f' Wg1 H) as (n2 & R2 & E2 & S2). pose proof (r_vars _ _ _ _ R2) as V2.
      cbn [scope vars set_scope set_vars g1] in S2, V2.
      assert (R1' : ran (binders b) f g1 n1).
      { split; cbn.
        - apply (r_offsets _ _ _ _ R1).
        - apply (r_ids _ _ _ _ R1).
        - intros id t J. destruct (r_places _ _ _ _ R1 id t J) as (m & M1 & M2 & M3). exists m.
          cbn in M2. split; [exact M1|lia].
        - lia.
        - lia.
        - lia. }
      assert (R : ran (binders (RLetCont ks b)) f f' (n2 ++ n1)) by (cbn [binders]; eapply ran_app; eassumption).
      exists (n2 ++ n1). split; [exact R|].
      intros G sc set out Fn I Ss Sa Ps Pb K sc' Lv.
      assert (I1 : incl n1 G) by (intros e J; apply I, in_app_iff; right; exact J).
      assert (I2 : incl n2 G) by (intros e J; apply I, in_app_iff; left; exact J).
      destruct (S2 G Fn I2) as (A1 & A2).
      assert (Vg : (vars g <= vars f')%nat) by lia.
      inversion Lv as [? ? ? ?|? ? ? ? y ? Pl| | | | |? ? ? ? ? ? Lv'|? ? ? ? k ps y ? ? In_ Lv']; subst.
      * eapply live_here_sep; eassumption.
      * discriminate Pl.
      * eapply (S1 G sc set); [exact Fn|exact I1|exact Ss|exact Sa|exact Ps| | |exact Lv'].
        -- eapply below_le; [exact Vg|exact Pb].
        -- intros k ps J. apply in_app_iff in J. destruct J as [J|J].
           ++ apply in_map_iff in J. destruct J as ([[k' ps'] y] & E & J). cbn in E. injection E as <- <-.
              apply (A1 _ _ _ J).
           ++ apply (ks_le _ _ _ _ Vg K k ps J).
      * eapply (A2 sc set out); [exact Ss| |exact Ps|exact Pb|exact K|exact In_|exact Lv'].
        eapply above_le; [|exact Sa]. lia.
Qed.
End Frame.
