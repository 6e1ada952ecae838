From Coq Require Import List Arith Lia Permutation.
From Verif.Base Require Import Base.
From Verif.Init Require Import Model Spec.
Import ListNotations.

Notation evals := (flat_map put_main).
Definition keys (ms : modules) : list nat := map fst ms.

(** ** Lists *)
Lemma before_app l d x y : before l x y -> before (l ++ d) x y.
Proof. intros (a & b & c & ->). exists a, b, (c ++ d). rewrite <- !app_assoc. cbn. rewrite <- !app_assoc. reflexivity. Qed.
Lemma before_last l x y : In x l -> before (l ++ [y]) x y.
Proof. intros H. apply in_split in H as (a & b & ->). exists a, b, []. rewrite <- app_assoc. reflexivity. Qed.
Lemma in_evals x es : In x (evals es) <-> In (Eval x) es.
Proof.
  rewrite in_flat_map. split.
  - intros (z & Hz & Hx). destruct z; [|contradiction]. destruct Hx as [->|[]]. exact Hz.
  - intros H. exists (Eval x). split; [exact H | now left].
Qed.
Lemma evals_app a b : evals (a ++ b) = evals a ++ evals b.
Proof. apply flat_map_app. Qed.
Lemma last_split {A} (pre : list A) x a y b : pre ++ [x] = a ++ y :: b -> (b = [] /\ x = y /\ pre = a) \/ exists b', b = b' ++ [x] /\ pre = a ++ y :: b'.
Proof.
  intros E. destruct (rev b) as [|z b'] eqn:R.
  - left. apply (f_equal (@rev A)) in R. rewrite rev_involutive in R. cbn in R. subst b. apply app_inj_tail in E. destruct E as [-> ->]. auto.
  - right. apply (f_equal (@rev A)) in R. rewrite rev_involutive in R. cbn in R. subst b. exists (rev b').
    rewrite app_comm_cons, app_assoc in E. apply app_inj_tail in E. destruct E as [-> ->]. auto.
Qed.

(** ** The modules *)
Fixpoint wf (ms : modules) : Prop :=
  match ms with
  | [] => True
  | (m, es) :: ms => ~ In m (keys ms) /\ (forall n, In (Ensure n) es -> In n (keys ms)) /\ wf ms
  end.
Lemma lookup_in ms m es : lookup ms m = Some es -> In (m, es) ms.
Proof. induction ms as [|[k e] ms IH]; [discriminate|]. cbn. destruct (Nat.eqb_spec m k) as [->|]; [intros [= ->]; now left | auto]. Qed.
Lemma in_lookup ms m es : wf ms -> In (m, es) ms -> lookup ms m = Some es.
Proof.
  induction ms as [|[k e] ms IH]; [intros _ []|]. intros (N & _ & W) [[= -> ->]|H]; cbn; [now rewrite Nat.eqb_refl|].
  destruct (Nat.eqb_spec m k) as [->|]; [|auto]. elim N. apply in_map_iff. exists (k, es). auto.
Qed.
Lemma wf_app a b : wf (a ++ b) -> wf b.
Proof. induction a as [|[k e] a IH]; [auto|]. intros (_ & _ & W). auto. Qed.
Lemma wf_in ms m : wf ms -> In m (keys ms) -> exists pre es suf, ms = pre ++ (m, es) :: suf.
Proof. intros _ H. apply in_map_iff in H as ([k es] & E & H). cbn in E. subst k. apply in_split in H as (a & b & ->). eauto. Qed.

Section Enqueue.
Variable ms : modules.
Hypothesis W : wf ms.
Inductive reach : nat -> nat -> Prop :=
| reach_self m : reach m m
| reach_step m es n k : lookup ms m = Some es -> In (Ensure n) es -> reach n k -> reach m k.
Lemma reach_trans a b c : reach a b -> reach b c -> reach a c.
Proof. induction 1; intros; [assumption|]. econstructor; eauto. Qed.
Lemma reach_below pre suf : ms = pre ++ suf -> forall m k, reach m k -> In m (keys suf) -> In k (keys suf).
Proof.
  intros E m k R. induction R as [|m es n k L I R IH]; [auto|]. intros H. apply IH.
  assert (Ws : wf suf) by (apply (wf_app pre); rewrite <- E; exact W).
  destruct (wf_in suf m Ws H) as (p & es' & s & E'). assert (X : lookup ms m = Some es').
  { apply in_lookup; [exact W|]. rewrite E, E'. apply in_or_app. right. apply in_or_app. right. now left. }
  rewrite X in L. injection L as ->. rewrite E' in Ws. apply wf_app in Ws. destruct Ws as (_ & I' & _). specialize (I' _ I).
  rewrite E'. unfold keys in *. rewrite map_app, in_app_iff. right. right. exact I'.
Qed.

(** A module whose initialization is in the history [h]. *)
Record complete (v : list nat) (h : list nat) (m : nat) : Prop := {
  c_reach : forall k, reach m k -> In k v;
  c_all : forall es x, lookup ms m = Some es -> In (Eval x) es -> In x h;
  c_order : forall es a x b y c, lookup ms m = Some es -> es = a ++ Eval x :: b ++ Eval y :: c -> before h x y;
  c_first : forall es a k b y c k' es' x, lookup ms m = Some es -> es = a ++ Ensure k :: b ++ Eval y :: c ->
    reach k k' -> lookup ms k' = Some es' -> In (Eval x) es' -> before h x y
}.
Lemma complete_more v v' h d m : incl v v' -> complete v h m -> complete v' (h ++ d) m.
Proof.
  intros I [A B C D]. split; intros.
  - apply I, A. assumption.
  - apply in_or_app. left. eapply B; eassumption.
  - apply before_app. eapply C; eassumption.
  - apply before_app. eapply D; eassumption.
Qed.

Section History.
Variable o : list nat.
Definition history (s : main) : list nat := o ++ evals (queue s).
Definition inv (suf : modules) (s : main) : Prop :=
  forall m, In m (keys suf) -> In m (visited s) -> complete (visited s) (history s) m.
(** What is added between [s] and [s'], for modules that [p] holds of. *)
Record grown (p : nat -> Prop) (s s' : main) : Prop := {
  g_incl : incl (visited s) (visited s');
  g_new : forall m, In m (visited s') -> In m (visited s) \/ p m;
  g_queue : exists d, queue s' = queue s ++ d /\ forall x, In x (evals d) -> exists m es, In m (visited s') /\ ~ In m (visited s) /\ lookup ms m = Some es /\ In (Eval x) es
}.
Lemma grown_refl p s : grown p s s.
Proof. split; [apply incl_refl | auto |]. exists []. rewrite app_nil_r. split; [reflexivity | intros x []]. Qed.
Lemma grown_trans p s s' s'' : grown p s s' -> grown p s' s'' -> grown p s s''.
Proof.
  intros [A B (d & C & D)] [A' B' (d' & C' & D')]. split.
  - eapply incl_tran; eassumption.
  - intros m H. destruct (B' m H); auto.
  - exists (d ++ d'). split; [rewrite C', C; apply app_assoc_reverse|]. intros x Hx. rewrite evals_app in Hx. apply in_app_or in Hx as [Hx|Hx].
    + destruct (D x Hx) as (m & es & H1 & H2 & H3 & H4). exists m, es. auto.
    + destruct (D' x Hx) as (m & es & H1 & H2 & H3 & H4). exists m, es. split; [auto|]. split; [intros H; apply H2, A, H | auto].
Qed.

Hypothesis D1 : forall m m' es es' x, lookup ms m = Some es -> lookup ms m' = Some es' -> In (Eval x) es -> In (Eval x) es' -> m = m'.
Hypothesis D2 : forall m es, lookup ms m = Some es -> NoDup (evals es).
Definition sound (s : main) : Prop :=
  NoDup (history s) /\ forall x, In x (history s) -> exists m es, In m (visited s) /\ lookup ms m = Some es /\ In (Eval x) es.

(** In the middle of the expressions of [m]. *)
Record halfway (suf : modules) (m : nat) (s done : main) (pre : list init_expr) : Prop := {
  h_seen : In m (visited done);
  h_inv : inv suf done;
  h_once : NoDup (history done);
  h_from : forall x, In x (history done) -> In (Eval x) pre \/ exists v es, In v (visited done) /\ v <> m /\ lookup ms v = Some es /\ In (Eval x) es;
  h_grown : grown (reach m) s done;
  h_all : forall x, In (Eval x) pre -> In x (history done);
  h_order : forall a x b y c, pre = a ++ Eval x :: b ++ Eval y :: c -> before (history done) x y;
  h_reach : forall k k', In (Ensure k) pre -> reach k k' -> In k' (visited done) /\ forall es x, lookup ms k' = Some es -> In (Eval x) es -> In x (history done);
  h_first : forall a k b y c k' es' x, pre = a ++ Ensure k :: b ++ Eval y :: c ->
    reach k k' -> lookup ms k' = Some es' -> In (Eval x) es' -> before (history done) x y
}.

Lemma history_push s x : history (push s x) = history s ++ put_main x.
Proof. unfold history. cbn. rewrite evals_app, app_assoc. cbn. now rewrite app_nil_r. Qed.
Lemma history_grown p s s' : grown p s s' -> exists d, history s' = history s ++ d /\ forall x, In x d -> exists m es, In m (visited s') /\ ~ In m (visited s) /\ lookup ms m = Some es /\ In (Eval x) es.
Proof. intros [_ _ (d & E & H)]. exists (evals d). unfold history. rewrite E, evals_app, app_assoc. auto. Qed.
Lemma three_last (pre : list init_expr) z a x b y c : pre ++ [z] = a ++ x :: b ++ y :: c ->
  (c = [] /\ z = y /\ pre = a ++ x :: b) \/ exists c', c = c' ++ [z] /\ pre = a ++ x :: b ++ y :: c'.
Proof.
  intros E. rewrite app_comm_cons, app_assoc in E. apply last_split in E as [(-> & -> & ->)|(c' & -> & ->)]; [left | right]; [auto|].
  exists c'. rewrite <- app_assoc. auto.
Qed.

Definition body (fuel : nat) (acc : outcome main) (x : init_expr) : outcome main :=
  let* s := acc in
  let s := push s x in
  match x with Ensure n => enqueue fuel ms s n | Eval _ => Ret s end.

Lemma enqueue_ok : forall fuel pre suf m s, ms = pre ++ suf -> In m (keys suf) -> (List.length suf < fuel)%nat -> inv suf s -> sound s ->
  exists s', enqueue fuel ms s m = Ret s' /\ inv suf s' /\ sound s' /\ In m (visited s') /\ grown (reach m) s s'.
Proof.
  induction fuel as [|fuel IH]; intros pre suf m s E Hm F Hi Hs; [lia|]. cbn [enqueue]. destruct (seen s m) eqn:Sm.
  { exists s. split; [reflexivity|]. split; [exact Hi|]. split; [exact Hs|]. split; [|apply grown_refl].
    apply existsb_exists in Sm as (k & Hk & Ek). apply Nat.eqb_eq in Ek. now subst k. }
  assert (Nm : ~ In m (visited s)).
  { intros H. rewrite <- not_true_iff_false in Sm. apply Sm, existsb_exists. exists m. split; [exact H | apply Nat.eqb_refl]. }
  assert (Ws : wf suf) by (apply (wf_app pre); rewrite <- E; exact W).
  destruct (wf_in suf m Ws Hm) as (p & es & suf' & E'). assert (L : lookup ms m = Some es).
  { apply in_lookup; [exact W|]. rewrite E, E'. apply in_or_app. right. apply in_or_app. right. now left. }
  rewrite L. pose proof Ws as Wm. rewrite E' in Wm. apply wf_app in Wm. destruct Wm as (Nk & Ie & Ws').
  assert (E2 : ms = (pre ++ p ++ [(m, es)]) ++ suf') by (rewrite E, E', <- !app_assoc; reflexivity).
  assert (Sub : forall k, In k (keys suf') -> In k (keys suf)) by (intros k Hk; rewrite E'; unfold keys in *; rewrite map_app, in_app_iff; right; right; exact Hk).
  assert (Len : (List.length suf' < fuel)%nat) by (rewrite E', app_length in F; cbn in F; lia).
  change (fun (acc : outcome main) (x : init_expr) => _) with (body fuel).
  assert (Start : halfway suf' m s (Main (m :: visited s) (queue s)) []).
  { destruct Hs as [Hn Hf]. split.
    - now left.
    - intros k Hk Hv. destruct Hv as [->|Hv]; [contradiction|]. change (history {| visited := m :: visited s; queue := queue s |}) with (history s). rewrite <- (app_nil_r (history s)).
      eapply complete_more; [|apply Hi; [apply Sub, Hk | exact Hv]]. intros z Hz. now right.
    - exact Hn.
    - intros x Hx. right. destruct (Hf x Hx) as (v & e & Hv & Lv & Xv). exists v, e. split; [now right|]. split; [intros ->; contradiction | auto].
    - split; [intros z Hz; now right | intros k [<-|Hk]; [right; constructor | auto] |]. exists []. rewrite app_nil_r. split; [reflexivity | intros x []].
    - intros x [].
    - intros a x b y c H. destruct a; discriminate.
    - intros k k' [].
    - intros a k b y c k' es' x H. destruct a; discriminate. }
  assert (Loop : forall rest done, es = done ++ rest -> forall s1, halfway suf' m s s1 done ->
    exists s', fold_left (body fuel) rest (Ret s1) = Ret s' /\ halfway suf' m s s' es).
  { induction rest as [|z rest IHr]; intros done Ed s1 H1.
    - exists s1. rewrite app_nil_r in Ed. subst done. auto.
    - cbn [fold_left]. enough (K : exists s2, body fuel (Ret s1) z = Ret s2 /\ halfway suf' m s s2 (done ++ [z])).
      { destruct K as (s2 & -> & H2). apply (IHr (done ++ [z])); [rewrite <- app_assoc; exact Ed | exact H2]. }
      unfold body. cbn [bind]. destruct H1 as [A1 A2 A3 A4 A5 A6 A7 A8 A9]. destruct z as [x|n].
      + exists (push s1 (Eval x)). split; [reflexivity|]. assert (Hh : history (push s1 (Eval x)) = history s1 ++ [x]) by apply history_push.
        assert (Xe : In (Eval x) es) by (rewrite Ed; apply in_or_app; right; now left).
        split; rewrite ?Hh.
        * exact A1.
        * intros k Hk Hv. rewrite Hh. eapply complete_more; [apply incl_refl | apply A2; [exact Hk | exact Hv]].
        * apply (Permutation_NoDup (l := x :: history s1)); [apply Permutation_cons_append|]. constructor; [|exact A3].
          intros Hx. destruct (A4 x Hx) as [Hp|(v & e & Hv & Nv & Lv & Xv)].
          -- pose proof (D2 m es L) as Nd. rewrite Ed, evals_app in Nd. cbn in Nd. apply NoDup_remove_2 in Nd. apply Nd, in_or_app. left. now apply in_evals.
          -- apply Nv. exact (D1 v m e es x Lv L Xv Xe).
        * intros y Hy. apply in_app_or in Hy as [Hy|[<-|[]]].
          -- destruct (A4 y Hy) as [Hp|Hp]; [left; apply in_or_app; now left | right; exact Hp].
          -- left. apply in_or_app. right. now left.
        * destruct A5 as [G1 G2 (d & G3 & G4)]. split; [exact G1 | exact G2|]. exists (d ++ [Eval x]). cbn. split; [rewrite G3; apply app_assoc_reverse|].
          intros y Hy. rewrite evals_app in Hy. apply in_app_or in Hy as [Hy|[<-|[]]]; [auto|]. exists m, es. auto.
        * intros y Hy. apply in_app_or in Hy as [Hy|[[= <-]|[]]]; apply in_or_app; [left; auto | right; now left].
        * intros a u b y c Eq. apply three_last in Eq as [(-> & [= <-] & ->)|(c' & -> & Eq)].
          -- apply before_last, A6, in_or_app. right. now left.
          -- apply before_app. eapply A7; eassumption.
        * intros k k' Hk Rk. apply in_app_or in Hk as [Hk|[Hk|[]]]; [|discriminate]. destruct (A8 k k' Hk Rk) as [V1 V2]. split; [exact V1|]. intros e y Le Ye. apply in_or_app. left. eauto.
        * intros a k b y c k' es' u Eq Rk Lk Xk. apply three_last in Eq as [(-> & [= <-] & ->)|(c' & -> & Eq)].
          -- apply before_last. eapply (A8 k k'); [apply in_or_app; right; now left | exact Rk | exact Lk | exact Xk].
          -- apply before_app. eapply A9; eassumption.
      + set (s0 := push s1 (Ensure n)). assert (Hh : history s0 = history s1) by (unfold s0; rewrite history_push; apply app_nil_r).
        assert (Ne : In (Ensure n) es) by (rewrite Ed; apply in_or_app; right; now left).
        destruct (IH (pre ++ p ++ [(m, es)]) suf' n s0 E2 (Ie n Ne) Len) as (s2 & R & B1 & B2 & B3 & B4).
        { intros k Hk Hv. rewrite Hh. exact (A2 k Hk Hv). }
        { split; rewrite Hh; [exact A3|]. intros x Hx. destruct (A4 x Hx) as [Hp|(v & e & Hv & _ & Lv & Xv)]; [|exists v, e; auto].
          exists m, es. split; [exact A1|]. split; [exact L|]. rewrite Ed. apply in_or_app. now left. }
        exists s2. split; [exact R|]. destruct (history_grown _ _ _ B4) as (d & Hd & Fd). rewrite Hh in Hd.
        pose proof (g_incl _ _ _ B4) as Gi. change (visited s0) with (visited s1) in Gi, Fd.
        split; rewrite ?Hd.
        * apply Gi, A1.
        * exact B1.
        * rewrite <- Hd. exact (proj1 B2).
        * intros x Hx. apply in_app_or in Hx as [Hx|Hx].
          -- destruct (A4 x Hx) as [Hp|(v & e & Hv & Nv & Lv & Xv)]; [left; apply in_or_app; now left | right; exists v, e; auto].
          -- right. destruct (Fd x Hx) as (v & e & Hv & Nv & Lv & Xv). exists v, e. split; [exact Hv|]. split; [intros ->; contradiction | auto].
        * assert (R1 : reach m n) by (econstructor; [exact L | exact Ne | constructor]).
          eapply grown_trans; [exact A5|]. destruct B4 as [G1 G2 (q & G3 & G4)]. split; [exact G1| |].
          -- intros k Hk. destruct (G2 k Hk) as [Ho|Hr]; [left; exact Ho | right; eapply reach_trans; eassumption].
          -- exists (Ensure n :: q). split; [rewrite G3; unfold s0; cbn; rewrite <- app_assoc; reflexivity|]. exact G4.
        * intros x Hx. apply in_app_or in Hx as [Hx|[Hx|[]]]; [|discriminate]. apply in_or_app. left. auto.
        * intros a u b y c Eq. apply three_last in Eq as [(-> & [=] & ->)|(c' & -> & Eq)]. apply before_app. eapply A7; eassumption.
        * intros k k' Hk Rk. apply in_app_or in Hk as [Hk|[[= <-]|[]]].
          -- destruct (A8 k k' Hk Rk) as [V1 V2]. split; [apply Gi, V1|]. intros e y Le Ye. apply in_or_app. left. eauto.
          -- pose proof (B1 n (Ie n Ne) B3) as Cn. pose proof (c_reach _ _ _ Cn k' Rk) as Vk. split; [exact Vk|]. intros e y Le Ye. rewrite <- Hd.
             assert (Kk : In k' (keys suf')) by (eapply reach_below; [exact E2 | exact Rk | apply Ie, Ne]). exact (c_all _ _ _ (B1 k' Kk Vk) e y Le Ye).
        * intros a k b y c k' es' u Eq Rk Lk Xk. apply three_last in Eq as [(-> & [=] & ->)|(c' & -> & Eq)]. apply before_app. eapply A9; eassumption. }
  destruct (Loop es [] eq_refl _ Start) as (s' & R & [A1 A2 A3 A4 A5 A6 A7 A8 A9]). rewrite R. exists s'. split; [reflexivity|].
  assert (Cm : complete (visited s') (history s') m).
  { split.
    - intros k Rk. inversion Rk as [|? e n ? Le In' Rn]; subst; [exact A1|]. rewrite L in Le. injection Le as <-. exact (proj1 (A8 n k In' Rn)).
    - intros e x Le Xe. rewrite L in Le. injection Le as <-. auto.
    - intros e a x b y c Le Eq. rewrite L in Le. injection Le as <-. eauto.
    - intros e a k b y c k' es' x Le Eq. rewrite L in Le. injection Le as <-. eauto. }
  split; [|split; [|split; [exact A1 | exact A5]]].
  - intros v Hk Hv. destruct (Nat.eq_dec v m) as [->|Nv]; [exact Cm|]. destruct (g_new _ _ _ A5 v Hv) as [Old|Rv].
    + destruct (history_grown _ _ _ A5) as (d & -> & _). eapply complete_more; [apply A5 | apply Hi; assumption].
    + apply A2; [|exact Hv]. inversion Rv as [|? e n ? Le In' Rn]; subst; [contradiction|]. rewrite L in Le. injection Le as <-.
      eapply reach_below; [exact E2 | exact Rn | apply Ie, In'].
  - split; [exact A3|]. intros x Hx. destruct (A4 x Hx) as [Hp|(v & e & Hv & _ & Lv & Xv)]; [exists m, es | exists v, e]; auto.
Qed.
End History.
End Enqueue.

(** ** A module arrives *)
Lemma keys_lookup ms m : In m (keys ms) <-> exists es, lookup ms m = Some es.
Proof.
  induction ms as [|[k e] ms IH]; cbn; [split; [intros [] | intros (es & [=])]|]. destruct (Nat.eqb_spec m k) as [->|N].
  - split; eauto.
  - rewrite <- IH. split; [intros [->|H]; [contradiction | exact H] | auto].
Qed.
Section Arrival.
Variables (ms : modules) (m : nat) (es : list init_expr).
Hypothesis W : wf ((m, es) :: ms).
Lemma lookup_old v : In v (keys ms) -> lookup ((m, es) :: ms) v = lookup ms v.
Proof. intros H. cbn. destruct (Nat.eqb_spec v m) as [->|]; [|reflexivity]. now elim (proj1 W). Qed.
Lemma reach_old v k : In v (keys ms) -> reach ((m, es) :: ms) v k -> reach ms v k.
Proof.
  intros H R. induction R as [|v e n k L I R IH]; [constructor|]. rewrite lookup_old in L by exact H. econstructor; [exact L | exact I |].
  apply IH. destruct (wf_in ms v (proj2 (proj2 W)) H) as (a & e' & b & E). pose proof (proj2 (proj2 W)) as W'.
  assert (X : lookup ms v = Some e') by (apply in_lookup; [exact W' | rewrite E; apply in_or_app; right; now left]). rewrite X in L. injection L as ->.
  rewrite E in W'. apply wf_app in W'. destruct W' as (_ & I' & _). rewrite E. unfold keys in *. rewrite map_app, in_app_iff. right. right. apply I', I.
Qed.
Lemma reach_new v k : In v (keys ms) -> reach ms v k -> reach ((m, es) :: ms) v k.
Proof.
  intros H R. induction R as [|v e n k L I R IH]; [constructor|]. econstructor; [rewrite lookup_old by exact H; exact L | exact I |].
  apply IH. destruct (wf_in ms v (proj2 (proj2 W)) H) as (a & e' & b & E). pose proof (proj2 (proj2 W)) as W'.
  assert (X : lookup ms v = Some e') by (apply in_lookup; [exact W' | rewrite E; apply in_or_app; right; now left]). rewrite X in L. injection L as ->.
  rewrite E in W'. apply wf_app in W'. destruct W' as (_ & I' & _). rewrite E. unfold keys in *. rewrite map_app, in_app_iff. right. right. apply I', I.
Qed.
Lemma reach_in v k : In v (keys ms) -> reach ms v k -> In k (keys ms).
Proof. intros H R. exact (reach_below ms (proj2 (proj2 W)) [] ms eq_refl v k R H). Qed.
Lemma complete_new v h k : In k (keys ms) -> complete ms v h k -> complete ((m, es) :: ms) v h k.
Proof.
  intros H [A B C D]. split.
  - intros k' R. apply A, reach_old; assumption.
  - intros e x L. rewrite lookup_old in L by exact H. exact (B e x L).
  - intros e a x b y c L. rewrite lookup_old in L by exact H. exact (C e a x b y c L).
  - intros e a n b y c k' es' x L Eq R L'. rewrite lookup_old in L by exact H.
    assert (Hn : In n (keys ms)).
    { destruct (wf_in ms k (proj2 (proj2 W)) H) as (a' & e' & b' & E). pose proof (proj2 (proj2 W)) as W'.
      assert (X : lookup ms k = Some e') by (apply in_lookup; [exact W' | rewrite E; apply in_or_app; right; now left]). rewrite X in L. injection L as ->.
      rewrite E in W'. apply wf_app in W'. destruct W' as (_ & I' & _). rewrite E. unfold keys in *. rewrite map_app, in_app_iff. right. right. apply I'. rewrite Eq. apply in_or_app. right. now left. }
    apply reach_old in R; [|exact Hn]. rewrite lookup_old in L' by (eapply reach_in; eassumption). exact (D e a n b y c k' es' x L Eq R L').
Qed.
End Arrival.

(** ** All that happens *)
Definition own (ms : modules) : list nat := flat_map (fun p => evals (snd p)) ms.
Lemma own_in ms m es x : lookup ms m = Some es -> In (Eval x) es -> In x (own ms).
Proof. intros L H. apply in_flat_map. exists (m, es). split; [apply lookup_in, L | now apply in_evals]. Qed.
Lemma own_apart ms : NoDup (own ms) -> forall m m' es es' x, lookup ms m = Some es -> lookup ms m' = Some es' -> In (Eval x) es -> In (Eval x) es' -> m = m'.
Proof.
  induction ms as [|[k e] ms IH]; [discriminate|]. intros N m m' es es' x. pose proof (own_in ms) as O. cbn in *.
  assert (Np : NoDup (own ms)) by (clear -N; induction (evals e); [exact N | inversion N; auto]).
  assert (Ap : forall x, In x (evals e) -> ~ In x (own ms)).
  { clear -N. induction (evals e) as [|y l IH]; [intros x []|]. intros x. inversion N as [|? ? H1 H2]; subst. intros [->|H]; [intros H; apply H1, in_or_app; now right | apply IH; assumption]. }
  destruct (Nat.eqb_spec m k) as [->|], (Nat.eqb_spec m' k) as [->|]; [reflexivity| | |].
  - intros [= ->] L X X'. elim (Ap x); [now apply in_evals | eapply O; eassumption].
  - intros L [= ->] X X'. elim (Ap x); [now apply in_evals | eapply O; eassumption].
  - intros. eapply IH; eassumption.
Qed.
Lemma own_nodup ms : NoDup (own ms) -> forall m es, lookup ms m = Some es -> NoDup (evals es).
Proof.
  induction ms as [|[k e] ms IH]; [discriminate|]. cbn. intros N m es. destruct (Nat.eqb_spec m k) as [->|].
  - intros [= ->]. clear -N. induction (evals es); [constructor|]. inversion N as [|? ? H1 H2]; subst. constructor; [intros H; apply H1, in_or_app; now left | auto].
  - apply IH. clear -N. induction (evals e); [exact N | inversion N; auto].
Qed.

Record kept (evs : list event) (s : state) : Prop := {
  k_wf : wf (mods s);
  k_added : forall m es, lookup (mods s) m = Some es <-> added evs m es;
  k_own : Permutation (own (mods s)) (all_exprs evs);
  k_visited : forall m, In m (visited (todo s)) <-> exists e, entry evs e /\ reach (mods s) e m;
  k_inv : inv (mods s) (out s) (mods s) (todo s);
  k_sound : sound (mods s) (out s) (todo s)
}.
Lemma kept_keys evs s m : kept evs s -> In m (visited (todo s)) -> In m (keys (mods s)).
Proof.
  intros K H. apply (k_visited _ _ K) in H as (e & (es & He) & R). eapply reach_below with (pre := []); [exact (k_wf _ _ K) | reflexivity | exact R|].
  apply keys_lookup. exists es. apply (k_added _ _ K). exists true. exact He.
Qed.
Lemma kept_same evs evs' s s' : kept evs s -> mods s' = mods s -> visited (todo s') = visited (todo s) -> history (out s') (todo s') = history (out s) (todo s) ->
  (forall m es b, In (Add m es b) evs' <-> In (Add m es b) evs) -> all_exprs evs' = all_exprs evs -> kept evs' s'.
Proof.
  intros [A B C D E F] Em Ev Eh Ea Ex. assert (Ad : forall m es, added evs' m es <-> added evs m es) by (intros m es; split; intros (b & H); exists b; now apply Ea).
  assert (En : forall m, entry evs' m <-> entry evs m) by (intros m; split; intros (es & H); exists es; now apply Ea).
  split; rewrite ?Em, ?Ev, ?Ex; try assumption.
  - intros m es. rewrite Ad. apply B.
  - intros m. rewrite D. split; intros (e & H & R); exists e; (split; [now apply En | exact R]).
  - unfold inv. rewrite Ev, Eh. exact E.
  - unfold sound. rewrite Ev, Eh. exact F.
Qed.

Lemma step_ok evs s ev : kept evs s -> ordered (keys (mods s)) [ev] -> NoDup (all_exprs (evs ++ [ev])) ->
  exists s', step s ev = Ret s' /\ kept (evs ++ [ev]) s' /\ keys (mods s') = match ev with Add m _ _ => m :: keys (mods s) | _ => keys (mods s) end.
Proof.
  intros K O N. assert (X : all_exprs (evs ++ [ev]) = all_exprs evs ++ all_exprs [ev]) by apply flat_map_app.
  destruct ev as [m es b| |].
  - cbn in O. destruct O as (Om & Oe & _). pose proof (k_wf _ _ K) as W. assert (W' : wf ((m, es) :: mods s)) by (cbn; auto).
    set (ms := (m, es) :: mods s) in *. assert (Kn : forall v, In v (visited (todo s)) -> In v (keys (mods s))) by (intros v; apply (kept_keys _ _ _ K)).
    assert (Ad : forall n e, lookup ms n = Some e <-> added (evs ++ [Add m es b]) n e).
    { intros n e. unfold ms. cbn [lookup]. destruct (Nat.eqb_spec n m) as [->|Nn].
      - split; [intros [= ->]; exists b; apply in_or_app; right; now left|]. intros (c & H). apply in_app_or in H as [H|[[= -> <-]|[]]]; [|reflexivity].
        elim Om. apply keys_lookup. exists e. apply (k_added _ _ K). exists c. exact H.
      - rewrite (k_added _ _ K). split; intros (c & H); exists c; [apply in_or_app; now left|]. apply in_app_or in H as [H|[[= <-]|[]]]; [exact H | contradiction]. }
    assert (Ow : Permutation (own ms) (all_exprs (evs ++ [Add m es b]))).
    { rewrite X. cbn. rewrite app_nil_r. etransitivity; [apply Permutation_app_comm|]. apply Permutation_app_tail, (k_own _ _ K). }
    assert (No : NoDup (own ms)) by (eapply Permutation_NoDup; [symmetry; exact Ow | exact N]).
    assert (I0 : inv ms (out s) ms (todo s)).
    { intros v _ Hv. apply complete_new; [exact W' | apply Kn, Hv|]. apply (k_inv _ _ K); [apply Kn, Hv | exact Hv]. }
    assert (S0 : sound ms (out s) (todo s)).
    { destruct (k_sound _ _ K) as [N0 F0]. split; [exact N0|]. intros x Hx. destruct (F0 x Hx) as (v & e & Hv & L & Xe). exists v, e.
      split; [exact Hv|]. split; [unfold ms; rewrite lookup_old by (try exact W'; apply Kn, Hv); exact L | exact Xe]. }
    assert (V0 : forall v, In v (visited (todo s)) <-> exists e, entry evs e /\ reach ms e v).
    { intros v. rewrite (k_visited _ _ K).
      assert (Ke : forall e, entry evs e -> In e (keys (mods s))) by (intros e (e' & He); apply keys_lookup; exists e'; apply (k_added _ _ K); exists true; exact He).
      split; intros (e & He & R); exists e; (split; [exact He|]).
      - apply reach_new; auto.
      - eapply reach_old; [exact W' | auto | exact R]. }
    destruct b.
    + destruct (enqueue_ok ms W' (out s) (own_apart ms No) (own_nodup ms No) (S (List.length ms)) [] ms m (todo s)) as (t & R & A1 & A2 & A3 & A4).
      { reflexivity. } { now left. } { lia. } { exact I0. } { exact S0. }
      cbn [step]. fold ms. rewrite R. cbn [bind]. eexists. split; [reflexivity|]. split; [|reflexivity]. split; cbn [mods out todo]; try assumption.
      intros v. split.
      * intros Hv. destruct (g_new _ _ _ _ A4 v Hv) as [Ho|Hr].
        -- apply V0 in Ho as (e & (e' & He) & Re). exists e. split; [exists e'; apply in_or_app; now left | exact Re].
        -- exists m. split; [exists es; apply in_or_app; right; now left | exact Hr].
      * intros (e & (e' & He) & Re). apply in_app_or in He as [He|[[= <- <-]|[]]].
        -- apply (g_incl _ _ _ _ A4), V0. exists e. split; [exists e'; exact He | exact Re].
        -- apply (c_reach _ _ _ _ (A1 m (or_introl eq_refl) A3)), Re.
    + cbn [step]. fold ms. eexists. split; [reflexivity|]. split; [|reflexivity]. split; cbn [mods out todo]; try assumption.
      intros v. rewrite V0. split; intros (e & (e' & He) & Re); exists e; (split; [|exact Re]); exists e'; [apply in_or_app; now left|].
      apply in_app_or in He as [He|[He|[]]]; [exact He | discriminate].
  - exists s. split; [reflexivity|]. split; [|reflexivity]. apply (kept_same evs _ s); try reflexivity; [exact K| |rewrite X; apply app_nil_r].
    intros m es b. rewrite in_app_iff. split; [intros [H|[H|[]]]; [exact H | discriminate] | auto].
  - cbn [step]. assert (Add' : forall m es b, In (Add m es b) (evs ++ [Idle]) <-> In (Add m es b) evs).
    { intros m es b. rewrite in_app_iff. split; [intros [H|[H|[]]]; [exact H | discriminate] | auto]. }
    unfold dequeue. destruct (queue (todo s)) as [|x q] eqn:Q.
    + exists s. split; [reflexivity|]. split; [|reflexivity]. apply (kept_same evs _ s); try reflexivity; [exact K | exact Add' | rewrite X; apply app_nil_r].
    + eexists. split; [reflexivity|]. split; [|reflexivity]. apply (kept_same evs _ s); [exact K | reflexivity | reflexivity | | exact Add' | rewrite X; apply app_nil_r].
      cbn [out todo]. unfold history. cbn [queue]. rewrite Q. cbn [flat_map]. rewrite app_assoc. reflexivity.
Qed.
Lemma steps_ok evs : forall done s, kept done s -> ordered (keys (mods s)) evs -> NoDup (all_exprs (done ++ evs)) ->
  exists s', steps s evs = Ret s' /\ kept (done ++ evs) s'.
Proof.
  induction evs as [|ev evs IH]; intros done s K O N; [exists s; rewrite app_nil_r; auto|].
  assert (O1 : ordered (keys (mods s)) [ev]) by (destruct ev; cbn in *; tauto).
  assert (N1 : NoDup (all_exprs (done ++ [ev]))).
  { change (ev :: evs) with ([ev] ++ evs) in N. rewrite app_assoc in N. unfold all_exprs in *. rewrite flat_map_app in N. clear -N.
    induction (flat_map _ (done ++ [ev])); [constructor|]. inversion N as [|? ? H1 H2]; subst. constructor; [intros H; apply H1, in_or_app; now left | auto]. }
  destruct (step_ok done s ev K O1 N1) as (s1 & R & K1 & E). cbn [steps]. rewrite R. cbn [bind].
  destruct (IH (done ++ [ev]) s1 K1) as (s' & R' & K').
  - rewrite E. destruct ev; cbn in O; tauto.
  - rewrite <- app_assoc. exact N.
  - exists s'. split; [exact R'|]. rewrite <- app_assoc in K'. exact K'.
Qed.

Lemma needs_reach evs s : kept evs s -> forall m k, needs evs m k <-> reach (mods s) m k.
Proof.
  intros K m k. split; induction 1; [constructor | | constructor |]; (econstructor; [|eassumption | assumption]); now apply (k_added _ _ K).
Qed.
Theorem process_initializes evs : well_formed evs -> exists l, process evs = Ret l /\ initializes evs l.
Proof.
  intros [O N]. destruct (steps_ok evs [] new_state) as (s & R & K).
  - split; cbn; try exact I.
    + intros m es. split; [discriminate | intros (b & [])].
    + constructor.
    + intros m. split; [intros [] | intros (e & (es & []) & _)].
    + intros m [].
    + split; [constructor | intros x []].
  - exact O.
  - exact N.
  - cbn [app] in K. unfold process. rewrite R. cbn [bind]. eexists. split; [reflexivity|]. change (out s ++ evals (queue (todo s))) with (history (out s) (todo s)).
    assert (Cm : forall m n, entry evs m -> needs evs m n -> complete (mods s) (visited (todo s)) (history (out s) (todo s)) n).
    { intros m n Hm Hn. assert (V : In n (visited (todo s))) by (apply (k_visited _ _ K); exists m; split; [exact Hm | now apply (needs_reach _ _ K)]).
      apply (k_inv _ _ K); [eapply kept_keys; eassumption | exact V]. }
    split.
    + apply (k_sound _ _ K).
    + intros x. split.
      * intros Hx. destruct (proj2 (k_sound _ _ K) x Hx) as (n & es & V & L & Xe). apply (k_visited _ _ K) in V as (m & Hm & Rm).
        exists m, n, es. split; [exact Hm|]. split; [now apply (needs_reach _ _ K)|]. split; [now apply (k_added _ _ K) | exact Xe].
      * intros (m & n & es & Hm & Hn & Ha & Xe). eapply (c_all _ _ _ _ (Cm m n Hm Hn)); [apply (k_added _ _ K); exact Ha | exact Xe].
    + intros m n es a x b y c Hm Hn Ha Eq. eapply (c_order _ _ _ _ (Cm m n Hm Hn)); [apply (k_added _ _ K); exact Ha | exact Eq].
    + intros m n es a k b y c k' es' x Hm Hn Ha Eq Rk Ha' Xe. eapply (c_first _ _ _ _ (Cm m n Hm Hn)); [apply (k_added _ _ K); exact Ha | exact Eq | apply (needs_reach _ _ K); exact Rk | apply (k_added _ _ K); exact Ha' | exact Xe].
Qed.

(** ** Schedules *)
(** The states that have the same history. *)
Definition alike (s s' : state) : Prop :=
  mods s = mods s' /\ visited (todo s) = visited (todo s') /\ history (out s) (todo s) = history (out s') (todo s').
Lemma enqueue_queue ms : forall fuel v q m, enqueue fuel ms (Main v q) m =
  match enqueue fuel ms (Main v []) m with Ret s => Ret (Main (visited s) (q ++ queue s)) | Panic => Panic | OutOfFuel => OutOfFuel end.
Proof.
  induction fuel as [|fuel IH]; intros v q m; [reflexivity|]. cbn [enqueue]. unfold seen. cbn [visited queue].
  destruct (existsb _ v); [cbn; now rewrite app_nil_r|]. destruct (lookup ms m) as [es|]; [|reflexivity].
  change (fun (acc : outcome main) (x : init_expr) => _) with (body ms fuel).
  enough (G : forall es v q q', fold_left (body ms fuel) es (Ret (Main v (q ++ q'))) =
    match fold_left (body ms fuel) es (Ret (Main v q')) with Ret s => Ret (Main (visited s) (q ++ queue s)) | Panic => Panic | OutOfFuel => OutOfFuel end).
  { rewrite <- (app_nil_r q) at 1. apply G. }
  assert (Bad : forall es o, (forall s : main, o <> Ret s) -> fold_left (body ms fuel) es o = o).
  { clear. induction es as [|x es IHe]; intros o Ho; [reflexivity|]. cbn. replace (body ms fuel o x) with o; [now apply IHe|]. destruct o; [now elim (Ho a) | reflexivity | reflexivity]. }
  clear -IH Bad. induction es as [|x es IHe]; intros v q q'; [reflexivity|]. cbn [fold_left]. unfold body at 2 4. cbn [bind]. unfold push. cbn [visited queue]. rewrite <- app_assoc.
  destruct x as [e|n]; [apply IHe|]. rewrite IH. rewrite (IH v (q' ++ [Ensure n])). destruct (enqueue fuel ms {| visited := v; queue := [] |} n) as [s| |].
  - cbn. rewrite <- app_assoc. apply IHe.
  - rewrite !Bad by discriminate. reflexivity.
  - rewrite !Bad by discriminate. reflexivity.
Qed.
Definition same_end (a b : outcome state) : Prop :=
  match a, b with Ret s, Ret s' => alike s s' | Panic, Panic => True | OutOfFuel, OutOfFuel => True | _, _ => False end.
Lemma step_alike s s' m es b : alike s s' -> same_end (step s (Add m es b)) (step s' (Add m es b)).
Proof.
  intros (Em & Ev & Eh). cbn [step]. rewrite <- Em. destruct b; [|cbn; unfold alike; cbn; auto].
  destruct (todo s) as [v q] eqn:T, (todo s') as [v' q'] eqn:T'. cbn in Ev. subst v'. rewrite (enqueue_queue _ _ v q), (enqueue_queue _ _ v q').
  destruct (enqueue _ _ (Main v []) m) as [t| |]; [|exact I | exact I]. cbn. unfold alike, history in *. cbn in *. rewrite !evals_app, !app_assoc, Eh. auto.
Qed.
Lemma step_quiet s ev : is_add ev = false -> exists s', step s ev = Ret s' /\ alike s' s.
Proof.
  intros H. destruct ev; [discriminate| |]; cbn [step]; [exists s; split; [reflexivity | unfold alike; auto]|]. unfold dequeue. destruct (queue (todo s)) as [|x q] eqn:Q.
  - exists s. split; [reflexivity | unfold alike; auto].
  - eexists. split; [reflexivity|]. unfold alike, history. cbn. rewrite Q. cbn. rewrite <- app_assoc. auto.
Qed.
Lemma steps_filter evs : forall s s', alike s s' -> same_end (steps s evs) (steps s' (filter is_add evs)).
Proof.
  induction evs as [|ev evs IH]; intros s s' A; [exact A|]. cbn [steps filter]. destruct (is_add ev) eqn:E.
  - destruct ev as [m es b| |]; try discriminate. pose proof (step_alike s s' m es b A) as H. cbn [steps]. destruct (step s _), (step s' _); try contradiction; cbn [bind]; auto.
  - destruct (step_quiet s ev E) as (s1 & -> & A1). cbn [bind]. apply IH. destruct A as (A & B & C), A1 as (A' & B' & C'). repeat split; congruence.
Qed.
Theorem process_schedule evs evs' : filter is_add evs = filter is_add evs' -> process evs = process evs'.
Proof.
  intros E. assert (A : alike new_state new_state) by (repeat split).
  pose proof (steps_filter evs _ _ A) as H. pose proof (steps_filter evs' _ _ A) as H'. rewrite <- E in H'. unfold process.
  destruct (steps new_state evs) as [s| |], (steps new_state (filter is_add evs)) as [t| |]; try contradiction;
  destruct (steps new_state evs') as [s'| |]; try contradiction; try reflexivity.
  cbn. f_equal. destruct H as (_ & _ & H), H' as (_ & _ & H'). unfold history in *. congruence.
Qed.
