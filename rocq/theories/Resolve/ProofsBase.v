(** Computations in nested scopes, and what they compute. *)
From Verif.Base Require Import Base BaseFacts Assoc.
From Verif.Scope Require Import Model Spec Proofs.
From Verif.Resolve Require Import Model Spec.

(** The scopes stand for the environment. *)
Definition inv (s : scopes) (f : frames) (G : env) : Prop :=
  related s f /\ forall n, option_map construct (meaning n f) = G n.
(** [m] yields the one value with [P], if there is one, and leaves the scopes as they were. *)
Definition sem {A} (m : M A) (G : env) (P : A -> Prop) : Prop := forall s f, inv s f G ->
  exists s' r, m s = Ret (s', r) /\ match r with Good a => inv s' f G /\ forall b, P b <-> b = a | Bad _ => forall a, ~ P a end.

Lemma sem_ext {A} (m : M A) G (P Q : A -> Prop) : sem m G P -> (forall a, P a <-> Q a) -> sem m G Q.
Proof.
  intros H E s f Hi. destruct (H s f Hi) as (s' & r & Em & Hr). exists s', r. split; [exact Em|]. destruct r as [a|e].
  - destruct Hr as (Hi' & Hu). split; [exact Hi'|]. intros b. rewrite <- E. apply Hu.
  - intros a HQ. apply (Hr a), E, HQ.
Qed.
Lemma sem_ret {A} (a : A) G : sem (m_ret a) G (fun b => b = a).
Proof. intros s f Hi. exists s, (Good a). split; [reflexivity|]. split; [exact Hi|]. intros b. reflexivity. Qed.
Lemma sem_fail {A} e G : sem (@m_fail A e) G (fun _ => False).
Proof. intros s f Hi. exists s, (Bad e). split; [reflexivity|]. intros a H. exact H. Qed.
Lemma sem_bind {A B} (m : M A) (k : A -> M B) G (P : A -> Prop) (Q : A -> B -> Prop) :
  sem m G P -> (forall a, P a -> sem (k a) G (Q a)) -> sem (m_bind m k) G (fun b => exists a, P a /\ Q a b).
Proof.
  intros Hm Hk s f Hi. destruct (Hm s f Hi) as (s' & r & Em & Hr). unfold m_bind. rewrite Em. cbn [bind]. destruct r as [a|e].
  - destruct Hr as (Hi' & Hu). assert (Ha : P a) by (apply Hu; reflexivity). destruct (Hk a Ha s' f Hi') as (s'' & r & Ek & Hr). exists s'', r. split; [exact Ek|]. destruct r as [b|e].
    + destruct Hr as (Hi'' & Hv). split; [exact Hi''|]. intros c. rewrite <- Hv. split; [|intros H; exists a; split; assumption]. intros (a' & Ha' & H). apply Hu in Ha'. subst a'. exact H.
    + intros b (a' & Ha' & H). apply Hu in Ha'. subst a'. exact (Hr b H).
  - exists s', (Bad e). split; [reflexivity|]. intros b (a & Ha & _). exact (Hr a Ha).
Qed.
Lemma sem_bind_eq {A B} (m : M A) (k : A -> M B) G (P : Prop) a0 (Q : B -> Prop) :
  sem m G (fun a => P /\ a = a0) -> sem (k a0) G Q -> sem (m_bind m k) G (fun b => P /\ Q b).
Proof.
  intros Hm Hk. eapply sem_ext; [apply (sem_bind _ _ _ _ (fun _ => Q) Hm); intros a (_ & ->); exact Hk|]. intros b. split; [intros (a & (HP & _) & HQ); auto|]. intros (HP & HQ). exists a0. auto.
Qed.
Lemma sem_all {A B} (f : A -> M B) G (R : A -> B -> Prop) l : Forall (fun a => sem (f a) G (R a)) l -> sem (m_all f l) G (Forall2 R l).
Proof.
  intros H. induction H as [|a l Ha Hl IH]; cbn [m_all].
  - eapply sem_ext; [apply sem_ret|]. intros b. split; [intros ->; constructor|]. intros H. inversion H. reflexivity.
  - eapply sem_ext; [apply (sem_bind _ _ _ _ (fun b bs => exists l', Forall2 R l l' /\ bs = b :: l') Ha); intros b _; apply sem_bind with (1 := IH); intros bs _; apply sem_ret|].
    intros bs. cbn. split.
    + intros (b & Hb & l' & Hl' & ->). constructor; assumption.
    + intros H'. inversion H' as [|a' b l0 l' Hb Hl' E1 E2]; subst. exists b. split; [exact Hb|]. exists l'. split; [exact Hl'|reflexivity].
Qed.
Lemma sem_opt {A B} (f : A -> M B) G (R : A -> B -> Prop) o : (forall a, o = Some a -> sem (f a) G (R a)) -> sem (m_opt f o) G (optional R o).
Proof.
  intros H. destruct o as [a|]; cbn [m_opt].
  - eapply sem_ext; [apply (sem_bind _ _ _ _ (fun b c => c = Some b) (H a eq_refl)); intros b _; apply sem_ret|]. intros c. split.
    + intros (b & Hb & ->). constructor. exact Hb.
    + intros H'. inversion H' as [a' b Hb E1 E2|]; subst. exists b. split; [exact Hb|reflexivity].
  - eapply sem_ext; [apply sem_ret|]. intros c. split; [intros ->; constructor|]. intros H'. inversion H'. reflexivity.
Qed.

Section Order.
Variable order : stash -> stash.
Hypothesis Horder : forall st, Permutation (order st) st.

Lemma sem_get s what G : sem (m_get order s what) G (fun c => G (s_name s) = Some c).
Proof.
  intros sc f Hi. destruct Hi as (Hr & HG). unfold m_get. destruct (step_ok order Horder (Get (s_name s)) sc f Hr) as (sc' & E & Hr'). rewrite E. cbn [bind spec_step snd fst] in *. rewrite <- HG.
  destruct (meaning (s_name s) f) as [c|]; (do 2 eexists; split; [reflexivity|]); cbn [option_map].
  - split; [split; [apply Hr'; discriminate|exact HG]|]. intros b. split; [intros [= <-]; reflexivity|intros ->; reflexivity].
  - discriminate.
Qed.

Lemma named_some n bs : named n bs = None <-> ~ In n (names bs).
Proof.
  induction bs as [|b bs IH]; cbn; [tauto|]. destruct (text_eqb n (s_name (b_sym b))) eqn:E.
  - apply text_eqb_eq in E. split; [discriminate|]. intros H. exfalso. apply H. left. congruence.
  - rewrite IH. split; [|tauto]. intros H [H1|H1]; [|tauto]. rewrite H1, text_eqb_refl in E. discriminate.
Qed.
Lemma named_in n c bs : distinct bs -> named n bs = Some c <-> exists b, In b bs /\ s_name (b_sym b) = n /\ b_id b = c.
Proof.
  unfold distinct, names. induction bs as [|b bs IH]; cbn; intros HD; [split; [discriminate|intros (b & [] & _)]|]. inversion_clear HD as [|? ? Hn HD']. destruct (text_eqb n (s_name (b_sym b))) eqn:E.
  - apply text_eqb_eq in E. split; [intros [= <-]; exists b; auto|]. intros (b' & [->|Hb'] & En & Ec); [congruence|]. exfalso. apply Hn. rewrite <- E, <- En. apply (in_map (fun b => s_name (b_sym b))). exact Hb'.
  - rewrite (IH HD'). split; [intros (b' & Hb' & H); exists b'; split; [right; exact Hb'|exact H]|]. intros (b' & [->|Hb'] & En & Ec); [rewrite En, text_eqb_refl in E; discriminate|]. exists b'. auto.
Qed.
Lemma distinct_perm bs bs' : Permutation bs bs' -> distinct bs -> distinct bs'.
Proof. intros HP. unfold distinct, names. apply Permutation_NoDup, Permutation_map, HP. Qed.
Lemma named_perm n bs bs' : Permutation bs bs' -> distinct bs -> named n bs = named n bs'.
Proof.
  intros HP HD. assert (HD' := distinct_perm _ _ HP HD). destruct (named n bs) as [c|] eqn:E.
  - symmetry. apply (named_in n c bs' HD'). apply (named_in n c bs HD) in E. destruct E as (b & Hb & H). exists b. split; [|exact H]. eapply Permutation_in; eassumption.
  - symmetry. apply named_some. apply named_some in E. intros H. apply E. unfold names in *. eapply Permutation_in; [apply Permutation_sym, Permutation_map, HP|exact H].
Qed.

(** One binding after another. *)
Lemma defines_ok bs : forall s tp f0 fs,
  related s {| top := tp; inner := f0 :: fs |} ->
  exists s' r, defines order bs s = Ret (s', r) /\
  match r with
  | Good _ => (NoDup (names bs) /\ forall n, In n (names bs) -> find_in n f0 = None) /\
      exists f1, related s' {| top := tp; inner := f1 :: fs |} /\
        forall n, option_map construct (find_in n f1) = match named n bs with Some c => Some c | None => option_map construct (find_in n f0) end
  | Bad _ => ~ (NoDup (names bs) /\ forall n, In n (names bs) -> find_in n f0 = None)
  end.
Proof.
  induction bs as [|b bs IH]; intros s tp f0 fs Hr; cbn [defines].
  - exists s, (Good tt). split; [reflexivity|]. split; [split; [constructor|intros n []]|]. exists f0. split; [exact Hr|]. intros n. reflexivity.
  - set (c := {| loc := s_loc (b_sym b); construct := b_id b |}). destruct (step_ok order Horder (Define (s_name (b_sym b)) c) s _ Hr) as (s1 & E & Hs). rewrite E. clear E. cbn [bind].
    cbn [spec_step inner top fst snd] in *. destruct (find_in (s_name (b_sym b)) f0) as [old|] eqn:Ef; cbn [snd].
    + do 2 eexists. split; [reflexivity|]. cbn beta iota. intros (_ & H). specialize (H (s_name (b_sym b)) (or_introl eq_refl)). rewrite Ef in H. discriminate.
    + specialize (Hs ltac:(discriminate)). destruct (IH s1 tp ((s_name (b_sym b), c) :: f0) fs Hs) as (s2 & r & E & H). exists s2, r. split; [exact E|].
      assert (Hiff : (NoDup (names bs) /\ (forall n, In n (names bs) -> find_in n ((s_name (b_sym b), c) :: f0) = None)) <->
                     (NoDup (names (b :: bs)) /\ (forall n, In n (names (b :: bs)) -> find_in n f0 = None))).
      { cbn [names map find_in]. split.
        - intros (H1 & H2). split.
          + constructor; [|exact H1]. intros Hin. specialize (H2 _ Hin). rewrite text_eqb_refl in H2. discriminate.
          + intros n [<-|Hin]; [exact Ef|]. specialize (H2 n Hin). destruct (text_eqb n (s_name (b_sym b))); [discriminate|exact H2].
        - intros (H1 & H2). inversion_clear H1 as [|? ? Hn H1']. split; [exact H1'|]. intros n Hin. destruct (text_eqb n (s_name (b_sym b))) eqn:E2; [apply text_eqb_eq in E2; subst n; contradiction|]. apply H2. right. exact Hin. }
      destruct r as [u|e].
      * destruct H as (H & f1 & Hr1 & Hf1). split; [apply Hiff, H|]. exists f1. split; [exact Hr1|]. intros n. rewrite Hf1. cbn [named find_in]. apply Hiff in H. destruct H as (H & _). cbn [names map] in H. inversion_clear H as [|? ? Hn _].
        destruct (text_eqb n (s_name (b_sym b))) eqn:E2; [|reflexivity]. apply text_eqb_eq in E2. subst n. destruct (named (s_name (b_sym b)) bs) eqn:E3; [|reflexivity]. exfalso. apply Hn.
        destruct (in_dec (list_eq_dec N.eq_dec) (s_name (b_sym b)) (names bs)) as [Hi|Hi]; [exact Hi|]. apply named_some in Hi. rewrite E3 in Hi. discriminate.
      * intros H'. apply H, Hiff, H'.
Qed.

Lemma sem_on {A} bs bs' (m : M A) G P : Permutation bs bs' -> sem m (within bs' G) P -> sem (m_on order bs m) G (fun a => distinct bs' /\ P a).
Proof.
  intros HP Hm s f (Hr & HG). unfold m_on. destruct (step_ok order Horder Enter s f Hr) as (s1 & E & Hs). rewrite E. clear E. cbn [bind spec_step fst snd] in *. specialize (Hs ltac:(discriminate)).
  destruct (defines_ok bs s1 (top f) [] (inner f) Hs) as (s2 & r & E & H). unfold m_bind. rewrite E. clear E. cbn [bind]. destruct r as [u|e].
  - destruct H as ((HD & _) & f1 & Hr2 & Hf1).
    assert (Hi : inv s2 {| top := top f; inner := f1 :: inner f |} (within bs' G)).
    { split; [exact Hr2|]. intros n. unfold meaning, within. cbn [inner meaning_in top]. rewrite <- (named_perm n bs bs' HP HD). specialize (Hf1 n). destruct (find_in n f1) as [c|]; cbn [option_map find_in] in *.
      - destruct (named n bs); [exact Hf1|discriminate].
      - destruct (named n bs); [discriminate|]. apply HG. }
    destruct (Hm _ _ Hi) as (s3 & r & E & H). rewrite E. clear E. cbn [bind]. destruct r as [a|e].
    + destruct H as ((Hr3 & _) & Hu). destruct (step_ok order Horder Leave s3 _ Hr3) as (s4 & E & Hs4). rewrite E. clear E. cbn [bind spec_step fst snd tl inner top] in *. specialize (Hs4 ltac:(discriminate)).
      do 2 eexists. split; [reflexivity|]. cbn beta iota. split; [split; [destruct f; exact Hs4|exact HG]|]. intros b. rewrite <- Hu. split; [tauto|]. intros HPb. split; [exact (distinct_perm _ _ HP HD)|exact HPb].
    + destruct (stashes s3) eqn:Es; cbn [step]; rewrite Es; cbn [bind]; (do 2 eexists; split; [reflexivity|]); intros a (_ & Ha); exact (H a Ha).
  - cbn [bind]. destruct (stashes s2) eqn:Es; cbn [step]; rewrite Es; cbn [bind]; (do 2 eexists; split; [reflexivity|]); intros a (Ha & _); apply H; (split; [apply (distinct_perm _ _ (Permutation_sym HP)), Ha|intros n _; reflexivity]).
Qed.
End Order.
