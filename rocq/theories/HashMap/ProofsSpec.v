(** * Facts about lists of entries with distinct keys *)
From Coq Require Import Permutation.
From Verif.Base Require Import Base Buf BufFacts.
From Verif.HashMap Require Import Model Spec ProofsArith Proofs.
Local Open Scope N_scope.
Local Open Scope list_scope.

Section Lists.
Context {K V : Type} (eqk : K -> K -> bool) (hash : K -> N).
Hypothesis L : lawful eqk hash.
Implicit Types (l x y a b : list (K * V)) (k : K) (v : V).

Lemma value_of_cons k k' v l : value_of eqk k ((k', v) :: l) = if eqk k k' then Some v else value_of eqk k l.
Proof. unfold value_of; cbn [find fst]; destruct (eqk k k'); reflexivity. Qed.
Lemma value_of_none k l : value_of eqk k l = None <-> forall e, In e l -> eqk k (fst e) = false.
Proof.
  induction l as [|[k' v] l IH]; [split; [intros _ e []|reflexivity]|].
  rewrite value_of_cons; destruct (eqk k k') eqn:E.
  - split; [discriminate|]; intros H; specialize (H (k', v) (or_introl eq_refl)); cbn in H; congruence.
  - rewrite IH; split; [intros H e [<-|I]; [exact E|exact (H e I)]|intros H e I; apply H; now right].
Qed.
Lemma value_of_eqk k k' l : eqk k k' = true -> value_of eqk k l = value_of eqk k' l.
Proof.
  intros E; induction l as [|[k2 v] l IH]; [reflexivity|]; rewrite !value_of_cons, IH.
  replace (eqk k' k2) with (eqk k k2); [reflexivity|].
  destruct (eqk k k2) eqn:E1, (eqk k' k2) eqn:E2; try reflexivity.
  - rewrite (eqk_trans _ _ L k' k k2 (eqk_sym _ _ L _ _ E) E1) in E2; discriminate.
  - rewrite (eqk_trans _ _ L k k' k2 E E2) in E1; discriminate.
Qed.
Lemma distinct_perm l l' : Permutation l l' -> distinct eqk l -> distinct eqk l'.
Proof.
  induction 1 as [|[k v] l l' P IH|[k v] [k' v'] l|l l2 l3 P1 IH1 P2 IH2]; cbn [distinct]; try tauto.
  - intros [H D]; split; [|apply IH, D].
    rewrite value_of_none in *; intros e I; apply H; eapply Permutation_in; [symmetry; exact P|exact I].
  - rewrite !value_of_cons; rewrite (eqk_comm _ _ L k' k); destruct (eqk k k') eqn:E; intuition; discriminate.
Qed.
Lemma value_of_perm k l l' : Permutation l l' -> distinct eqk l -> value_of eqk k l = value_of eqk k l'.
Proof.
  induction 1 as [|[k1 v1] l l' P IH|[k1 v1] [k2 v2] l|l l2 l3 P1 IH1 P2 IH2]; cbn [distinct]; intros D; rewrite ?value_of_cons.
  - reflexivity.
  - rewrite IH by apply D; reflexivity.
  - destruct (eqk k k1) eqn:E1, (eqk k k2) eqn:E2; try reflexivity.
    destruct D as [D _]; rewrite value_of_cons in D.
    rewrite (eqk_trans _ _ L k2 k k1 (eqk_sym _ _ L _ _ E2) E1) in D; discriminate.
  - rewrite IH1 by exact D; apply IH2; eapply distinct_perm; eassumption.
Qed.
Lemma value_of_in k k' v l : distinct eqk l -> In (k', v) l -> eqk k k' = true -> value_of eqk k l = Some v.
Proof.
  intros D I E; apply in_split in I as (x & y & ->).
  rewrite (value_of_perm _ _ ((k', v) :: x ++ y)) by (auto using Permutation_sym, Permutation_middle).
  rewrite value_of_cons, E; reflexivity.
Qed.
Lemma put_absent k v l : value_of eqk k l = None -> put eqk k v l = l ++ [(k, v)].
Proof.
  induction l as [|[k' v'] l IH]; [reflexivity|]; rewrite value_of_cons; cbn [put app].
  destruct (eqk k k'); [discriminate|]; intros H; now rewrite IH.
Qed.
Lemma put_mid k v k' v' x y : value_of eqk k x = None -> eqk k k' = true -> put eqk k v (x ++ (k', v') :: y) = x ++ (k', v) :: y.
Proof.
  induction x as [|[k1 v1] x IH]; cbn [app put]; [intros _ ->; reflexivity|].
  rewrite value_of_cons; destruct (eqk k k1); [discriminate|]; intros H E; now rewrite IH.
Qed.
Lemma put_perm k v l l' : Permutation l l' -> distinct eqk l -> Permutation (put eqk k v l) (put eqk k v l').
Proof.
  induction 1 as [|[k1 v1] l l' P IH|[k1 v1] [k2 v2] l|l l2 l3 P1 IH1 P2 IH2]; cbn [distinct put]; intros D.
  - reflexivity.
  - destruct (eqk k k1); [now constructor|]; constructor; apply IH, D.
  - destruct (eqk k k1) eqn:E1, (eqk k k2) eqn:E2; try apply perm_swap.
    destruct D as [D _]; rewrite value_of_cons in D.
    rewrite (eqk_trans _ _ L k2 k k1 (eqk_sym _ _ L _ _ E2) E1) in D; discriminate.
  - etransitivity; [apply IH1, D|apply IH2; eapply distinct_perm; eassumption].
Qed.
Lemma value_of_app_none k x y : value_of eqk k (x ++ y) = None <-> value_of eqk k x = None /\ value_of eqk k y = None.
Proof.
  rewrite !value_of_none; split.
  - intros H; split; intros e I; apply H, in_app_iff; tauto.
  - intros [H1 H2] e I; apply in_app_iff in I as [I|I]; auto.
Qed.
Lemma distinct_app x y : distinct eqk (x ++ y) -> distinct eqk x.
Proof.
  induction x as [|[k v] x IH]; cbn [app distinct]; [tauto|].
  intros [H D]; apply value_of_app_none in H; tauto.
Qed.
Lemma distinct_mid x k v y : distinct eqk (x ++ (k, v) :: y) <-> distinct eqk (x ++ y) /\ value_of eqk k (x ++ y) = None.
Proof.
  split.
  - intros D; apply (distinct_perm _ ((k, v) :: x ++ y)) in D; [cbn [distinct] in D; tauto|symmetry; apply Permutation_middle].
  - intros [D H]; apply (distinct_perm ((k, v) :: x ++ y)); [apply Permutation_middle|]; cbn [distinct]; tauto.
Qed.
Lemma distinct_put k v l : distinct eqk l -> distinct eqk (put eqk k v l).
Proof.
  induction l as [|[k' v'] l IH]; cbn [put distinct]; [tauto|].
  intros [H D]; destruct (eqk k k') eqn:E; cbn [distinct]; [tauto|split; [|apply IH, D]].
  assert (G : value_of eqk k' (put eqk k v l) = value_of eqk k' l); [|congruence].
  clear H D IH; induction l as [|[k2 v2] l IH]; cbn [put].
  - rewrite value_of_cons, (eqk_comm _ _ L k' k), E; reflexivity.
  - destruct (eqk k k2) eqn:E2; rewrite !value_of_cons; [|now rewrite IH].
    destruct (eqk k' k2) eqn:E3; [|reflexivity].
    rewrite (eqk_trans _ _ L k k2 k' E2 (eqk_sym _ _ L _ _ E3)) in E; discriminate.
Qed.

Lemma lookup_put_ k k' v l : value_of eqk k' (put eqk k v l) = if eqk k' k then Some v else value_of eqk k' l.
Proof.
  induction l as [|[k2 v2] l IH]; cbn [put]; rewrite ?value_of_cons; [reflexivity|].
  destruct (eqk k k2) eqn:E; rewrite value_of_cons.
  - destruct (eqk k' k2) eqn:E2, (eqk k' k) eqn:E3; try reflexivity.
    + rewrite (eqk_trans _ _ L k' k2 k E2 (eqk_sym _ _ L _ _ E)) in E3; discriminate.
    + rewrite (eqk_trans _ _ L k' k k2 E3 E) in E2; discriminate.
  - rewrite IH; destruct (eqk k' k2) eqn:E2, (eqk k' k) eqn:E3; try reflexivity.
    rewrite (eqk_trans _ _ L k k' k2 (eqk_sym _ _ L _ _ E3) E2) in E; discriminate.
Qed.
Lemma lookup_del_ k k' l : value_of eqk k' (del eqk k l) = if eqk k' k then None else value_of eqk k' l.
Proof.
  induction l as [|[k2 v2] l IH]; [cbn; destruct (eqk k' k); reflexivity|]; cbn [del filter fst]; fold (del eqk k l).
  destruct (eqk k k2) eqn:E; cbn [negb]; rewrite ?value_of_cons, IH.
  - destruct (eqk k' k2) eqn:E2, (eqk k' k) eqn:E3; try reflexivity.
    rewrite (eqk_trans _ _ L k' k2 k E2 (eqk_sym _ _ L _ _ E)) in E3; discriminate.
  - destruct (eqk k' k2) eqn:E2, (eqk k' k) eqn:E3; try reflexivity.
    rewrite (eqk_trans _ _ L k k' k2 (eqk_sym _ _ L _ _ E3) E2) in E; discriminate.
Qed.
Lemma del_perm k l l' : Permutation l l' -> Permutation (del eqk k l) (del eqk k l').
Proof.
  induction 1 as [|e l l' P IH|e e' l|l l2 l3 P1 IH1 P2 IH2]; cbn [del filter].
  - reflexivity.
  - destruct (eqk k (fst e)); cbn [negb]; [exact IH|now constructor].
  - destruct (eqk k (fst e)), (eqk k (fst e')); cbn [negb]; try reflexivity; apply perm_swap.
  - etransitivity; eassumption.
Qed.
Lemma del_absent k l : value_of eqk k l = None -> del eqk k l = l.
Proof.
  induction l as [|[k' v'] l IH]; [reflexivity|]; rewrite value_of_cons; cbn [del filter fst]; fold (del eqk k l).
  destruct (eqk k k'); [discriminate|]; intros H; cbn [negb]; now rewrite IH.
Qed.
Lemma distinct_del k l : distinct eqk l -> distinct eqk (del eqk k l).
Proof.
  induction l as [|[k' v'] l IH]; [cbn; tauto|]; cbn [del filter fst distinct]; fold (del eqk k l).
  intros [H D]; destruct (eqk k k') eqn:E; cbn [negb distinct]; [apply IH, D|]; split; [|apply IH, D].
  rewrite lookup_del_, H; destruct (eqk k' k); reflexivity.
Qed.

Lemma equal_perm eqv a a' b b' : Permutation a a' -> Permutation b b' -> distinct eqk b -> equal eqk eqv a b = equal eqk eqv a' b'.
Proof.
  intros Pa Pb D; unfold equal.
  rewrite (Permutation_length Pa), (Permutation_length Pb); f_equal.
  assert (G : forall e : K * V, (match value_of eqk (fst e) b with Some w => eqv (snd e) w | None => false end) =
                      (match value_of eqk (fst e) b' with Some w => eqv (snd e) w | None => false end)).
  { intros e; rewrite (value_of_perm _ _ _ Pb D); reflexivity. }
  apply eq_true_iff_eq; rewrite !forallb_forall; split; intros H e I.
  - rewrite <- G; apply H; eapply Permutation_in; [symmetry; exact Pa|exact I].
  - rewrite G; apply H; eapply Permutation_in; [exact Pa|exact I].
Qed.

Lemma distinct_map (dk : K -> K) (dv : V -> V) l : (forall k, eqk k (dk k) = true) -> distinct eqk l -> distinct eqk (map (fun e => (dk (fst e), dv (snd e))) l).
Proof.
  intros H; induction l as [|[k v] l IH]; cbn [map distinct fst snd]; [tauto|]; intros [N D]; split; [|apply IH, D].
  rewrite value_of_none in *; intros e I; apply in_map_iff in I as ([k' v'] & <- & I); cbn [fst].
  destruct (eqk (dk k) (dk k')) eqn:E; [|reflexivity]; specialize (N _ I); cbn in N; rewrite <- N; symmetry.
  apply (eqk_trans _ _ L _ _ _ (H k)), (eqk_trans _ _ L _ _ _ E), (eqk_sym _ _ L), H.
Qed.

(** Two maps are equal when they have the same keys with equal values. *)
Lemma equal_exact_ eqv a b : distinct eqk a -> distinct eqk b ->
  (equal eqk eqv a b = true <->
   forall k, match value_of eqk k a, value_of eqk k b with Some x, Some y => eqv x y = true | None, None => True | _, _ => False end).
Proof.
  intros Da Db; unfold equal; rewrite andb_true_iff, Nat.eqb_eq, forallb_forall; split.
  - revert b Db; induction a as [|[k v] a IH]; intros b Db [Le H] k0.
    + destruct b; [exact I|discriminate].
    + pose proof (H (k, v) (or_introl eq_refl)) as H0; cbn [fst snd] in H0.
      destruct (value_of eqk k b) as [w|] eqn:Eb; [|discriminate].
      assert (Sp : exists k' x y, b = x ++ (k', w) :: y /\ eqk k k' = true).
      { unfold value_of in Eb; destruct (find _ b) as [[k' w']|] eqn:F; [|discriminate]; injection Eb as <-.
        apply find_some in F as [F1 F2]; apply in_split in F1 as (x & y & ->); exists k', x, y; now split. }
      destruct Sp as (k' & x & y & -> & Ek).
      apply distinct_mid in Db as [Db Nb]; destruct Da as [Na Da].
      specialize (IH Da (x ++ y) Db).
      assert (P : Permutation (x ++ (k', w) :: y) ((k', w) :: x ++ y)) by (symmetry; apply Permutation_middle).
      assert (Dp : distinct eqk (x ++ (k', w) :: y)) by (apply distinct_mid; now split).
      rewrite (value_of_perm _ _ _ P Dp), !value_of_cons.
      assert (Same : eqk k0 k = eqk k0 k').
      { destruct (eqk k0 k) eqn:E1, (eqk k0 k') eqn:E2; try reflexivity.
        - rewrite (eqk_trans _ _ L _ _ _ E1 Ek) in E2; discriminate.
        - rewrite (eqk_trans _ _ L _ _ _ E2 (eqk_sym _ _ L _ _ Ek)) in E1; discriminate. }
      rewrite <- Same; destruct (eqk k0 k) eqn:E; [exact H0|].
      apply IH; split; [rewrite app_length in *; cbn [List.length] in Le; lia|].
      intros [k2 v2] I2; specialize (H (k2, v2) (or_intror I2)); cbn [fst snd] in *.
      rewrite (value_of_perm _ _ _ P Dp), value_of_cons in H.
      destruct (eqk k2 k') eqn:E2; [|exact H]; exfalso.
      rewrite value_of_none in Na; specialize (Na _ I2); cbn in Na.
      rewrite (eqk_trans _ _ L _ _ _ Ek (eqk_sym _ _ L _ _ E2)) in Na; discriminate.
  - intros H; split.
    + revert b Db H; induction a as [|[k v] a IH]; intros b Db H.
      * destruct b as [|[k v] b]; [reflexivity|]; specialize (H k); rewrite value_of_cons, (eqk_refl _ _ L) in H; contradiction.
      * pose proof (H k) as H0; rewrite value_of_cons, (eqk_refl _ _ L) in H0.
        destruct (value_of eqk k b) as [w|] eqn:Eb; [|contradiction].
        assert (Sp : exists k' x y, b = x ++ (k', w) :: y /\ eqk k k' = true).
        { unfold value_of in Eb; destruct (find _ b) as [[k' w']|] eqn:F; [|discriminate]; injection Eb as <-.
          apply find_some in F as [F1 F2]; apply in_split in F1 as (x & y & ->); exists k', x, y; now split. }
        destruct Sp as (k' & x & y & -> & Ek).
        pose proof Db as Dp; apply distinct_mid in Db as [Db Nb]; destruct Da as [Na Da].
        assert (P : Permutation (x ++ (k', w) :: y) ((k', w) :: x ++ y)) by (symmetry; apply Permutation_middle).
        rewrite (Permutation_length P); cbn [List.length]; f_equal; apply IH; try assumption.
        intros k0; specialize (H k0); rewrite (value_of_perm _ _ _ P Dp), !value_of_cons in H.
        destruct (eqk k0 k) eqn:E1.
        -- rewrite (value_of_eqk k0 k) by exact E1; rewrite Na.
           rewrite (value_of_eqk k0 k') by (eapply (eqk_trans _ _ L); eassumption); rewrite Nb; exact I.
        -- destruct (eqk k0 k') eqn:E2; [|exact H].
           rewrite (eqk_trans _ _ L _ _ _ E2 (eqk_sym _ _ L _ _ Ek)) in E1; discriminate.
    + intros [k v] I; specialize (H k); cbn [fst snd].
      rewrite (value_of_in k k v a Da I (eqk_refl _ _ L k)) in H; destruct (value_of eqk k b); [exact H|contradiction].
Qed.

End Lists.
