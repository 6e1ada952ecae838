(** * Facts about maps as lists *)
From Verif.Base Require Import Base.
From Verif.OrdMap Require Import Spec.
Local Open Scope list_scope.

Section Facts.
Context {K V : Type} (cmp : K -> K -> comparison) (law : lawful cmp).
Implicit Types (l : list (K * V)) (k : K) (v : V).

Lemma cmp_refl x : cmp x x = Eq.
Proof. pose proof (cmp_sym cmp law x x) as H. destruct (cmp x x); auto; discriminate. Qed.

Lemma cmp_gt x y : cmp x y = Gt <-> cmp y x = Lt.
Proof. rewrite (cmp_sym cmp law x y). destruct (cmp x y); cbn; split; congruence. Qed.

Lemma cmp_eq_sym x y : cmp x y = Eq -> cmp y x = Eq.
Proof. intro E. now rewrite (cmp_sym cmp law x y), E. Qed.

Lemma cmp_eq_l x y z : cmp x y = Eq -> cmp x z = cmp y z.
Proof.
  intro E. destruct (cmp x z) eqn:XZ.
  - symmetry. eapply (cmp_trans cmp law); [apply cmp_eq_sym, E|exact XZ].
  - destruct (cmp y z) eqn:YZ; auto.
    + rewrite (cmp_trans cmp law Eq x y z E YZ) in XZ. discriminate.
    + apply cmp_gt in YZ. pose proof (cmp_trans cmp law Lt _ _ _ XZ YZ). congruence.
  - destruct (cmp y z) eqn:YZ; auto.
    + rewrite (cmp_trans cmp law Eq x y z E YZ) in XZ. discriminate.
    + apply cmp_gt in XZ. pose proof (cmp_trans cmp law Lt _ _ _ YZ XZ). apply cmp_eq_sym in E. congruence.
Qed.

Lemma cmp_eq_r x y z : cmp y z = Eq -> cmp x y = cmp x z.
Proof. intro E. rewrite (cmp_sym cmp law y x), (cmp_sym cmp law z x). f_equal. now apply cmp_eq_l. Qed.

(** Entries before and after a key. *)
Definition below k l : Prop := forall k' v, In (k', v) l -> cmp k k' = Gt.
Definition above k l : Prop := forall k' v, In (k', v) l -> cmp k k' = Lt.

Lemma below_nil k : below k []. Proof. intros ? ? []. Qed.
Lemma above_nil k : above k []. Proof. intros ? ? []. Qed.

Lemma below_app k l1 l2 : below k (l1 ++ l2) <-> below k l1 /\ below k l2.
Proof.
  unfold below. split; [intro H; split; intros; eapply H; apply in_or_app; eauto|].
  intros [H1 H2] k' v I. apply in_app_or in I as [I|I]; eauto.
Qed.

Lemma above_app k l1 l2 : above k (l1 ++ l2) <-> above k l1 /\ above k l2.
Proof.
  unfold above. split; [intro H; split; intros; eapply H; apply in_or_app; eauto|].
  intros [H1 H2] k' v I. apply in_app_or in I as [I|I]; eauto.
Qed.

Lemma below_cons k k' v l : below k ((k', v) :: l) <-> cmp k k' = Gt /\ below k l.
Proof.
  unfold below. split; [intro H; split; intros; eapply H; cbn; eauto|].
  intros [H1 H2] k2 v2 [I|I]; [congruence|eauto].
Qed.

Lemma above_cons k k' v l : above k ((k', v) :: l) <-> cmp k k' = Lt /\ above k l.
Proof.
  unfold above. split; [intro H; split; intros; eapply H; cbn; eauto|].
  intros [H1 H2] k2 v2 [I|I]; [congruence|eauto].
Qed.

Lemma above_trans k k' l : cmp k k' = Lt -> above k' l -> above k l.
Proof. intros L A k2 v2 I. eapply (cmp_trans cmp law Lt); eauto. Qed.

Lemma below_trans k k' l : cmp k k' = Gt -> below k' l -> below k l.
Proof. intros L A k2 v2 I. eapply (cmp_trans cmp law Gt); eauto. Qed.

Lemma increasing_cons k v l : increasing cmp ((k, v) :: l) <-> above k l /\ increasing cmp l.
Proof. reflexivity. Qed.

Lemma increasing_app l1 l2 : increasing cmp (l1 ++ l2) <->
  increasing cmp l1 /\ increasing cmp l2 /\ (forall k v, In (k, v) l1 -> above k l2).
Proof.
  induction l1 as [|[k v] l1 IH]; cbn [app].
  - split; [intro H; refine (conj _ (conj H _)); [exact Logic.I|intros ? ? []]|tauto].
  - rewrite !increasing_cons, above_app, IH. split.
    + intros ((A1 & A2) & I1 & I2 & H). refine (conj (conj A1 I1) (conj I2 _)). intros k2 v2 [E|I]; [injection E as <- <-; auto|eauto].
    + intros ((A1 & I1) & I2 & H). refine (conj (conj A1 _) (conj I1 (conj I2 _))); [|intros; eapply H; right; eauto].
      eapply H. left. reflexivity.
Qed.

Lemma increasing_mid l1 k v l2 : increasing cmp (l1 ++ (k, v) :: l2) <->
  increasing cmp l1 /\ increasing cmp l2 /\ below k l1 /\ above k l2.
Proof.
  rewrite increasing_app, increasing_cons. split.
  - intros (I1 & (A & I2) & H). refine (conj I1 (conj I2 (conj _ A))). intros k' v' I. apply cmp_gt. eapply H; eauto. left. reflexivity.
  - intros (I1 & I2 & BL & A). refine (conj I1 (conj (conj A I2) _)). intros k' v' I. apply above_cons.
    apply BL in I. apply cmp_gt in I. split; auto. eapply above_trans; eauto.
Qed.

(** ** Maps in parts *)

Lemma lookup_below k l1 l2 : below k l1 -> lookup cmp k (l1 ++ l2) = lookup cmp k l2.
Proof.
  induction l1 as [|[k' v] l1 IH]; intro BL; auto. apply below_cons in BL as [G BL]. cbn [app lookup]. rewrite G. auto.
Qed.

Lemma lookup_above k l : above k l -> lookup cmp k l = None.
Proof.
  induction l as [|[k' v] l IH]; intro A; auto. apply above_cons in A as [G A]. cbn [lookup]. rewrite G. auto.
Qed.

Lemma lookup_app_above k l1 l2 : above k l2 -> lookup cmp k (l1 ++ l2) = lookup cmp k l1.
Proof.
  intro A. induction l1 as [|[k' v] l1 IH]; [now apply lookup_above|]. cbn [app lookup]. now rewrite IH.
Qed.

Lemma lookup_mid k l1 l2 l3 : below k l1 -> above k l3 -> lookup cmp k (l1 ++ l2 ++ l3) = lookup cmp k l2.
Proof. intros. now rewrite lookup_below, lookup_app_above. Qed.

Lemma put_below b k v l1 l2 : below k l1 -> put cmp b k v (l1 ++ l2) = l1 ++ put cmp b k v l2.
Proof.
  induction l1 as [|[k' v'] l1 IH]; intro BL; auto. apply below_cons in BL as [G BL]. cbn [app put]. rewrite G. now rewrite IH.
Qed.

Lemma put_app_above b k v l1 l2 : above k l2 -> put cmp b k v (l1 ++ l2) = put cmp b k v l1 ++ l2.
Proof.
  intro A. induction l1 as [|[k' v'] l1 IH].
  - cbn [app put]. destruct l2 as [|[k2 v2] l2]; auto. apply above_cons in A as [G _]. cbn [put]. now rewrite G.
  - cbn [app put]. destruct (cmp k k'); auto. now rewrite IH.
Qed.

Lemma put_mid b k v l1 l2 l3 : below k l1 -> above k l3 ->
  put cmp b k v (l1 ++ l2 ++ l3) = l1 ++ put cmp b k v l2 ++ l3.
Proof. intros. now rewrite put_below, put_app_above. Qed.

Lemma del_below k l1 l2 : below k l1 -> del cmp k (l1 ++ l2) = l1 ++ del cmp k l2.
Proof.
  induction l1 as [|[k' v'] l1 IH]; intro BL; auto. apply below_cons in BL as [G BL]. cbn [app del]. rewrite G. now rewrite IH.
Qed.

Lemma del_above k l : above k l -> del cmp k l = l.
Proof.
  induction l as [|[k' v'] l IH]; intro A; auto. apply above_cons in A as [G A]. cbn [del]. rewrite G. now rewrite IH.
Qed.

Lemma del_app_above k l1 l2 : above k l2 -> del cmp k (l1 ++ l2) = del cmp k l1 ++ l2.
Proof.
  intro A. induction l1 as [|[k' v'] l1 IH]; [now apply del_above|]. cbn [app del]. destruct (cmp k k'); auto; now rewrite IH.
Qed.

Lemma del_mid k l1 l2 l3 : below k l1 -> above k l3 -> del cmp k (l1 ++ l2 ++ l3) = l1 ++ del cmp k l2 ++ l3.
Proof. intros. now rewrite del_below, del_app_above. Qed.

Lemma del_none k l : lookup cmp k l = None -> del cmp k l = l.
Proof.
  induction l as [|[k' v] l IH]; auto. cbn [lookup del]. destruct (cmp k k'); intro H; try discriminate; now rewrite IH.
Qed.

(** ** The laws of maps *)

Lemma in_put b k v l k' v' : In (k', v') (put cmp b k v l) -> (cmp k k' = Eq /\ v' = v) \/ In (k', v') l.
Proof.
  induction l as [|[k2 v2] l IH]; cbn [put].
  - intros [E|[]]. injection E as <- <-. left. now rewrite cmp_refl.
  - destruct (cmp k k2) eqn:C; cbn.
    + intros [E|I]; [|auto]. injection E as <- <-. left. destruct b; auto. now rewrite cmp_refl.
    + intros [E|I]; [|auto]. injection E as <- <-. left. now rewrite cmp_refl.
    + intros [E|I]; [auto|]. apply IH in I as [I|I]; auto.
Qed.

Lemma put_increasing b k v l : increasing cmp l -> increasing cmp (put cmp b k v l).
Proof.
  induction l as [|[k2 v2] l IH]; intro H.
  - split; [intros ? ? []|exact Logic.I].
  - pose proof H as H0. apply increasing_cons in H as [A H]. cbn [put]. destruct (cmp k k2) eqn:C; apply increasing_cons.
    + split; auto. destruct b; auto. intros k' v' I. rewrite (cmp_eq_l k k2 k' C). eauto.
    + split; [|exact H0]. apply above_cons. split; auto. eapply above_trans; eauto.
    + split; auto. intros k' v' I. apply in_put in I as [[E ->]|I]; [|eauto]. rewrite <- (cmp_eq_r k2 k k' E). now apply cmp_gt.
Qed.

Lemma in_del k l k' v' : In (k', v') (del cmp k l) -> In (k', v') l.
Proof.
  induction l as [|[k2 v2] l IH]; cbn [del]; auto. destruct (cmp k k2); cbn; auto; intros [E|I]; auto.
Qed.

Lemma del_increasing k l : increasing cmp l -> increasing cmp (del cmp k l).
Proof.
  induction l as [|[k2 v2] l IH]; auto. intro H. apply increasing_cons in H as [A H]. cbn [del]. destruct (cmp k k2); auto; apply increasing_cons.
  - split; auto. intros k' v' I. apply in_del in I. eauto.
  - split; auto. intros k' v' I. apply in_del in I. eauto.
Qed.

Lemma lookup_put b k v l k' : increasing cmp l ->
  lookup cmp k' (put cmp b k v l) = match cmp k' k with Eq => Some v | _ => lookup cmp k' l end.
Proof.
  induction l as [|[k2 v2] l IH]; intro H; cbn [put lookup].
  - now destruct (cmp k' k).
  - apply increasing_cons in H as [A H]. destruct (cmp k k2) eqn:C; cbn [lookup].
    + replace (cmp k' (if b then k2 else k)) with (cmp k' k2) by (destruct b; auto; symmetry; now apply cmp_eq_r).
      rewrite (cmp_eq_r k' k k2 C). now destruct (cmp k' k2).
    + destruct (cmp k' k) eqn:C2; auto.
    + rewrite IH by auto. destruct (cmp k' k2) eqn:C2; auto.
      rewrite (cmp_eq_l k' k2 k C2). rewrite (proj1 (cmp_gt k k2) C). reflexivity.
Qed.

Lemma lookup_del k l k' : increasing cmp l ->
  lookup cmp k' (del cmp k l) = match cmp k' k with Eq => None | _ => lookup cmp k' l end.
Proof.
  induction l as [|[k2 v2] l IH]; intro H; cbn [del lookup].
  - now destruct (cmp k' k).
  - apply increasing_cons in H as [A H]. destruct (cmp k k2) eqn:C; cbn [lookup].
    + rewrite (cmp_eq_r k' k k2 C). destruct (cmp k' k2) eqn:C2; auto. apply lookup_above. intros k3 v3 I. rewrite (cmp_eq_l k' k2 k3 C2). eauto.
    + rewrite IH by auto. destruct (cmp k' k2) eqn:C2; auto. rewrite (cmp_eq_l k' k2 k C2), (cmp_sym cmp law k k2), C. reflexivity.
    + rewrite IH by auto. destruct (cmp k' k2) eqn:C2; auto. rewrite (cmp_eq_l k' k2 k C2), (cmp_sym cmp law k k2), C. reflexivity.
Qed.

Lemma put_length b k v l : increasing cmp l ->
  List.length (put cmp b k v l) = match lookup cmp k l with Some _ => List.length l | None => S (List.length l) end.
Proof.
  induction l as [|[k2 v2] l IH]; intro H; auto. apply increasing_cons in H as [A H]. cbn [put lookup]. destruct (cmp k k2) eqn:C; cbn [List.length]; auto.
  - now rewrite lookup_above by (eapply above_trans; eauto).
  - rewrite IH by auto. now destruct (lookup cmp k l).
Qed.

Lemma del_length k l : List.length (del cmp k l) = match lookup cmp k l with Some _ => List.length l - 1 | None => List.length l end.
Proof.
  induction l as [|[k2 v2] l IH]; auto. cbn [del lookup]. destruct (cmp k k2); cbn [List.length]; [lia| |];
  rewrite IH; destruct (lookup cmp k l) eqn:E; auto; destruct l; try discriminate; cbn; lia.
Qed.

Lemma lookup_in k v l : increasing cmp l -> (exists k', cmp k k' = Eq /\ In (k', v) l) <-> lookup cmp k l = Some v.
Proof.
  intro H. induction l as [|[k2 v2] l IH]; cbn [lookup].
  - split; [intros (? & _ & [])|discriminate].
  - apply increasing_cons in H as [A H]. destruct (cmp k k2) eqn:C.
    + split.
      * intros (k' & E & [I|I]); [congruence|]. apply A in I. rewrite <- (cmp_eq_l k k2 k' C) in I. congruence.
      * intro Q. injection Q as ->. exists k2. split; auto. now left.
    + rewrite <- IH by auto. split; intros (k' & E & I); exists k'; split; auto; [destruct I; [congruence|auto]|now right].
    + rewrite <- IH by auto. split; intros (k' & E & I); exists k'; split; auto; [destruct I; [congruence|auto]|now right].
Qed.

End Facts.
