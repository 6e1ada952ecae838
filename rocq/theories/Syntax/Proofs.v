(** Proofs about the builder of syntax trees: the framework, and macro expansion. *)
From Verif.Base Require Import Base.
From Verif.Sexp Require Import Model.
From Verif.Syntax Require Import Model Spec.
From Coq Require Import Permutation.

Lemma eqb_text a : forall b, text_eqb a b = true <-> a = b.
Proof.
  induction a as [|x a IH]; intros [|y b]; cbn [text_eqb]; split; intro H; try discriminate; try reflexivity.
  - apply andb_true_iff in H. destruct H as [Hx H]. apply N.eqb_eq in Hx. apply IH in H. congruence.
  - injection H as -> ->. apply andb_true_iff. split; [apply N.eqb_refl | apply IH; reflexivity].
Qed.
Lemma eqb_text_refl a : text_eqb a a = true.
Proof. apply eqb_text. reflexivity. Qed.
Lemma eqb_text_no a b : text_eqb a b = false <-> a <> b.
Proof. rewrite <- not_true_iff_false, eqb_text. tauto. Qed.

Lemma split_last_app {A} (l : list A) z : split_last (l ++ [z]) = Some (l, z).
Proof. induction l as [|a l IH]; cbn; [reflexivity | rewrite IH; reflexivity]. Qed.
Lemma split_last_some {A} (l : list A) i z : split_last l = Some (i, z) -> l = i ++ [z].
Proof.
  revert i; induction l as [|a l IH]; intros i; cbn; [discriminate|].
  destruct (split_last l) as [[i' z']|] eqn:E; intro H; injection H as <- <-.
  - cbn. f_equal. apply IH. reflexivity.
  - destruct l as [|b l]; [reflexivity|]. cbn in E. destruct (split_last l) as [[? ?]|]; discriminate.
Qed.
Lemma split_last_none {A} (l : list A) : split_last l = None -> l = [].
Proof. destruct l as [|a l]; [reflexivity|]. cbn. destruct (split_last l) as [[? ?]|]; discriminate. Qed.

(** * What a computation is specified to do *)
Lemma fresh_perm c c' l l' : Permutation l l' -> fresh c c' l -> fresh c c' l'.
Proof.
  intros P [H1 H2]. split.
  - eapply Permutation_NoDup; eassumption.
  - rewrite Forall_forall in *. intros x Hx. apply H2. eapply Permutation_in; [apply Permutation_sym; exact P | exact Hx].
Qed.
Lemma fresh_app c0 c c' l l' : (c0 <= c)%N -> (c <= c')%N -> fresh c0 c l -> fresh c c' l' -> fresh c0 c' (l' ++ l).
Proof.
  intros H0 H1 [A1 A2] [B1 B2]. rewrite Forall_forall in *. split.
  - assert (D : forall x, In x l' -> ~ In x l) by (intros x Hx Hy; specialize (A2 x Hy); specialize (B2 x Hx); cbn in *; lia).
    clear - A1 B1 D. induction l' as [|a l' IH]; cbn; [exact A1|].
    inversion_clear B1 as [|? ? N1 N2]. constructor.
    + rewrite in_app_iff. intros [E|E]; [exact (N1 E) | exact (D a (or_introl eq_refl) E)].
    + apply IH; [exact N2 | intros x Hx; apply D; right; exact Hx].
  - apply Forall_forall. intros x Hx. apply in_app_iff in Hx. destruct Hx as [Hx|Hx]; [specialize (B2 x Hx) | specialize (A2 x Hx)]; cbn in *; lia.
Qed.
Lemma fresh_le c0 c c' l : (c <= c')%N -> fresh c0 c l -> fresh c0 c' l.
Proof. intros H [A B]. split; [exact A|]. eapply Forall_impl; [|exact B]. cbn. intros; lia. Qed.

(** A value built satisfies [Q], and its ids are fresh, given those of [acc]; if it is refused, no value
    satisfies [Q]. *)
Definition spec_from {A} (acc : list N) (m : M A) (Q : A -> Prop) (ids : A -> list N) : Prop :=
  forall c0 c, (c0 <= c)%N -> fresh c0 c acc ->
  match m c with
  | Ret (c', Built a) => Q a /\ (c <= c')%N /\ fresh c0 c' (ids a)
  | Ret (_, Refused _) => forall a, ~ Q a
  | _ => True
  end.
Notation spec := (spec_from []).
Definition none {A} (_ : A) : list N := [].

Lemma spec_ret {A} acc (a : A) (Q : A -> Prop) ids : Q a -> Permutation acc (ids a) -> spec_from acc (ret a) Q ids.
Proof. intros H P c0 c Hc F. cbn. split; [exact H|]. split; [lia|]. eapply fresh_perm; eassumption. Qed.
Lemma spec_refuse {A} acc e (Q : A -> Prop) ids : (forall a, ~ Q a) -> spec_from acc (refuse e) Q ids.
Proof. intros H c0 c Hc F. exact H. Qed.
Lemma spec_panic {A} acc (Q : A -> Prop) ids : spec_from acc panic Q ids.
Proof. intros c0 c Hc F. exact I. Qed.
Lemma spec_tired {A} acc (Q : A -> Prop) ids : spec_from acc tired Q ids.
Proof. intros c0 c Hc F. exact I. Qed.
Lemma spec_bind {A B} acc (m : M A) (k : A -> M B) P i Q ids :
  spec m P i -> ((forall a, ~ P a) -> forall b, ~ Q b) ->
  (forall a, P a -> spec_from (i a ++ acc) (k a) Q ids) -> spec_from acc (andthen m k) Q ids.
Proof.
  intros Hm Hn Hk c0 c Hc F. unfold andthen.
  assert (F0 : fresh c c []) by (split; constructor).
  specialize (Hm c c (N.le_refl c) F0). destruct (m c) as [[c1 [a|e]]| |]; cbn [bind]; [|exact (Hn Hm)|exact I|exact I].
  destruct Hm as [Ha [H1 F1]].
  assert (F2 : fresh c0 c1 (i a ++ acc)) by (eapply fresh_app; eassumption).
  assert (H2 : (c0 <= c1)%N) by lia.
  specialize (Hk a Ha c0 c1 H2 F2).
  destruct (k a c1) as [[c2 [b|e]]| |]; [|exact Hk|exact I|exact I].
  destruct Hk as [Hq [H3 F3]]. split; [exact Hq|]. split; [lia|exact F3].
Qed.
Lemma spec_iff {A} acc (m : M A) (Q Q' : A -> Prop) ids : (forall a, Q a <-> Q' a) -> spec_from acc m Q' ids -> spec_from acc m Q ids.
Proof.
  intros E H c0 c Hc F. specialize (H c0 c Hc F). destruct (m c) as [[c1 [a|e]]| |]; try exact I.
  - destruct H as [H1 H2]. split; [apply E; exact H1 | exact H2].
  - intros a Ha. apply (H a). apply E. exact Ha.
Qed.
Lemma spec_tail {A} acc (m : M A) (Q : A -> Prop) i ids :
  spec m Q i -> (forall b, Permutation (i b ++ acc) (ids b)) -> spec_from acc m Q ids.
Proof.
  intros Hm P c0 c Hc F.
  assert (F0 : fresh c c []) by (split; constructor).
  specialize (Hm c c (N.le_refl c) F0). destruct (m c) as [[c1 [a|e]]| |]; [|exact Hm|exact I|exact I].
  destruct Hm as [Ha [H1 F1]]. split; [exact Ha|]. split; [exact H1|].
  eapply fresh_perm; [apply P|]. eapply fresh_app; eassumption.
Qed.
Lemma spec_next : spec next (fun _ => True) (fun i => [i]).
Proof.
  intros c0 c Hc F. cbn. split; [exact I|]. split; [lia|]. split; [constructor; [intros []|constructor] | constructor; [lia|constructor]].
Qed.
Lemma spec_step {A} acc (k : N -> M A) Q ids : (forall i, spec_from acc (k i) Q ids) -> spec_from acc (andthen next k) Q ids.
Proof.
  intros H c0 c Hc F. unfold andthen, next. cbn [bind].
  assert (F' : fresh c0 (N.succ c) acc) by (eapply fresh_le; [|exact F]; lia).
  assert (H' : (c0 <= N.succ c)%N) by lia.
  specialize (H (N.succ c) c0 (N.succ c) H' F').
  destruct (k (N.succ c) (N.succ c)) as [[c2 [b|e]]| |]; [|exact H|exact I|exact I].
  destruct H as [Hq [H3 F3]]. split; [exact Hq|]. split; [lia|exact F3].
Qed.
Lemma spec_declare s : spec (declare s) (fun b => b_sym b = s) (fun b => [b_id b]).
Proof.
  unfold declare. apply spec_bind with (P := fun _ => True) (i := fun i => [i]); [apply spec_next | intros H; destruct (H 0%N I) |].
  intros i _. apply spec_ret; [reflexivity | apply Permutation_refl].
Qed.
Lemma spec_lift {A} (r : A + error) : spec (lift r) (fun a => r = inl a) none.
Proof. destruct r as [a|e]; [apply spec_ret; reflexivity | apply spec_refuse; discriminate]. Qed.

Ltac perm :=
  apply (Permutation_count_occ N.eq_dec); let x := fresh "x" in intro x;
  cbn [none ids_opt flat_map app map fst snd]; rewrite ?app_nil_r;
  repeat match goal with |- context [count_occ _ (?a :: ?l) _] => lazymatch l with [] => fail | _ => change (a :: l) with ([a] ++ l) end end;
  rewrite ?count_occ_app; lia.

Lemma spec_all {A B} (f : A -> M B) (R : A -> B -> Prop) i l :
  (forall a, In a l -> spec (f a) (R a) i) -> spec (all f l) (Forall2 R l) (flat_map i).
Proof.
  induction l as [|a l IH]; intros H.
  - cbn. apply spec_ret; [constructor | reflexivity].
  - cbn [all]. apply spec_bind with (P := R a) (i := i).
    + apply H. left. reflexivity.
    + intros N bs Hb. inversion Hb as [|? b ? ? Hr]. exact (N b Hr).
    + intros b Hb. apply spec_bind with (P := Forall2 R l) (i := flat_map i).
      * apply IH. intros x Hx. apply H. right. exact Hx.
      * intros N bs Hbs. inversion Hbs as [|? ? ? l' ? Hr]. exact (N l' Hr).
      * intros bs Hbs. apply spec_ret; [constructor; assumption | perm].
Qed.
Inductive reads_opt {A B} (R : A -> B -> Prop) : option A -> option B -> Prop :=
| ro_none : reads_opt R None None
| ro_some a b : R a b -> reads_opt R (Some a) (Some b).
Lemma spec_opt {A B} (f : A -> M B) (R : A -> B -> Prop) i o :
  (forall a, o = Some a -> spec (f a) (R a) i) -> spec (opt f o) (reads_opt R o) (ids_opt i).
Proof.
  destruct o as [a|]; intros H; cbn [opt].
  - apply spec_bind with (P := R a) (i := i); [apply H; reflexivity | |].
    + intros N b Hb. inversion Hb as [|? b' Hr]. exact (N b' Hr).
    + intros b Hb. apply spec_ret; [constructor; exact Hb | perm].
  - apply spec_ret; [constructor | reflexivity].
Qed.

(** * Macro expansion *)
Section Expand.
Variable W : world.

Lemma callee_call s l c : callee_of W s = Some (l, c) -> is_macro W c = true -> macro_call W s c.
Proof.
  unfold callee_of, as_apply, is_macro. destruct s as [ls r]. cbn [rep]. destruct r as [| | | | |[|[la ra] args]| | |]; try discriminate.
  destruct ra; cbn [as_use]; try discriminate.
  - cbn [named s_name s_loc]. destruct (top W s) as [c'|] eqn:E; [|discriminate]. intro H. injection H as <- <-. intro V.
    constructor; [exact E|]. destruct (variant_of W c'); try discriminate. reflexivity.
  - destruct (native W shown) as [c'|] eqn:E; [|discriminate]. intro H. injection H as <- <-. intro V.
    constructor; [exact E|]. destruct (variant_of W c'); try discriminate. reflexivity.
Qed.
Lemma call_callee s c : macro_call W s c -> exists l, callee_of W s = Some (l, c) /\ is_macro W c = true.
Proof.
  intros [l lf f args c' T V|l lf f args c' T V]; exists lf; unfold callee_of, is_macro, word; cbn; rewrite T, V; split; reflexivity.
Qed.
Lemma no_call s : (forall l c, callee_of W s = Some (l, c) -> is_macro W c = false) -> forall c, ~ macro_call W s c.
Proof. intros H c Hc. apply call_callee in Hc. destruct Hc as [l [E M]]. rewrite (H l c E) in M. discriminate. Qed.

Lemma spec_expand n : forall s, spec (expand W n s) (expands W s) none.
Proof.
  induction n as [|n IH]; intros s; cbn [expand]; [apply spec_tired|].
  destruct (callee_of W s) as [[l c]|] eqn:E.
  - destruct (is_macro W c) eqn:M.
    + pose proof (callee_call s l c E M) as C.
      assert (U : forall c', macro_call W s c' -> c' = c).
      { intros c' H. apply call_callee in H. destruct H as [l' [H _]]. rewrite E in H. injection H as _ ->. reflexivity. }
      destruct (own W c) eqn:O.
      * apply spec_refuse. intros s' H. inversion H as [? N|? c' ? ? H1 H2 H3 H4]; subst.
        -- exact (N c C).
        -- rewrite (U c' H1) in H2. congruence.
      * destruct (execute W c s) as [s1|e] eqn:X.
        -- apply spec_iff with (Q' := expands W s1); [|apply IH].
           intros s'. split.
           ++ intro H. inversion H as [? N|? c' ? ? H1 H2 H3 H4]; subst; [destruct (N c C)|].
              rewrite (U c' H1) in H3. rewrite X in H3. injection H3 as ->. exact H4.
           ++ intro H. exact (exp_step W s c s1 s' C O X H).
        -- apply spec_refuse. intros s' H. inversion H as [? N|? c' ? ? H1 H2 H3 H4]; subst; [exact (N c C)|].
           rewrite (U c' H1) in H3. congruence.
    + apply spec_ret; [|reflexivity]. constructor. apply no_call. intros l' c' E'. rewrite E in E'. injection E' as <- <-. exact M.
  - apply spec_ret; [|reflexivity]. constructor. apply no_call. intros l' c' E'. rewrite E in E'. discriminate.
Qed.
Lemma expands_unique s a : expands W s a -> forall b, expands W s b -> a = b.
Proof.
  induction 1 as [s N|s c s1 s2 H1 H2 H3 H4 IH]; intros b Hb.
  - inversion Hb as [|? c ? ? C]; subst; [reflexivity|]. destruct (N c C).
  - inversion Hb as [? N|? c' s1' ? H1' H2' H3' H4']; subst; [destruct (N c H1)|].
    assert (c' = c).
    { apply call_callee in H1. apply call_callee in H1'. destruct H1 as [l [E _]], H1' as [l' [E' _]]. rewrite E in E'. injection E' as _ ->. reflexivity. }
    subst. rewrite H3 in H3'. injection H3' as <-. exact (IH b H4').
Qed.

(** The start of every builder: expand, then match; [form] is the grammar and [view] what a match means. *)
Lemma spec_node {V A} (n : nat) (s : sexp) (mt : sexp -> V + error) (k : V -> M A)
    (reads form : sexp -> A -> Prop) (view : V -> A -> Prop) ids :
  (forall a, reads s a <-> exists s', expands W s s' /\ form s' a) ->
  (forall s' a, form s' a <-> exists v, mt s' = inl v /\ view v a) ->
  (forall s' v, expands W s s' -> mt s' = inl v -> spec (k v) (view v) ids) ->
  spec (andthen (expand W n s) (fun s => andthen (lift (mt s)) k)) (reads s) ids.
Proof.
  intros Hr Hf Hk. apply spec_bind with (P := expands W s) (i := none); [apply spec_expand| |].
  - intros N a Ha. apply Hr in Ha. destruct Ha as [s' [E _]]. exact (N s' E).
  - intros s' E. apply spec_iff with (Q' := form s').
    { intros a. rewrite Hr. split.
      - intros [s1 [E1 F]]. rewrite (expands_unique s s' E s1 E1). exact F.
      - intros F. exists s'. split; assumption. }
    apply spec_bind with (P := fun v => mt s' = inl v) (i := none); [apply spec_lift| |].
    + intros N a Ha. apply Hf in Ha. destruct Ha as [v [E1 _]]. exact (N v E1).
    + intros v Ev. apply spec_iff with (Q' := view v); [|apply (Hk s' v E Ev)].
      intros a. rewrite Hf. split.
      * intros [v' [E1 H]]. rewrite Ev in E1. injection E1 as <-. exact H.
      * intros H. exists v. split; assumption.
Qed.
End Expand.
