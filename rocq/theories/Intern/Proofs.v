From Verif.Base Require Import BaseFacts.
From Verif.Lexer Require Import Model Spec Proofs.
From Verif.Intern Require Import Model Spec.

Section Interning.
  Context {T : Type} (eqb : T -> T -> bool) (Heq : decides eqb).

  (** Invariant of a table. *)
  Definition wf (tb : intern_table T) : Prop :=
    (N.of_nat (List.length (ids tb)) <= handle_space)%N /\
    forall x h, get_interned eqb tb x = Some h <-> nth_error (ids tb) (N.to_nat h) = Some x.

  Lemma wf_new : wf new_table.
  Proof. split; [cbn; unfold handle_space; lia|]. intros x h; cbn. destruct (N.to_nat h); split; discriminate. Qed.

  Lemma wf_bound tb x h : wf tb -> get_interned eqb tb x = Some h -> (N.to_nat h < List.length (ids tb))%nat.
  Proof. intros [_ H] E. apply H in E. apply nth_error_Some. congruence. Qed.

  Lemma intern_wf tb x h tb' : wf tb -> (N.of_nat (List.length (ids tb)) < handle_space)%N ->
    intern eqb tb x = (h, tb') ->
    wf tb' /\ get_interned eqb tb' x = Some h /\ (exists l, ids tb' = ids tb ++ l) /\
    (forall y k, get_interned eqb tb y = Some k -> get_interned eqb tb' y = Some k) /\
    (forall y, get_interned eqb tb' y <> None <-> get_interned eqb tb y <> None \/ y = x) /\
    (List.length (ids tb') <= S (List.length (ids tb)))%nat.
  Proof.
    intros [Hb Hwf] Hlt E. unfold intern in E. destruct (get_interned eqb tb x) as [k|] eqn:Ek.
    - injection E as <- <-. split; [split; assumption|]. split; [assumption|]. split; [exists []; rewrite app_nil_r; reflexivity|].
      split; [auto|]. split; [|lia]. intros y. split; [auto|]. intros [H| ->]; congruence.
    - assert (Hm : (N.of_nat (List.length (ids tb)) mod 2 ^ 32 = N.of_nat (List.length (ids tb)))%N) by (apply N.mod_small; exact Hlt).
      rewrite Hm in E. injection E as <- <-. set (n := List.length (ids tb)) in *.
      assert (Hx : forall y, get_interned eqb {| ids := ids tb ++ [x]; symbols := (x, N.of_nat n) :: symbols tb |} y =
                    if eqb y x then Some (N.of_nat n) else get_interned eqb tb y) by reflexivity.
      assert (Hy : forall y, eqb y x = false <-> y <> x).
      { intros y. split; intros H.
        - intros E. apply Heq in E. congruence.
        - destruct (eqb y x) eqn:E; [|reflexivity]. apply Heq in E. contradiction. }
      assert (Hxx : eqb x x = true) by (apply Heq; reflexivity).
      split; [|split; [rewrite Hx, Hxx; reflexivity|split; [exists [x]; reflexivity|split; [|split; [|cbn [ids]; rewrite app_length; cbn; lia]]]]].
      + split; cbn [ids]; [rewrite app_length; cbn; lia|]. intros y h. rewrite Hx. destruct (eqb y x) eqn:Ey.
        * apply Heq in Ey as ->. split; intros H.
          -- injection H as <-. rewrite Nnat.Nat2N.id, nth_error_app2, Nat.sub_diag by (unfold n; lia). reflexivity.
          -- destruct (Nat.lt_ge_cases (N.to_nat h) n) as [Hl|Hl].
             ++ rewrite nth_error_app1 in H by exact Hl. apply Hwf in H. congruence.
             ++ assert (N.to_nat h < List.length (ids tb ++ [x]))%nat by (apply nth_error_Some; congruence).
                rewrite app_length in H0. cbn in H0. fold n in H0. f_equal. lia.
        * apply Hy in Ey. rewrite Hwf. split; intros H.
          -- rewrite nth_error_app1; [assumption|]. apply nth_error_Some. congruence.
          -- destruct (Nat.lt_ge_cases (N.to_nat h) n) as [Hl|Hl]; [rewrite nth_error_app1 in H by exact Hl; assumption|].
             rewrite nth_error_app2 in H by exact Hl. destruct (N.to_nat h - List.length (ids tb))%nat as [|j]; cbn in H.
             ++ congruence.
             ++ destruct j; discriminate.
      + intros y k H. rewrite Hx. destruct (eqb y x) eqn:Ey; [apply Heq in Ey as ->; congruence|assumption].
      + intros y. rewrite Hx. destruct (eqb y x) eqn:Ey.
        * apply Heq in Ey. split; [auto|discriminate].
        * apply Hy in Ey. tauto.
  Qed.

  Lemma wf_inj tb x y h : wf tb -> get_interned eqb tb x = Some h -> get_interned eqb tb y = Some h -> x = y.
  Proof. intros [_ H] E1 E2. apply H in E1, E2. congruence. Qed.

  Lemma intern_all_spec xs : forall tb hs tb', wf tb ->
    (N.of_nat (List.length (ids tb) + List.length xs) <= handle_space)%N ->
    intern_all eqb tb xs = (hs, tb') ->
    wf tb' /\ Forall2 (fun x h => get_interned eqb tb' x = Some h) xs hs /\
    (forall y k, get_interned eqb tb y = Some k -> get_interned eqb tb' y = Some k) /\
    (forall y, get_interned eqb tb' y <> None <-> get_interned eqb tb y <> None \/ In y xs).
  Proof.
    induction xs as [|x xs IH]; intros tb hs tb' Hwf Hb E; cbn [intern_all List.length] in *.
    - injection E as <- <-. split; [assumption|]. split; [constructor|]. split; [auto|]. intros y; cbn; tauto.
    - destruct (intern eqb tb x) as [h tb1] eqn:E1. destruct (intern_all eqb tb1 xs) as [hs' tb2] eqn:E2.
      injection E as <- <-. apply intern_wf in E1 as (Hwf1 & Hh & _ & Hk & Hd & Hl); [|assumption|lia].
      apply IH in E2 as (Hwf2 & Hf & Hk2 & Hd2); [|assumption|lia].
      split; [assumption|]. split; [constructor; auto|]. split; [auto|].
      intros y. rewrite Hd2, Hd. cbn [In]. intuition.
  Qed.

  Lemma interning_handles xs hs tb : (N.of_nat (List.length xs) <= handle_space)%N ->
    intern_all eqb new_table xs = (hs, tb) ->
    List.length hs = List.length xs /\
    (forall i j xi xj hi hj, nth_error xs i = Some xi -> nth_error xs j = Some xj ->
       nth_error hs i = Some hi -> nth_error hs j = Some hj -> (hi = hj <-> xi = xj)) /\
    (forall i xi hi, nth_error xs i = Some xi -> nth_error hs i = Some hi ->
       review tb hi = Ret xi /\ get_interned eqb tb xi = Some hi) /\
    (forall y, is_interned eqb tb y = true <-> In y xs).
  Proof.
    intros Hb E. apply intern_all_spec in E as (Hwf & Hf & _ & Hd); [|apply wf_new|exact Hb].
    assert (Hg : forall i xi hi, nth_error xs i = Some xi -> nth_error hs i = Some hi -> get_interned eqb tb xi = Some hi).
    { clear Hb Hd. induction Hf as [|x h xs hs Hx Hf IH]; intros [|i] xi hi H1 H2; cbn in *; try discriminate.
      - congruence.
      - eauto. }
    split; [symmetry; clear - Hf; induction Hf; cbn; congruence|].
    split; [|split].
    - intros i j xi xj hi hj Hxi Hxj Hhi Hhj. pose proof (Hg _ _ _ Hxi Hhi). pose proof (Hg _ _ _ Hxj Hhj). split.
      + intros ->. eapply wf_inj; eauto.
      + intros ->. congruence.
    - intros i xi hi H1 H2. pose proof (Hg _ _ _ H1 H2) as G. split; [|assumption].
      unfold review. apply Hwf in G. rewrite G. reflexivity.
    - intros y. unfold is_interned. specialize (Hd y). cbn in Hd. destruct (get_interned eqb tb y).
      + split; [intros _|reflexivity]. assert (Some n <> None) by discriminate. tauto.
      + split; [discriminate|]. intros H. assert (@None N <> None) by tauto. congruence.
  Qed.
End Interning.

(** Locations. *)
Lemma slice_app a m b : slice (a ++ m ++ b) (blen a) (blen a + blen m) = Ret m.
Proof.
  unfold slice. destruct (N.leb_spec (blen a) (blen a + blen m)); [|lia].
  rewrite <- blen_app, app_assoc, split_at_byte_app. rewrite split_at_byte_app. reflexivity.
Qed.

Lemma slice_some t a b m : slice t a b = Ret m -> exists u v, t = u ++ m ++ v /\ a = blen u /\ b = (blen u + blen m)%N.
Proof.
  unfold slice. destruct (a <=? b)%N; [|discriminate].
  destruct (split_at_byte b t) as [[t1 v]|] eqn:E1; [|discriminate].
  destruct (split_at_byte a t1) as [[u m']|] eqn:E2; [|discriminate]. intros H; injection H as ->.
  apply split_at_byte_some in E1 as [-> ->], E2 as [-> ->]. exists u, v. rewrite <- app_assoc, blen_app. auto.
Qed.

Lemma position_nil : location_new = position [].
Proof. reflexivity. Qed.

Lemma from_range_ok a m b : from_range (a ++ m ++ b) (blen a) (blen a + blen m) = Ret (range_of a m).
Proof.
  unfold from_range. pose proof (slice_app [] a (m ++ b)) as H0. cbn [app blen] in H0. rewrite N.add_0_l in H0. rewrite H0.
  cbn [bind]. rewrite position_nil, location_eat_position. cbn [bind app]. rewrite slice_app. cbn [bind].
  rewrite location_eat_position. reflexivity.
Qed.

Lemma from_range_exact t a b r : from_range t a b = Ret r <->
  exists u m v, t = u ++ m ++ v /\ a = blen u /\ b = (blen u + blen m)%N /\ r = range_of u m.
Proof.
  split.
  - intros H. assert (exists m, slice t a b = Ret m) as [m Hm].
    { unfold from_range in H. destruct (slice t 0 a); try discriminate. cbn [bind] in H.
      destruct (location_eat location_new a0); try discriminate. cbn [bind] in H.
      destruct (slice t a b) as [m| |]; try discriminate. eauto. }
    apply slice_some in Hm as (u & v & -> & -> & ->). rewrite from_range_ok in H. injection H as <-. exists u, m, v. auto.
  - intros (u & m & v & -> & -> & -> & ->). apply from_range_ok.
Qed.

Lemma review_range_ok a m b : review_range (range_of a m) (a ++ m ++ b) = Ret m.
Proof.
  unfold review_range, range_of; cbn [start end_ position offset]. rewrite blen_app. apply slice_app.
Qed.

Lemma from_offset_ok a b : from_offset (a ++ b) (blen a) = Ret (position a).
Proof.
  unfold from_offset. pose proof (slice_app [] a b) as H0. cbn [app blen] in H0. rewrite N.add_0_l in H0. rewrite H0.
  cbn [bind]. rewrite position_nil, location_eat_position. reflexivity.
Qed.

Lemma range_eqb_decides : decides range_eqb.
Proof.
  intros [[a b c] [d e f]] [[a' b' c'] [d' e' f']]. unfold range_eqb, location_eqb; cbn [start end_ offset line character].
  rewrite !andb_true_iff, !N.eqb_eq. split; [intros [[[-> ->] ->] [[-> ->] ->]]; reflexivity|].
  intros H; injection H as -> -> -> -> -> ->. auto.
Qed.

(** Location tables. *)
Section SourceLoc.
  Context {P : Type} (peqb : P -> P -> bool) (Hp : decides peqb).

  Definition loc_at (c : @client P) (i : nat) : option locator :=
    match nth_error (c_locs c) i with
    | Some (Some l) => Some l
    | Some None => find_locator (completed (c_table c)) (N.of_nat i)
    | None => None
    end.

  Definition issued_by (c : @client P) (i : nat) : list (source_location * (nat * location_range)) :=
    filter (fun x => Nat.eqb (fst (snd x)) i) (c_issued c).

  Definition inv (k : nat) (c : @client P) : Prop :=
    (N.of_nat k <= handle_space)%N /\
    wf peqb (path_table (c_table c)) /\
    ids (path_table (c_table c)) = c_paths c /\
    (forall y, get_interned peqb (path_table (c_table c)) y <> None <-> In y (c_paths c)) /\
    List.length (c_locs c) = List.length (c_paths c) /\
    (List.length (c_paths c) <= k)%nat /\
    (forall i l, loc_at c i = Some l -> l_path l = N.of_nat i /\ wf range_eqb (l_table l) /\ (List.length (ids (l_table l)) <= k)%nat) /\
    (forall i, (i < List.length (c_paths c))%nat -> loc_at c i <> None) /\
    (forall h l, In (h, l) (completed (c_table c)) -> exists i, h = N.of_nat i /\ nth_error (c_locs c) i = Some None) /\
    (forall s i r, In (s, (i, r)) (c_issued c) ->
       exists l, loc_at c i = Some l /\ s = (N.of_nat i, snd s) /\ get_interned range_eqb (l_table l) r = Some (snd s)).

  Lemma inv_new k : (N.of_nat k <= handle_space)%N -> inv k new_client.
  Proof.
    intros Hk. unfold inv, new_client; cbn [c_table c_locs c_paths c_issued new_loc_table path_table completed List.length].
    split; [assumption|]. split; [apply wf_new|]. split; [reflexivity|]. split; [intros y; cbn; split; [congruence|intros []]|].
    split; [reflexivity|]. split; [lia|]. split; [|split; [intros i Hi; lia|split; [intros h l []|intros s i r []]]].
    intros i l H. unfold loc_at in H. cbn in H. destruct i; discriminate.
  Qed.

  Lemma nth_set_nth {A} (l : list A) i j x : nth_error (set_nth l i x) j =
    if Nat.eqb i j then match nth_error l i with Some _ => Some x | None => None end else nth_error l j.
  Proof.
    revert i j. induction l as [|y l IH]; intros i j; cbn [set_nth].
    - destruct (Nat.eqb i j); destruct i, j; reflexivity.
    - destruct i as [|i], j as [|j]; cbn; try reflexivity. apply IH.
  Qed.
  Lemma length_set_nth {A} (l : list A) i x : List.length (set_nth l i x) = List.length l.
  Proof. revert i; induction l as [|y l IH]; intros [|i]; cbn; auto. Qed.

  Lemma find_locator_none l h : (forall x, ~ In (h, x) l) -> find_locator l h = None.
  Proof.
    induction l as [|[k y] l IH]; intros H; cbn; [reflexivity|]. destruct (N.eqb_spec h k) as [->|].
    - exfalso. apply (H y). left; reflexivity.
    - apply IH. intros x Hx. apply (H x). right; assumption.
  Qed.

  Lemma step_inv k c o c' : inv k c -> step peqb c o = Some (Ret c') -> inv (S k) c' \/ (handle_space <= N.of_nat k)%N.
  Proof.
    intros (Hk & Hwf & Hids & Hin & Hlen & Hle & Hloc & Hex & Hcomp & Hiss) Hs.
    destruct (N.leb_spec handle_space (N.of_nat k)) as [Hfull|Hlt]; [right; assumption|left].
    destruct o as [p|i r|i]; cbn [step] in Hs.
    - unfold begin_locate in Hs. destruct (is_interned peqb (path_table (c_table c)) p) eqn:Ei; [discriminate|].
      unfold is_interned in Ei. destruct (get_interned peqb (path_table (c_table c)) p) as [|] eqn:Eg; [discriminate|].
      destruct (intern peqb (path_table (c_table c)) p) as [h pt] eqn:Ein. cbn [bind] in Hs. injection Hs as <-.
      pose proof Ein as Ein2. unfold intern in Ein2. rewrite Eg in Ein2. injection Ein2 as Eh Ept.
      assert (Eh' : h = N.of_nat (List.length (c_paths c))).
      { rewrite <- Eh, Hids. apply N.mod_small. eapply N.le_lt_trans; [|exact Hlt]. lia. }
      apply intern_wf in Ein as (Hwf' & Hg & _ & Hk' & Hd & Hl); [|assumption|assumption|rewrite Hids; lia].
      assert (Hla : forall i l, loc_at {| c_table := {| path_table := pt; completed := completed (c_table c) |};
                 c_locs := c_locs c ++ [Some {| l_path := h; l_table := new_table |}]; c_paths := c_paths c ++ [p]; c_issued := c_issued c |} i = Some l <->
                 (loc_at c i = Some l) \/ (i = List.length (c_paths c) /\ l = {| l_path := h; l_table := new_table |})).
      { intros i l. unfold loc_at; cbn [c_locs c_table completed].
        destruct (Nat.lt_ge_cases i (List.length (c_locs c))) as [Hi|Hi].
        - rewrite nth_error_app1 by exact Hi. split; [auto|]. intros [H|[-> _]]; [assumption|lia].
        - assert (En : nth_error (c_locs c) i = None) by (apply nth_error_None; lia). rewrite En.
          rewrite nth_error_app2 by exact Hi. destruct (i - List.length (c_locs c))%nat as [|j] eqn:Ej; cbn.
          + split; [intros H; injection H as <-; right; split; [lia|reflexivity]|]. intros [H|[_ ->]]; [discriminate|reflexivity].
          + destruct j; (split; [discriminate|]; intros [H|[-> _]]; [discriminate|lia]). }
      unfold inv. cbn [c_table c_locs c_paths c_issued path_table completed].
      split; [lia|]. split; [assumption|]. split; [rewrite <- Ept; cbn [ids]; rewrite Hids; reflexivity|].
      split; [intros y; rewrite Hd, Hin, in_app_iff; cbn [In]; intuition congruence|].
      split; [rewrite !app_length; cbn; lia|]. split; [rewrite app_length; cbn; lia|].
      split; [|split; [|split]].
      + intros i l H. apply Hla in H as [H|[-> ->]].
        * destruct (Hloc _ _ H) as (? & ? & ?). auto.
        * cbn [l_path l_table]. split; [assumption|]. split; [apply wf_new|cbn; lia].
      + intros i Hi. rewrite app_length in Hi. cbn in Hi. destruct (Nat.eq_dec i (List.length (c_paths c))) as [->|Hne].
        * intros H. pose proof (proj2 (Hla (List.length (c_paths c)) _) (or_intror (conj eq_refl eq_refl))) as H'.
          rewrite H' in H. discriminate.
        * assert (Hi' : (i < List.length (c_paths c))%nat) by lia. apply Hex in Hi'.
          destruct (loc_at c i) as [l|] eqn:El; [|congruence]. intros H. pose proof (proj2 (Hla i l) (or_introl El)) as H'. rewrite H' in H. discriminate.
      + intros h0 l0 H. destruct (Hcomp _ _ H) as (i & -> & Hn). exists i. split; [reflexivity|].
        rewrite nth_error_app1; [assumption|]. apply nth_error_Some. congruence.
      + intros s i r H. destruct (Hiss _ _ _ H) as (l & El & ? & ?). exists l. split; [apply Hla; left; assumption|auto].
    - destruct (nth_error (c_locs c) i) as [[l|]|] eqn:En; try discriminate.
      unfold issue in Hs. destruct (intern range_eqb (l_table l) r) as [h t] eqn:Ein. injection Hs as <-.
      assert (El : loc_at c i = Some l) by (unfold loc_at; rewrite En; reflexivity).
      destruct (Hloc _ _ El) as (Hlp & Hlwf & Hll).
      apply intern_wf in Ein as (Hwf' & Hg & _ & Hk' & Hd & Hl); [|apply range_eqb_decides|assumption|lia].
      set (l' := {| l_path := l_path l; l_table := t |}).
      assert (Hla : forall j, loc_at {| c_table := c_table c; c_locs := set_nth (c_locs c) i (Some l'); c_paths := c_paths c;
          c_issued := c_issued c ++ [(l_path l, h, (i, r))] |} j = if Nat.eqb i j then Some l' else loc_at c j).
      { intros j. unfold loc_at; cbn [c_locs c_table]. rewrite nth_set_nth, En. destruct (Nat.eqb_spec i j); reflexivity. }
      unfold inv. cbn [c_table c_locs c_paths c_issued].
      split; [lia|]. split; [assumption|]. split; [assumption|]. split; [assumption|].
      split; [rewrite length_set_nth; assumption|]. split; [lia|].
      split; [|split; [|split]].
      + intros j l0 H. rewrite Hla in H. destruct (Nat.eqb_spec i j) as [<-|].
        * injection H as <-. cbn [l_path l_table l']. split; [assumption|]. split; [assumption|lia].
        * destruct (Hloc _ _ H) as (? & ? & ?). auto.
      + intros j Hj. rewrite Hla. destruct (Nat.eqb i j); [discriminate|]. auto.
      + intros h0 l0 H. destruct (Hcomp _ _ H) as (j & -> & Hn). exists j. split; [reflexivity|].
        rewrite nth_set_nth. destruct (Nat.eqb_spec i j) as [<-|]; [congruence|assumption].
      + intros s j r0 H. apply in_app_or in H as [H|[H|[]]].
        * destruct (Hiss _ _ _ H) as (l0 & El0 & Hs1 & Hs2). rewrite Hla. destruct (Nat.eqb_spec i j) as [<-|].
          -- exists l'. split; [reflexivity|]. split; [assumption|]. cbn [l_table l']. apply Hk'. congruence.
          -- exists l0. auto.
        * injection H as <- <- <-. exists l'. rewrite Hla, Nat.eqb_refl. split; [reflexivity|]. cbn [snd l_table l']. rewrite Hlp. auto.
    - destruct (nth_error (c_locs c) i) as [[l|]|] eqn:En; try discriminate. injection Hs as <-.
      assert (El : loc_at c i = Some l) by (unfold loc_at; rewrite En; reflexivity).
      destruct (Hloc _ _ El) as (Hlp & Hlwf & Hll).
      assert (Hla : forall j, loc_at {| c_table := complete_locate (c_table c) l; c_locs := set_nth (c_locs c) i None; c_paths := c_paths c;
          c_issued := c_issued c |} j = loc_at c j).
      { intros j. unfold loc_at; cbn [c_locs c_table complete_locate completed]. rewrite nth_set_nth, En. destruct (Nat.eqb_spec i j) as [<-|Hne].
        - rewrite En. cbn [find_locator]. rewrite Hlp, N.eqb_refl. reflexivity.
        - destruct (nth_error (c_locs c) j) as [[|]|]; try reflexivity. cbn [find_locator]. rewrite Hlp.
          destruct (N.eqb_spec (N.of_nat j) (N.of_nat i)); [lia|reflexivity]. }
      unfold inv. cbn [c_table c_locs c_paths c_issued].
      split; [lia|]. split; [assumption|]. split; [assumption|]. split; [assumption|].
      split; [rewrite length_set_nth; assumption|]. split; [lia|].
      split; [|split; [|split]].
      + intros j l0 H. rewrite Hla in H. destruct (Hloc _ _ H) as (? & ? & ?). auto.
      + intros j Hj. rewrite Hla. auto.
      + intros h0 l0 H. cbn [complete_locate completed] in H. destruct H as [H|H].
        * injection H as <- <-. exists i. split; [assumption|]. rewrite nth_set_nth, Nat.eqb_refl, En. reflexivity.
        * destruct (Hcomp _ _ H) as (j & -> & Hn). exists j. split; [reflexivity|].
          rewrite nth_set_nth. destruct (Nat.eqb_spec i j) as [<-|]; [congruence|assumption].
      + intros s j r0 H. destruct (Hiss _ _ _ H) as (l0 & El0 & Hs1 & Hs2). exists l0. rewrite Hla. auto.
  Qed.

  Lemma runs_inv c os c' k : runs peqb c os c' -> inv k c -> (N.of_nat (k + List.length os) <= handle_space)%N ->
    inv (k + List.length os) c'.
  Proof.
    intros H. revert k. induction H as [c|c o os c1 c2 Hs Hr IH]; intros k Hi Hb; cbn [List.length] in *.
    - rewrite Nat.add_0_r. assumption.
    - apply (step_inv _ _ _ _ Hi) in Hs as [Hs|Hs]; [|lia]. rewrite <- Nat.add_succ_comm. apply IH; [assumption|lia].
  Qed.

  Lemma locations_ok os c : (N.of_nat (List.length os) <= handle_space)%N -> runs peqb new_client os c ->
    (forall s i r p, In (s, (i, r)) (c_issued c) -> nth_error (c_paths c) i = Some p ->
       nth_error (c_locs c) i = Some None -> review_location (c_table c) s = Ret (p, r)) /\
    (forall s i r s' i' r', In (s, (i, r)) (c_issued c) -> In (s', (i', r')) (c_issued c) ->
       (s = s' <-> i = i' /\ r = r')).
  Proof.
    intros Hb Hr. assert (H0 : inv 0 (@new_client P)) by (apply inv_new; unfold handle_space; cbn; lia).
    pose proof (runs_inv _ _ _ 0 Hr H0 Hb) as (Hk & Hwf & Hids & Hin & Hlen & Hle & Hloc & Hex & Hcomp & Hiss).
    split.
    - intros s i r p Hs Hpi Hn. destruct (Hiss _ _ _ Hs) as (l & El & Es & Eg).
      unfold review_location. rewrite Es. cbn [fst snd]. unfold review at 1. rewrite Hids, Nnat.Nat2N.id, Hpi. cbn [bind].
      unfold loc_at in El. rewrite Hn in El. rewrite El. destruct (Hloc i l) as (_ & Hlwf & _); [unfold loc_at; rewrite Hn; assumption|].
      apply Hlwf in Eg. unfold review. rewrite Eg. reflexivity.
    - intros s i r s' i' r' H1 H2. destruct (Hiss _ _ _ H1) as (l & El & Es & Eg). destruct (Hiss _ _ _ H2) as (l' & El' & Es' & Eg').
      split.
      + intros E. rewrite Es, Es' in E. injection E as E1 E2. assert (i = i') as <- by lia.
        split; [reflexivity|]. assert (l = l') as <- by congruence. destruct (Hloc _ _ El) as (_ & Hlwf & _).
        eapply wf_inj; [exact Hlwf|exact Eg|rewrite Eg'; f_equal; symmetry; exact E2].
      + intros [<- <-]. assert (l = l') as <- by congruence. rewrite Es, Es'. congruence.
  Qed.

  (** [begin_locate] fails exactly for a path that has been begun before. *)
  Lemma begin_ok os c p : (N.of_nat (List.length os) <= handle_space)%N -> runs peqb new_client os c ->
    (In p (c_paths c) <-> step peqb c (Begin p) = Some Panic) /\ step peqb c (Begin p) <> Some OutOfFuel.
  Proof.
    intros Hb Hr. assert (H0 : inv 0 (@new_client P)) by (apply inv_new; unfold handle_space; cbn; lia).
    pose proof (runs_inv _ _ _ 0 Hr H0 Hb) as (Hk & Hwf & Hids & Hin & _).
    cbn [step]. unfold begin_locate, is_interned. rewrite <- Hin.
    destruct (get_interned peqb (path_table (c_table c)) p) eqn:E; cbn [bind].
    - split; [split; [reflexivity|discriminate]|discriminate].
    - destruct (intern peqb (path_table (c_table c)) p). cbn [bind]. split; [split; [congruence|discriminate]|discriminate].
  Qed.
End SourceLoc.
