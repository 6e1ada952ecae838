(** * Resolving the layouts of definitions *)
From Coq Require Import Permutation.
From Verif.Base Require Import Base.
From Verif.Ir Require Import Model.
From Verif.Layout Require Import Model Spec Proofs ProofsClass.

Definition grows (r r' : resolver) : Prop := forall id l, find r id = Some (Some l) -> find r' id = Some (Some l).

Lemma grows_refl r : grows r r.
Proof. intros id l H. exact H. Qed.

Lemma grows_trans a b c : grows a b -> grows b c -> grows a c.
Proof. intros H K id l F. apply K, H, F. Qed.

Lemma get_id r id l : get r (CtId id) = Ret l <-> find r id = Some (Some l).
Proof.
  cbn. destruct (find r id) as [[m|]|]; split; intro H; try discriminate H; injection H as ->; reflexivity.
Qed.

Lemma get_grows r r' t l : grows r r' -> get r t = Ret l -> get r' t = Ret l.
Proof.
  intros G. destruct t; cbn; intro H; try exact H.
  destruct (find r id) as [[m|]|] eqn:E; try discriminate H. rewrite (G _ _ E). exact H.
Qed.

(** ** What a registration adds *)

Definition made (defs : list (nat * def)) (r : resolver) (id : nat) (l : layout) : Prop :=
  (exists fs ls, find defs id = Some (DStruct fs) /\ Forall2 (fun t l => get r t = Ret l) fs ls /\ l = product ls) \/
  (exists ts ls, find defs id = Some (DUnion ts) /\ Forall2 (fun t l => get r t = Ret l) ts ls /\ l = sum ls).

Lemma forall2_grows r r' ts ls : grows r r' ->
  Forall2 (fun t l => get r t = Ret l) ts ls -> Forall2 (fun t l => get r' t = Ret l) ts ls.
Proof. intros G. induction 1; constructor; [eapply get_grows; eassumption|assumption]. Qed.

Lemma made_grows defs r r' id l : grows r r' -> made defs r id l -> made defs r' id l.
Proof.
  intros G [(fs & ls & D & F & E)|(ts & ls & D & F & E)]; [left|right]; eexists _, ls;
    (split; [exact D|]; split; [|exact E]; eapply forall2_grows; eassumption).
Qed.

Record step (defs : list (nat * def)) (r r' : resolver) : Prop := {
  st_grows : forall id x, find r id = Some x -> find r' id = Some x;
  st_new : forall id x, find r id = None -> find r' id = Some x -> exists l, x = Some l /\ made defs r' id l }.

Lemma step_grows defs r r' : step defs r r' -> grows r r'.
Proof. intros S id l. apply (st_grows _ _ _ S). Qed.

Lemma step_refl defs r : step defs r r.
Proof. split; intros; congruence. Qed.

Lemma step_trans defs a b c : step defs a b -> step defs b c -> step defs a c.
Proof.
  intros S T. split.
  - intros id x F. apply (st_grows _ _ _ T), (st_grows _ _ _ S), F.
  - intros id x N F. destruct (find b id) as [y|] eqn:E.
    + destruct (st_new _ _ _ S id y N E) as (l & -> & M).
      pose proof (st_grows _ _ _ T _ _ E) as E'. rewrite E' in F. injection F as <-.
      exists l. split; [reflexivity|]. eapply made_grows; [eapply step_grows, T|exact M].
    + exact (st_new _ _ _ T id x E F).
Qed.

Lemma visits_step defs visit :
  (forall r t l r', visit r t = Ret (l, r') -> step defs r r' /\ get r' t = Ret l) ->
  forall ts r ls r', visits visit r ts = Ret (ls, r') ->
  step defs r r' /\ Forall2 (fun t l => get r' t = Ret l) ts ls.
Proof.
  intro V. induction ts as [|t ts IH]; intros r ls r' H; cbn in H.
  - injection H as <- <-. split; [apply step_refl|constructor].
  - destruct (visit r t) as [[l r1]| |] eqn:E; try discriminate H. cbn in H.
    destruct (visits visit r1 ts) as [[ls' r2]| |] eqn:E2; try discriminate H. cbn in H. injection H as <- <-.
    destruct (V _ _ _ _ E) as [S1 G1]. destruct (IH _ _ _ E2) as [S2 G2].
    split; [eapply step_trans; eassumption|]. constructor; [|exact G2].
    eapply get_grows; [eapply step_grows, S2|exact G1].
Qed.

Lemma finish defs r r1 id l :
  step defs ((id, None) :: r) r1 -> find r id = None ->
  (grows r1 ((id, Some l) :: r1) -> made defs ((id, Some l) :: r1) id l) ->
  step defs r ((id, Some l) :: r1).
Proof.
  intros S N M.
  assert (P : find r1 id = Some None) by (apply (st_grows _ _ _ S); cbn; now rewrite Nat.eqb_refl).
  assert (G : grows r1 ((id, Some l) :: r1)).
  { intros i x F. cbn. destruct (Nat.eqb_spec id i) as [->|D]; [congruence|exact F]. }
  split.
  - intros i x F. cbn. destruct (Nat.eqb_spec id i) as [->|D]; [congruence|].
    apply (st_grows _ _ _ S). cbn. apply Nat.eqb_neq in D. now rewrite D.
  - intros i x F K. cbn in K. destruct (Nat.eqb_spec id i) as [->|D].
    + injection K as <-. exists l. split; [reflexivity|exact (M G)].
    + apply Nat.eqb_neq in D as D'. destruct (st_new _ _ _ S i x) as (l' & -> & M').
      * cbn. now rewrite D'.
      * exact K.
      * exists l'. split; [reflexivity|]. eapply made_grows; [exact G|exact M'].
Qed.

Lemma visit_step defs fuel : forall r t l r', register_visit defs fuel r t = Ret (l, r') ->
  step defs r r' /\ get r' t = Ret l.
Proof.
  induction fuel as [|fuel IH]; intros r t l r' H.
  - destruct t; try (cbn in H |- *; injection H as <- <-; split; [apply step_refl|reflexivity]); try discriminate H.
    cbn [register_visit] in H. destruct (find r id) as [[m|]|] eqn:E; try discriminate H.
    + injection H as <- <-. split; [apply step_refl|]. now apply get_id.
    + destruct (find defs id) as [[| |]|]; discriminate H.
  - destruct t; try (cbn in H |- *; injection H as <- <-; split; [apply step_refl|reflexivity]); try discriminate H.
    cbn [register_visit] in H. destruct (find r id) as [[m|]|] eqn:E; try discriminate H.
    + injection H as <- <-. split; [apply step_refl|]. now apply get_id.
    + assert (Go : forall ts make,
        (let* p := visits (register_visit defs fuel) ((id, None) :: r) ts in
         let '(ls, r) := p in let l := make ls in Ret (l, (id, Some l) :: r)) = Ret (l, r') ->
        (forall ls r1, l = make ls -> grows r1 ((id, Some l) :: r1) -> Forall2 (fun t l => get r1 t = Ret l) ts ls ->
          made defs ((id, Some l) :: r1) id l) ->
        step defs r r' /\ get r' (CtId id) = Ret l).
      { intros ts make K M. destruct (visits _ _ ts) as [[ls r1]| |] eqn:V; try discriminate K. cbn in K.
        injection K as <- <-. destruct (visits_step defs _ IH _ _ _ _ V) as [S F].
        split; [|apply get_id; cbn; now rewrite Nat.eqb_refl].
        apply finish; [exact S|exact E|]. intro G. apply (M ls); [reflexivity|exact G|exact F]. }
      destruct (find defs id) as [[fs|ts|]|] eqn:D; try discriminate H.
      * apply (Go fs product H). intros ls r1 -> G F. left. exists fs, ls. split; [exact D|]. split; [|reflexivity].
        eapply forall2_grows; eassumption.
      * apply (Go ts sum H). intros ls r1 -> G F. right. exists ts, ls. split; [exact D|]. split; [|reflexivity].
        eapply forall2_grows; eassumption.
Qed.

Lemma register_all_step defs fuel todo : forall r r', register_all defs fuel todo r = Ret r' ->
  step defs r r' /\ forall id d, In (id, d) todo -> is_type d = true -> known r' id.
Proof.
  induction todo as [|[id d] todo IH]; intros r r' H; cbn [register_all] in H.
  - injection H as <-. split; [apply step_refl|]. intros ? ? [].
  - assert (Go : is_type d = true ->
      (let* p := register_visit defs fuel r (CtId id) in register_all defs fuel todo (snd p)) = Ret r' ->
      step defs r r' /\ forall id' d', In (id', d') ((id, d) :: todo) -> is_type d' = true -> known r' id').
    { intros _ K. destruct (register_visit defs fuel r (CtId id)) as [[l r1]| |] eqn:V; try discriminate K.
      cbn [snd bind] in K. destruct (visit_step _ _ _ _ _ _ V) as [S G]. destruct (IH _ _ K) as [S2 G2].
      split; [eapply step_trans; eassumption|]. intros id' d' [I|I] T.
      - injection I as <- <-. exists l. eapply get_grows; [eapply step_grows, S2|exact G].
      - eapply G2; eassumption. }
    destruct d; [apply Go; [reflexivity|exact H]|apply Go; [reflexivity|exact H]|].
    destruct (IH _ _ H) as [S G]. split; [exact S|]. intros id' d' [I|I] T; [|eapply G; eassumption].
    injection I as <- <-. discriminate T.
Qed.

(** ** Fuel *)

Definition fresh (r : resolver) (d : nat * def) : bool := match find r (fst d) with None => true | _ => false end.
Definition missing (defs : list (nat * def)) (r : resolver) : nat := List.length (filter (fresh r) defs).

Lemma filter_le {A} (p q : A -> bool) l : (forall x, p x = true -> q x = true) ->
  (List.length (filter p l) <= List.length (filter q l))%nat.
Proof.
  intro H. induction l as [|x l IH]; cbn; [lia|]. destruct (p x) eqn:P.
  - rewrite (H x P). cbn. lia.
  - destruct (q x); cbn; lia.
Qed.

Lemma filter_lt {A} (p q : A -> bool) l x : (forall x, p x = true -> q x = true) ->
  In x l -> p x = false -> q x = true -> (List.length (filter p l) < List.length (filter q l))%nat.
Proof.
  intros H I P Q. induction l as [|y l IH]; [destruct I|]. cbn. destruct I as [->|I].
  - rewrite P, Q. cbn. pose proof (filter_le p q l H). lia.
  - specialize (IH I). destruct (p y) eqn:Py; [rewrite (H y Py); cbn; lia|]. destruct (q y); cbn; lia.
Qed.

Lemma find_in {A} (m : list (nat * A)) id a : find m id = Some a -> In (id, a) m.
Proof.
  induction m as [|[i b] m IH]; cbn; [discriminate|]. destruct (Nat.eqb_spec i id) as [->|D]; intro H.
  - injection H as ->. left. reflexivity.
  - right. apply IH, H.
Qed.

Lemma in_find {A} (m : list (nat * A)) id a : NoDup (map fst m) -> In (id, a) m -> find m id = Some a.
Proof.
  induction m as [|[i b] m IH]; cbn; intros N I; [destruct I|]. inversion N as [|? ? N1 N2]; subst.
  destruct I as [E|I].
  - injection E as -> ->. now rewrite Nat.eqb_refl.
  - destruct (Nat.eqb_spec i id) as [->|D]; [|apply IH; assumption]. contradiction N1.
    change id with (fst (id, a)). apply in_map, I.
Qed.

Lemma missing_step defs r r' : step defs r r' -> (missing defs r' <= missing defs r)%nat.
Proof.
  intro S. apply filter_le. intros [id d]. unfold fresh. cbn. destruct (find r id) as [x|] eqn:E; [|reflexivity].
  rewrite (st_grows _ _ _ S _ _ E). discriminate.
Qed.

Lemma visits_fuel defs visit n :
  (forall r t l r', visit r t = Ret (l, r') -> step defs r r' /\ get r' t = Ret l) ->
  (forall r t, (missing defs r <= n)%nat -> visit r t <> OutOfFuel) ->
  forall ts r, (missing defs r <= n)%nat -> visits visit r ts <> OutOfFuel.
Proof.
  intros V F. induction ts as [|t ts IH]; intros r L; cbn; [discriminate|].
  pose proof (F r t L) as Fr. destruct (visit r t) as [[l r1]| |] eqn:E; cbn; [|discriminate|congruence].
  destruct (V _ _ _ _ E) as [S _]. pose proof (missing_step _ _ _ S).
  pose proof (IH r1 ltac:(lia)) as I. destruct (visits visit r1 ts) as [[ls r2]| |]; cbn; [discriminate|discriminate|congruence].
Qed.

Lemma visit_fuel defs fuel : forall r t, (missing defs r <= fuel)%nat -> register_visit defs fuel r t <> OutOfFuel.
Proof.
  induction fuel as [|fuel IH]; intros r t L.
  - destruct t; cbn; try discriminate. destruct (find r id) as [[m|]|] eqn:E; try discriminate.
    destruct (find defs id) as [d|] eqn:D; [|discriminate]. exfalso. apply find_in in D.
    assert (In (id, d) (filter (fresh r) defs)) as I.
    { apply filter_In. split; [exact D|]. unfold fresh. cbn. now rewrite E. }
    unfold missing in L. destruct (filter (fresh r) defs); [destruct I|cbn in L; lia].
  - destruct t; try (cbn; discriminate). cbn [register_visit]. destruct (find r id) as [[m|]|] eqn:E; try discriminate.
    assert (Go : forall d, find defs id = Some d -> forall ts make,
       (let* p := visits (register_visit defs fuel) ((id, None) :: r) ts in
        let '(ls, r) := p in let l := make ls in Ret (l : layout, (id, Some l) :: r)) <> OutOfFuel).
    { intros d D ts make. assert (Lt : (missing defs ((id, None) :: r) < missing defs r)%nat).
      { apply (filter_lt _ _ _ (id, d)).
        - intros [i x]. unfold fresh. cbn. destruct (id =? i)%nat; [discriminate|auto].
        - apply find_in, D.
        - unfold fresh. cbn. now rewrite Nat.eqb_refl.
        - unfold fresh. cbn. now rewrite E. }
      pose proof (visits_fuel defs _ fuel (visit_step defs fuel) IH ts ((id, None) :: r) ltac:(lia)) as V.
      destruct (visits _ _ ts) as [[ls r1]| |]; cbn; [discriminate|discriminate|congruence]. }
    destruct (find defs id) as [[fs|ts|]|] eqn:D; try discriminate; apply (Go _ eq_refl).
Qed.

Lemma register_all_fuel defs fuel todo : forall r, (missing defs r <= fuel)%nat ->
  register_all defs fuel todo r <> OutOfFuel.
Proof.
  induction todo as [|[id d] todo IH]; intros r L; cbn [register_all]; [discriminate|].
  assert (Go : (let* p := register_visit defs fuel r (CtId id) in register_all defs fuel todo (snd p)) <> OutOfFuel).
  { pose proof (visit_fuel defs fuel r (CtId id) L) as F.
    destruct (register_visit defs fuel r (CtId id)) as [[l r1]| |] eqn:V; cbn; [|discriminate|congruence].
    destruct (visit_step _ _ _ _ _ _ V) as [S _]. pose proof (missing_step _ _ _ S). apply IH. lia. }
  destruct d; [exact Go|exact Go|apply IH, L].
Qed.

Lemma missing_le defs r : (missing defs r <= List.length defs)%nat.
Proof. unfold missing. induction defs as [|d defs IH]; cbn; [lia|]. destruct (fresh r d); cbn; lia. Qed.

(** ** What is registered has a finite size *)

Lemma sized_ind2 (k : nat -> Prop) defs (P : ct -> Prop) :
  (forall t l, base_layout t l -> P t) ->
  (forall id, k id -> P (CtId id)) ->
  (forall id fs, In (id, DStruct fs) defs -> Forall (sized k defs) fs -> Forall P fs -> P (CtId id)) ->
  (forall id ts, In (id, DUnion ts) defs -> Forall (sized k defs) ts -> Forall P ts -> P (CtId id)) ->
  forall t, sized k defs t -> P t.
Proof.
  intros HB HK HS HU. fix IH 2. intros t [t' l B|id K|id fs I F|id ts I F].
  - apply (HB _ _ B).
  - apply HK, K.
  - apply (HS id fs I F). clear I. induction F as [|x xs Hx _ IHF]; constructor; [apply IH, Hx|exact IHF].
  - apply (HU id ts I F). clear I. induction F as [|x xs Hx _ IHF]; constructor; [apply IH, Hx|exact IHF].
Qed.

Lemma sized_trans (k k' : nat -> Prop) defs t :
  (forall id, k' id -> sized k defs (CtId id)) -> sized k' defs t -> sized k defs t.
Proof.
  intro H. revert t. apply sized_ind2.
  - intros t l B. apply (sized_base _ _ _ _ B).
  - exact H.
  - intros id fs I _ F. apply (sized_struct _ _ _ _ I F).
  - intros id ts I _ F. apply (sized_union _ _ _ _ I F).
Qed.

Lemma npow_spec s : exists k, next_power_of_two ((N.of_nat s + 7) / 8) = (2 ^ k)%N /\
  (N.of_nat s <= 8 * 2 ^ k)%N /\ (k = 0%N \/ (8 * 2 ^ (k - 1) < N.of_nat s)%N).
Proof.
  unfold next_power_of_two. set (n := ((N.of_nat s + 7) / 8)%N). exists (N.log2_up n). split; [reflexivity|].
  assert (D : (N.of_nat s <= 8 * n /\ 8 * n < N.of_nat s + 8)%N).
  { unfold n. pose proof (N.div_mod (N.of_nat s + 7) 8 ltac:(lia)). pose proof (N.mod_lt (N.of_nat s + 7) 8 ltac:(lia)). lia. }
  destruct (N.le_gt_cases n 1) as [L|L].
  - rewrite N.log2_up_eqn0 by lia. cbn. split; [lia|left; reflexivity].
  - destruct (N.log2_up_spec n L) as [A B]. rewrite <- N.sub_1_r in A. split; [nia|right; nia].
Qed.

Lemma integer_layout k : l_integer (2 ^ k) =
  Layout (2 ^ k) (2 ^ k) (if (16 <? 2 ^ k)%N then Memory else Integer) None.
Proof.
  unfold l_integer, new. assert (P : (2 ^ k =? 0)%N = false) by (apply N.eqb_neq, pow2_pos). rewrite P.
  assert (Z : pad (2 ^ k) (2 ^ k) = 0%N).
  { unfold pad. rewrite N.mod_same by apply pow2_pos. rewrite N.sub_0_r. apply N.mod_same, pow2_pos. }
  rewrite Z, N.add_0_r, P. reflexivity.
Qed.

Lemma base_get r t l : base_layout t l -> get r t = Ret l.
Proof.
  destruct t; cbn [base_layout get]; intro B; try contradiction; try (rewrite B; reflexivity).
  - destruct B as (k & -> & L & M). destruct (npow_spec n) as (k' & E & L' & M').
    enough (k = k') by (subst; rewrite E; f_equal; apply integer_layout).
    destruct (N.lt_trichotomy k k') as [H|[H|H]]; [|exact H|].
    + destruct M' as [M'|M']; [lia|]. assert (2 ^ k <= 2 ^ (k' - 1))%N by (apply N.pow_le_mono_r; lia). lia.
    + destruct M as [M|M]; [lia|]. assert (2 ^ k' <= 2 ^ (k - 1))%N by (apply N.pow_le_mono_r; lia). lia.
  - destruct B as (k & -> & L & M). destruct (npow_spec n) as (k' & E & L' & M').
    enough (k = k') by (subst; rewrite E; f_equal; apply integer_layout).
    destruct (N.lt_trichotomy k k') as [H|[H|H]]; [|exact H|].
    + destruct M' as [M'|M']; [lia|]. assert (2 ^ k <= 2 ^ (k' - 1))%N by (apply N.pow_le_mono_r; lia). lia.
    + destruct M as [M|M]; [lia|]. assert (2 ^ k' <= 2 ^ (k - 1))%N by (apply N.pow_le_mono_r; lia). lia.
Qed.

Lemma get_base r t l : get r t = Ret l -> base_layout t l \/ exists id, t = CtId id.
Proof.
  destruct t; cbn [base_layout get]; intro H; try discriminate H; try (left; injection H as <-; reflexivity); eauto.
  - left. injection H as <-. destruct (npow_spec n) as (k & -> & L). exists k. split; [apply integer_layout|exact L].
  - left. injection H as <-. destruct (npow_spec n) as (k & -> & L). exists k. split; [apply integer_layout|exact L].
Qed.

Lemma visits_sized (defs : list (nat * def)) visit :
  (forall r t l r', visit r t = Ret (l, r') ->
     sized (known r) defs t /\ forall id, known r' id -> sized (known r) defs (CtId id)) ->
  forall ts r ls r', visits visit r ts = Ret (ls, r') ->
  Forall (sized (known r) defs) ts /\ forall id, known r' id -> sized (known r) defs (CtId id).
Proof.
  intro V. induction ts as [|t ts IH]; intros r ls r' H; cbn in H.
  - injection H as <- <-. split; [constructor|]. intros id K. apply sized_known, K.
  - destruct (visit r t) as [[l r1]| |] eqn:E; try discriminate H. cbn in H.
    destruct (visits visit r1 ts) as [[ls' r2]| |] eqn:E2; try discriminate H. cbn in H. injection H as <- <-.
    destruct (V _ _ _ _ E) as [S1 G1]. destruct (IH _ _ _ E2) as [S2 G2]. split.
    + constructor; [exact S1|]. eapply Forall_impl; [|exact S2]. intros t'. apply sized_trans, G1.
    + intros id K. eapply sized_trans; [exact G1|]. apply G2, K.
Qed.

Lemma known_pending r id : find r id = None -> forall i, known ((id, None) :: r) i -> known r i.
Proof.
  intros N i [l K]. apply get_id in K. cbn in K. destruct (id =? i)%nat; [discriminate|]. exists l. apply get_id, K.
Qed.

Lemma visit_sized defs fuel : forall r t l r', register_visit defs fuel r t = Ret (l, r') ->
  sized (known r) defs t /\ forall id, known r' id -> sized (known r) defs (CtId id).
Proof.
  assert (Base : forall r t l r', (let* l := get r t in Ret (l, r)) = Ret (l, r') ->
     (forall id, t <> CtId id) ->
     sized (known r) defs t /\ forall id, known r' id -> sized (known r) defs (CtId id)).
  { intros r t l r' H N. destruct (get r t) as [m| |] eqn:G; try discriminate H. cbn in H. injection H as <- <-.
    destruct (get_base _ _ _ G) as [B|[id E]]; [|now apply N in E].
    split; [apply (sized_base _ _ _ _ B)|]. intros id K. apply sized_known, K. }
  assert (Known : forall r id m, find r id = Some (Some m) ->
     sized (known r) defs (CtId id) /\ forall i, known r i -> sized (known r) defs (CtId i)).
  { intros r id m E. split; [apply sized_known; exists m; now apply get_id|]. intros i K. apply sized_known, K. }
  induction fuel as [|fuel IH]; intros r t l r' H.
  - destruct t; try (apply (Base _ _ _ _ H); intros; discriminate).
    cbn [register_visit] in H. destruct (find r id) as [[m|]|] eqn:E; try discriminate H.
    + injection H as <- <-. apply (Known _ _ _ E).
    + destruct (find defs id) as [[| |]|]; discriminate H.
  - destruct t; try (apply (Base _ _ _ _ H); intros; discriminate).
    cbn [register_visit] in H. destruct (find r id) as [[m|]|] eqn:E; try discriminate H.
    + injection H as <- <-. apply (Known _ _ _ E).
    + assert (Go : forall ts make,
        (let* p := visits (register_visit defs fuel) ((id, None) :: r) ts in
         let '(ls, r) := p in let l := make ls in Ret (l, (id, Some l) :: r)) = Ret (l, r') ->
        (Forall (sized (known r) defs) ts -> sized (known r) defs (CtId id)) ->
        sized (known r) defs (CtId id) /\ forall i, known r' i -> sized (known r) defs (CtId i)).
      { intros ts make K M. destruct (visits _ _ ts) as [[ls r1]| |] eqn:V; try discriminate K. cbn in K.
        injection K as <- <-. destruct (visits_sized defs _ IH _ _ _ _ V) as [S F].
        assert (T : forall t, sized (known ((id, None) :: r)) defs t -> sized (known r) defs t).
        { intro t. apply sized_trans. intros i K. apply sized_known, (known_pending _ _ E), K. }
        assert (Si : sized (known r) defs (CtId id)).
        { apply M. eapply Forall_impl; [|exact S]. exact T. }
        split; [exact Si|]. intros i [m K]. apply get_id in K. cbn in K.
        destruct (Nat.eqb_spec id i) as [->|D]; [exact Si|]. apply T, F. exists m. apply get_id, K. }
      destruct (find defs id) as [[fs|ts|]|] eqn:D; try discriminate H.
      * apply (Go fs product H). apply sized_struct, find_in, D.
      * apply (Go ts sum H). apply sized_union, find_in, D.
Qed.

Lemma register_all_sized defs fuel todo : forall r r', register_all defs fuel todo r = Ret r' ->
  forall id, known r' id -> sized (known r) defs (CtId id).
Proof.
  induction todo as [|[id d] todo IH]; intros r r' H; cbn [register_all] in H.
  - injection H as <-. intros id K. apply sized_known, K.
  - assert (Go : (let* p := register_visit defs fuel r (CtId id) in register_all defs fuel todo (snd p)) = Ret r' ->
      forall id, known r' id -> sized (known r) defs (CtId id)).
    { intro K. destruct (register_visit defs fuel r (CtId id)) as [[l r1]| |] eqn:V; try discriminate K.
      cbn [snd bind] in K. destruct (visit_sized _ _ _ _ _ _ V) as [_ G].
      intros i Ki. eapply sized_trans; [exact G|]. eapply IH; eassumption. }
    destruct d; [apply Go, H|apply Go, H|eapply IH, H].
Qed.

(** ** What has a finite size is registered *)

Section Height.
Variable r0 : resolver.
Variable defs : list (nat * def).

Definition is_base (t : ct) : bool :=
  match t with CtId _ | CtGenericInst _ _ | CtTableGet _ _ => false | _ => true end.

(** [t] has a finite size, with structures nested at most [n] deep. *)
Fixpoint height (n : nat) (t : ct) : bool :=
  match t with
  | CtId id =>
      match find r0 id with
      | Some (Some _) => true
      | _ =>
          match n with
          | O => false
          | S n =>
              match find defs id with
              | Some (DStruct ts) | Some (DUnion ts) => forallb (height n) ts
              | _ => false
              end
          end
      end
  | _ => is_base t
  end.

Lemma height_id n id : height n (CtId id) =
  match find r0 id with
  | Some (Some _) => true
  | _ => match n with
         | O => false
         | S n => match find defs id with
                  | Some (DStruct ts) | Some (DUnion ts) => forallb (height n) ts
                  | _ => false
                  end
         end
  end.
Proof. destruct n; reflexivity. Qed.

Lemma forallb_impl {A} (p q : A -> bool) l : (forall x, p x = true -> q x = true) ->
  forallb p l = true -> forallb q l = true.
Proof. rewrite !forallb_forall. auto. Qed.

Lemma height_S n : forall t, height n t = true -> height (S n) t = true.
Proof.
  induction n as [|n IH]; intros t H.
  - destruct t; try exact H. rewrite height_id in *. destruct (find r0 id) as [[m|]|]; [reflexivity|discriminate H|discriminate H].
  - destruct t; try exact H. rewrite height_id in *. destruct (find r0 id) as [[m|]|]; [reflexivity| |].
    + destruct (find defs id) as [[ts|ts|]|]; try discriminate H; (eapply forallb_impl; [exact IH|exact H]).
    + destruct (find defs id) as [[ts|ts|]|]; try discriminate H; (eapply forallb_impl; [exact IH|exact H]).
Qed.

Lemma height_le n m t : (n <= m)%nat -> height n t = true -> height m t = true.
Proof. induction 1 as [|m _ IH]; intro H; [exact H|]. apply height_S, IH, H. Qed.

Lemma forall_height ts : Forall (fun t => exists n, height n t = true) ts -> exists n, forallb (height n) ts = true.
Proof.
  induction 1 as [|t ts [n H] _ [m K]]; [exists O; reflexivity|]. exists (Nat.max n m). cbn.
  rewrite (height_le n) by (try exact H; lia). eapply forallb_impl; [|exact K]. intros x. apply height_le. lia.
Qed.

Lemma sized_height t : NoDup (map fst defs) -> sized (known r0) defs t -> exists n, height n t = true.
Proof.
  intro ND. revert t. apply sized_ind2.
  - intros t l B. exists O. destruct t; try reflexivity; destruct B.
  - intros id [l K]. exists O. rewrite height_id. apply get_id in K. now rewrite K.
  - intros id fs I _ F. destruct (forall_height fs F) as [n H]. exists (S n). rewrite height_id.
    rewrite (in_find _ _ _ ND I). destruct (find r0 id) as [[m|]|]; [reflexivity|exact H|exact H].
  - intros id fs I _ F. destruct (forall_height fs F) as [n H]. exists (S n). rewrite height_id.
    rewrite (in_find _ _ _ ND I). destruct (find r0 id) as [[m|]|]; [reflexivity|exact H|exact H].
Qed.

(** No type whose layout is being computed has a height of [n] or less. *)
Definition above (n : nat) (r : resolver) : Prop :=
  forall id, find r id = Some None -> height n (CtId id) = false.

Lemma above_le n m r : (n <= m)%nat -> above m r -> above n r.
Proof.
  intros L A id P. specialize (A id P). destruct (height n (CtId id)) eqn:E; [|reflexivity].
  rewrite (height_le n m _ L E) in A. discriminate A.
Qed.

Lemma above_step n r r' : step defs r r' -> above n r -> above n r'.
Proof.
  intros S A id P. destruct (find r id) as [x|] eqn:E.
  - apply A. pose proof (st_grows _ _ _ S _ _ E). congruence.
  - destruct (st_new _ _ _ S _ _ E P) as (l & N & _). discriminate N.
Qed.

Definition fine {A} (o : outcome A) : Prop := match o with Panic => False | _ => True end.

Lemma visits_fine visit n :
  (forall r t l r', visit r t = Ret (l, r') -> step defs r r' /\ get r' t = Ret l) ->
  (forall r t, grows r0 r -> above n r -> height n t = true -> fine (visit r t)) ->
  forall ts r, grows r0 r -> above n r -> forallb (height n) ts = true -> fine (visits visit r ts).
Proof.
  intros V F. induction ts as [|t ts IH]; intros r G A H; cbn; [exact I|].
  cbn in H. apply andb_true_iff in H. destruct H as [H1 H2].
  pose proof (F r t G A H1) as K. destruct (visit r t) as [[l r1]| |] eqn:E; cbn; [|exact K|exact I].
  destruct (V _ _ _ _ E) as [S _].
  pose proof (IH r1 (grows_trans _ _ _ G (step_grows _ _ _ S)) (above_step _ _ _ S A) H2) as K2.
  destruct (visits visit r1 ts) as [[ls r2]| |]; cbn; [exact I|exact K2|exact I].
Qed.

Lemma visit_fine n : forall fuel r t, grows r0 r -> above n r -> height n t = true ->
  fine (register_visit defs fuel r t).
Proof.
  induction n as [n IHn] using lt_wf_ind. intros fuel r t G A H.
  destruct t; try (destruct fuel, n; cbn in H |- *; first [exact I|discriminate H]).
  assert (Shrink : forall m, (m < n)%nat -> height m (CtId id) = true -> fine (register_visit defs fuel r (CtId id))).
  { intros m L Hm. apply (IHn m L); [exact G| |exact Hm]. apply (above_le m n); [lia|exact A]. }
  destruct fuel as [|fuel]; cbn [register_visit].
  - destruct (find r id) as [[m|]|] eqn:E; [exact I|rewrite (A _ E) in H; discriminate H|].
    rewrite height_id in H. destruct (find r0 id) as [[m|]|] eqn:E0; [rewrite (G _ _ E0) in E; discriminate E| |];
    (destruct n; [discriminate H|]; destruct (find defs id) as [[| |]|]; try discriminate H; exact I).
  - destruct (find r id) as [[m|]|] eqn:E; [exact I|rewrite (A _ E) in H; discriminate H|].
    destruct n as [|n].
    { rewrite height_id in H. destruct (find r0 id) as [[m|]|] eqn:E0; [rewrite (G _ _ E0) in E| |]; discriminate. }
    destruct (height n (CtId id)) eqn:Hn.
    { specialize (Shrink n ltac:(lia) Hn). cbn [register_visit] in Shrink. rewrite E in Shrink. exact Shrink. }
    assert (Go : forall ts make, forallb (height n) ts = true ->
       fine (let* p := visits (register_visit defs fuel) ((id, None) :: r) ts in
        let '(ls, r) := p in let l := make ls in Ret (l : layout, (id, Some l) :: r))).
    { intros ts make Ht.
      pose proof (visits_fine (register_visit defs fuel) n (visit_step defs fuel)) as V.
      assert (K : fine (visits (register_visit defs fuel) ((id, None) :: r) ts)).
      { apply V; [|  | |exact Ht].
        - intros r' t' G' A' H'. apply (IHn n); [lia|exact G'|exact A'|exact H'].
        - intros i l F. cbn. destruct (Nat.eqb_spec id i) as [->|D]; [|apply G, F].
          apply G in F. congruence.
        - intros i P. cbn in P. destruct (Nat.eqb_spec id i) as [->|D]; [exact Hn|].
          apply (above_le n (S n)) in A; [|lia]. apply A, P. }
      destruct (visits _ _ ts) as [[ls r1]| |]; cbn; [exact I|exact K|exact I]. }
    rewrite height_id in H. destruct (find r0 id) as [[m|]|] eqn:E0; [rewrite (G _ _ E0) in E; discriminate E| |];
      (destruct (find defs id) as [[ts|ts|]|]; try discriminate H; apply Go, H).
Qed.

Lemma register_all_fine fuel todo : (forall id, find r0 id <> Some None) ->
  (forall id d, In (id, d) todo -> is_type d = true -> exists n, height n (CtId id) = true) ->
  forall r, step defs r0 r -> fine (register_all defs fuel todo r).
Proof.
  intro N0. induction todo as [|[id d] todo IH]; intros H r S; cbn [register_all]; [exact I|].
  assert (Go : is_type d = true ->
    fine (let* p := register_visit defs fuel r (CtId id) in register_all defs fuel todo (snd p))).
  { intro T. destruct (H id d (or_introl eq_refl) T) as [n Hn].
    assert (A : above n r).
    { intros i P. exfalso. destruct (find r0 i) as [x|] eqn:E.
      - pose proof (st_grows _ _ _ S _ _ E) as E'. apply (N0 i). congruence.
      - destruct (st_new _ _ _ S _ _ E P) as (l & N & _). discriminate N. }
    pose proof (visit_fine n fuel r (CtId id) (step_grows _ _ _ S) A Hn) as F.
    destruct (register_visit defs fuel r (CtId id)) as [[l r1]| |] eqn:V; cbn; [|exact F|exact I].
    destruct (visit_step _ _ _ _ _ _ V) as [S1 _]. apply IH; [|eapply step_trans; eassumption].
    intros i d' I T'. apply (H i d'); [right; exact I|exact T']. }
  destruct d; [apply Go; reflexivity|apply Go; reflexivity|].
  apply IH; [|exact S]. intros i d' I T'. apply (H i d'); [right; exact I|exact T'].
Qed.
End Height.

(** ** Registering *)

Lemma register_step order defs r r' : (forall l, Permutation (order l) l) -> register order defs r = Ret r' ->
  step defs r r' /\ forall id d, In (id, d) defs -> is_type d = true -> known r' id.
Proof.
  intros P H. apply register_all_step in H. destruct H as [S K]. split; [exact S|].
  intros id d I. apply K. apply (Permutation_in _ (Permutation_sym (P defs)) I).
Qed.

Lemma reached_settled r : reached r -> forall id, find r id <> Some None.
Proof.
  induction 1 as [|r order defs r' _ IH ND P H]; intros id K; [discriminate K|].
  destruct (register_step _ _ _ _ P H) as [S _]. destruct (find r id) as [x|] eqn:E.
  - pose proof (st_grows _ _ _ S _ _ E). apply (IH id). congruence.
  - destruct (st_new _ _ _ S _ _ E K) as (l & N & _). discriminate N.
Qed.

Theorem register_exact order defs r : reached r -> NoDup (map fst defs) -> (forall l, Permutation (order l) l) ->
  register order defs r <> OutOfFuel /\
  ((exists r', register order defs r = Ret r') <->
   (forall id d, In (id, d) defs -> is_type d = true -> sized (known r) defs (CtId id))).
Proof.
  intros R ND P. split; [apply register_all_fuel, missing_le|]. split.
  - intros [r' H] id d I T. destruct (register_step _ _ _ _ P H) as [_ K].
    eapply register_all_sized; [exact H|]. eapply K; eassumption.
  - intro H. unfold register.
    pose proof (register_all_fuel defs (List.length defs) (order defs) r (missing_le defs r)) as F.
    assert (G : fine (register_all defs (List.length defs) (order defs) r)).
    { apply (register_all_fine r); [apply reached_settled, R| |apply step_refl].
      intros id d I T. apply sized_height; [exact ND|]. apply (H id d); [|exact T].
      apply (Permutation_in _ (P defs) I). }
    destruct (register_all _ _ _ _) as [r'| |]; [exists r'; reflexivity|destruct G|congruence].
Qed.

Theorem register_keeps order defs r r' t l : (forall l, Permutation (order l) l) -> register order defs r = Ret r' ->
  get r t = Ret l -> get r' t = Ret l.
Proof.
  intros P H. apply get_grows. destruct (register_step _ _ _ _ P H) as [S _]. eapply step_grows, S.
Qed.

Lemma forall2_eq r1 r2 ts : Forall (fun t => get r1 t = get r2 t) ts -> forall l1 l2,
  Forall2 (fun t l => get r1 t = Ret l) ts l1 -> Forall2 (fun t l => get r2 t = Ret l) ts l2 -> l1 = l2.
Proof.
  induction 1 as [|t ts H _ IH]; intros l1 l2 A B; inversion A; inversion B; subst; [reflexivity|].
  f_equal; [congruence|]. apply IH; assumption.
Qed.

Lemma agree defs r r1 r2 : NoDup (map fst defs) -> step defs r r1 -> step defs r r2 ->
  (forall id d, In (id, d) defs -> is_type d = true -> known r1 id) ->
  (forall id d, In (id, d) defs -> is_type d = true -> known r2 id) ->
  forall t, sized (known r) defs t -> get r1 t = get r2 t.
Proof.
  intros ND S1 S2 K1 K2.
  assert (Def : forall id d, In (id, d) defs -> is_type d = true ->
    (forall m1 m2, made defs r1 id m1 -> made defs r2 id m2 -> m1 = m2) -> get r1 (CtId id) = get r2 (CtId id)).
  { intros id d I T M. destruct (K1 id d I T) as [l1 G1]. destruct (K2 id d I T) as [l2 G2].
    rewrite G1, G2. apply get_id in G1, G2. destruct (find r id) as [x|] eqn:E.
    - pose proof (st_grows _ _ _ S1 _ _ E). pose proof (st_grows _ _ _ S2 _ _ E). congruence.
    - destruct (st_new _ _ _ S1 _ _ E G1) as (m1 & E1 & M1). destruct (st_new _ _ _ S2 _ _ E G2) as (m2 & E2 & M2).
      injection E1 as ->. injection E2 as ->. f_equal. apply M; assumption. }
  apply sized_ind2.
  - intros t l B. now rewrite !(base_get _ t l B).
  - intros id [l G]. rewrite (get_grows r r1 _ _ (step_grows _ _ _ S1) G).
    now rewrite (get_grows r r2 _ _ (step_grows _ _ _ S2) G).
  - intros id fs I _ F. apply (Def id _ I eq_refl). pose proof (in_find _ _ _ ND I) as D.
    intros m1 m2 [(f1 & l1 & D1 & F1 & ->)|(f1 & l1 & D1 & F1 & ->)]
      [(f2 & l2 & D2 & F2 & ->)|(f2 & l2 & D2 & F2 & ->)]; try congruence.
    assert (f1 = fs) by congruence. assert (f2 = fs) by congruence. subst. f_equal. eapply forall2_eq; eassumption.
  - intros id fs I _ F. apply (Def id _ I eq_refl). pose proof (in_find _ _ _ ND I) as D.
    intros m1 m2 [(f1 & l1 & D1 & F1 & ->)|(f1 & l1 & D1 & F1 & ->)]
      [(f2 & l2 & D2 & F2 & ->)|(f2 & l2 & D2 & F2 & ->)]; try congruence.
    assert (f1 = fs) by congruence. assert (f2 = fs) by congruence. subst. f_equal. eapply forall2_eq; eassumption.
Qed.

Theorem register_order order1 order2 defs r r1 : reached r -> NoDup (map fst defs) ->
  (forall l, Permutation (order1 l) l) -> (forall l, Permutation (order2 l) l) ->
  register order1 defs r = Ret r1 -> exists r2, register order2 defs r = Ret r2 /\ same r1 r2.
Proof.
  intros R ND P1 P2 H1.
  destruct (register_exact order1 defs r R ND P1) as [_ [A1 _]].
  destruct (register_exact order2 defs r R ND P2) as [_ [_ A2]].
  destruct (A2 (A1 (ex_intro _ r1 H1))) as [r2 H2]. exists r2. split; [exact H2|].
  destruct (register_step _ _ _ _ P1 H1) as [S1 K1]. destruct (register_step _ _ _ _ P2 H2) as [S2 K2].
  pose proof (agree defs r r1 r2 ND S1 S2 K1 K2) as Ag.
  intros t l. split; intro G.
  - rewrite <- Ag; [exact G|]. destruct (get_base _ _ _ G) as [B|[id ->]]; [apply (sized_base _ _ _ _ B)|].
    eapply register_all_sized; [exact H1|]. exists l. exact G.
  - rewrite Ag; [exact G|]. destruct (get_base _ _ _ G) as [B|[id ->]]; [apply (sized_base _ _ _ _ B)|].
    eapply register_all_sized; [exact H2|]. exists l. exact G.
Qed.

(** ** The layouts themselves *)

Lemma new_good sz al c : (sz = 0 /\ al = 0 \/ 0 < sz /\ (exists k, al = 2 ^ k))%N -> c <> Memory -> c <> Void ->
  good (new sz al c).
Proof.
  intros H M V. apply good_leaf; [| |reflexivity].
  - unfold ok, new. cbn. destruct H as [[-> ->]|[L [k K]]]; [left; auto|right].
    assert (A : al <> 0%N) by (rewrite K; apply pow2_pos). rewrite (proj2 (N.eqb_neq _ _) A).
    split; [lia|]. split; [exists k; exact K|]. apply N.mod_divide; [exact A|]. apply pad_spec, A.
  - unfold class_ok, new. cbn. set (s := if (al =? 0)%N then sz else (sz + pad sz al)%N). clearbody s.
    destruct (size_cases s) as [->|[[L U]|B]]; cbn.
    + split; split; intro K; try discriminate; try reflexivity; lia.
    + rewrite (proj2 (N.eqb_neq _ _)) by lia. rewrite (proj2 (N.ltb_ge _ _)) by lia.
      split; split; intro K; try contradiction; lia.
    + rewrite (proj2 (N.eqb_neq _ _)) by lia. rewrite (proj2 (N.ltb_lt _ _) B).
      split; split; intro K; try discriminate; try reflexivity; lia.
Qed.

Lemma base_good t l : base_layout t l -> good l.
Proof.
  intro B. apply (base_get [] t l) in B. destruct t; cbn [get] in B; try discriminate B; injection B as <-;
  try (apply new_good; [right; split; [reflexivity|]|discriminate|discriminate]).
  all: try (exists 3%N; reflexivity). all: try (exists 2%N; reflexivity).
  - apply new_good; [right|discriminate|discriminate]. split; [|eexists; reflexivity]. pose proof (pow2_pos (N.log2_up ((N.of_nat n + 7) / 8))).
    unfold next_power_of_two. lia.
  - apply new_good; [right|discriminate|discriminate]. split; [|eexists; reflexivity]. pose proof (pow2_pos (N.log2_up ((N.of_nat n + 7) / 8))).
    unfold next_power_of_two. lia.
  - apply good_leaf; [left; split; reflexivity| |reflexivity]. split; split; intro K; try discriminate; reflexivity.
Qed.

Definition all_good (r : resolver) : Prop := forall t l, get r t = Ret l -> good l.

Lemma forall2_good r ts ls : all_good r -> Forall2 (fun t l => get r t = Ret l) ts ls -> Forall good ls.
Proof. intro A. induction 1; constructor; [eapply A; eassumption|assumption]. Qed.

Lemma sized_good defs r r' : all_good r -> NoDup (map fst defs) -> step defs r r' ->
  forall t, sized (known r) defs t -> forall l, get r' t = Ret l -> good l.
Proof.
  intros A ND S.
  assert (Def : forall id d, In (id, d) defs -> (forall m, made defs r' id m -> good m) ->
     forall l, get r' (CtId id) = Ret l -> good l).
  { intros id d I M l G. apply get_id in G. destruct (find r id) as [x|] eqn:E.
    - pose proof (st_grows _ _ _ S _ _ E) as E'. rewrite E' in G. injection G as ->.
      apply (A (CtId id)), get_id, E.
    - destruct (st_new _ _ _ S _ _ E G) as (m & E1 & M1). injection E1 as ->. apply M, M1. }
  assert (F2 : forall ts ls, Forall (fun t => forall l, get r' t = Ret l -> good l) ts ->
     Forall2 (fun t l => get r' t = Ret l) ts ls -> Forall good ls).
  { intros ts ls F K. induction K; inversion F; subst; constructor; auto. }
  apply (sized_ind2 (known r) defs (fun t => forall l, get r' t = Ret l -> good l)).
  - intros t l B l' G. rewrite (base_get r' t l B) in G. injection G as <-. apply (base_good _ _ B).
  - intros id [l0 G0] l G. rewrite (get_grows r r' _ _ (step_grows _ _ _ S) G0) in G. injection G as <-.
    apply (A _ _ G0).
  - intros id fs I _ F. apply (Def id _ I). pose proof (in_find _ _ _ ND I) as D.
    intros m [(f1 & l1 & D1 & F1 & ->)|(f1 & l1 & D1 & F1 & ->)]; [|congruence].
    assert (f1 = fs) by congruence. subst. apply good_product. eapply F2; eassumption.
  - intros id fs I _ F. apply (Def id _ I). pose proof (in_find _ _ _ ND I) as D.
    intros m [(f1 & l1 & D1 & F1 & ->)|(f1 & l1 & D1 & F1 & ->)]; [congruence|].
    assert (f1 = fs) by congruence. subst. apply sum_good. eapply F2; eassumption.
Qed.

Lemma reached_good r : reached r -> all_good r.
Proof.
  induction 1 as [|r order defs r' _ IH ND P H]; intros t l G.
  - destruct (get_base _ _ _ G) as [B|[id ->]]; [apply (base_good _ _ B)|discriminate G].
  - destruct (register_step _ _ _ _ P H) as [S _]. apply (sized_good defs r r' IH ND S t); [|exact G].
    destruct (get_base _ _ _ G) as [B|[id ->]]; [apply (sized_base _ _ _ _ B)|].
    eapply register_all_sized; [exact H|]. exists l. exact G.
Qed.

Theorem registered_struct order defs r r' id fs : reached r -> NoDup (map fst defs) ->
  (forall l, Permutation (order l) l) -> register order defs r = Ret r' ->
  In (id, DStruct fs) defs -> ~ known r id ->
  exists ls l, Forall2 (fun t l => get r' t = Ret l) fs ls /\ get r' (CtId id) = Ret l /\ struct_layout ls l.
Proof.
  intros R ND P H I N. destruct (register_step _ _ _ _ P H) as [S K]. destruct (K id _ I eq_refl) as [l G].
  pose proof (reached_good _ (reached_register _ _ _ _ R ND P H)) as A.
  apply get_id in G as G'. destruct (find r id) as [[x|]|] eqn:E.
  - contradiction N. exists x. apply get_id, E.
  - exfalso. now apply (reached_settled r R id).
  - destruct (st_new _ _ _ S _ _ E G') as (m & E1 & M). injection E1 as <-. pose proof (in_find _ _ _ ND I) as D.
    destruct M as [(f1 & l1 & D1 & F1 & ->)|(f1 & l1 & D1 & F1 & ->)]; [|congruence].
    assert (f1 = fs) by congruence. subst. exists l1, (product l1). split; [exact F1|]. split; [exact G|].
    apply product_struct. eapply forall2_good; eassumption.
Qed.

Theorem registered_union order defs r r' id ts : reached r -> NoDup (map fst defs) ->
  (forall l, Permutation (order l) l) -> register order defs r = Ret r' ->
  In (id, DUnion ts) defs -> ~ known r id ->
  exists ls l, Forall2 (fun t l => get r' t = Ret l) ts ls /\ get r' (CtId id) = Ret l /\ union_layout ls l.
Proof.
  intros R ND P H I N. destruct (register_step _ _ _ _ P H) as [S K]. destruct (K id _ I eq_refl) as [l G].
  pose proof (reached_good _ (reached_register _ _ _ _ R ND P H)) as A.
  apply get_id in G as G'. destruct (find r id) as [[x|]|] eqn:E.
  - contradiction N. exists x. apply get_id, E.
  - exfalso. now apply (reached_settled r R id).
  - destruct (st_new _ _ _ S _ _ E G') as (m & E1 & M). injection E1 as <-. pose proof (in_find _ _ _ ND I) as D.
    destruct M as [(f1 & l1 & D1 & F1 & ->)|(f1 & l1 & D1 & F1 & ->)]; [congruence|].
    assert (f1 = ts) by congruence. subst. exists l1, (sum l1). split; [exact F1|]. split; [exact G|].
    apply sum_union. eapply forall2_good; eassumption.
Qed.

Theorem layout_ok r t l : reached r -> get r t = Ret l -> ok l /\ class_ok l.
Proof.
  intros R G. apply (reached_good r R) in G. split; [apply good_ok, G|apply good_class, G].
Qed.

Theorem layout_eightbytes r t l : reached r -> get r t = Ret l ->
  eightbytes_cover 0 (eightbytes l) (size l) /\
  ((0 < size l <= 16)%N -> Forall (fun e => has_class l (e_offset e) (e_class e)) (eightbytes l)).
Proof.
  intros R G. apply (reached_good r R) in G. split; [apply eightbytes_cover_all|apply eightbytes_have_class, G].
Qed.

Theorem stack_size l : (size l <= size (in_stack l) < size l + 8 /\ size (in_stack l) mod 8 = 0)%N /\
  align (in_stack l) = align l.
Proof.
  split; [|reflexivity]. cbn [in_stack size]. unfold size_in_stack, num_eightbytes. cbn [andb].
  split; [|apply N.mod_mul; lia].
  pose proof (N.div_mod (size l + 7) 8 ltac:(lia)). pose proof (N.mod_lt (size l + 7) 8 ltac:(lia)). lia.
Qed.
