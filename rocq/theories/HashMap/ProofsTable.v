(** * The table: storing and removing *)
From Coq Require Import Permutation.
From Verif.Base Require Import Base Buf BufFacts.
From Verif.HashMap Require Import Model Spec ProofsArith Proofs.
Local Open Scope N_scope.
Local Open Scope list_scope.

Section Table.
Context {K V : Type} (eqk : K -> K -> bool) (hash : K -> N).
Hypothesis L : lawful eqk hash.
Notation ent := (N * K * V)%type.
Implicit Types (m : body K V) (s : buf ent) (e : ent) (k : K) (v : V).

(** ** Storing an entry in a slot *)
Lemma holds_upd m s i h k v l : holds m s -> i < cap m -> exists_ h = true ->
  holds (Body l (cap m) (upd (hashes m) i (Some h)) (upd (keys m) i (Some k)) (upd (values m) i (Some v))) (upd s i (Some (h, k, v))).
Proof.
  intros [Hp H1 H2 H3 H4 H5] Hi Eh.
  split; cbn [cap hashes keys values]; rewrite ?size_upd by lia; try assumption.
  intros j Hj; unfold slot_ok; cbn [hashes keys values]; rewrite !at_upd by lia.
  specialize (H5 j Hj); unfold slot_ok in H5.
  destruct (j =? i); [repeat split; assumption|exact H5].
Qed.

(** What is asked of the slot before one that is to hold an entry. *)
Definition carry (n : N) s (i h : N) : Prop :=
  gap n i h = 0 \/ forall p, p < n -> nxt n p = i -> exists e, at_ s p = Some e /\ gap n i h <= gap n p (hash_of e) + 1.

Lemma robin_upd n s i h k v : power n -> size s = n -> robin n s -> i < n -> carry n s i h ->
  (forall e, at_ s (nxt n i) = Some e -> gap n (nxt n i) (hash_of e) <> 0 -> gap n (nxt n i) (hash_of e) <= gap n i h + 1) ->
  robin n (upd s i (Some (h, k, v))).
Proof.
  intros Hp Hs R Hi C Nx p e Hpn He Hg.
  assert (Hgi : gap n i h < n) by (apply gap_lt; assumption).
  rewrite at_upd in He by lia; rewrite at_upd by lia.
  destruct (nxt n p =? i) eqn:E1.
  - apply N.eqb_eq in E1; injection He as <-; cbn [hash_of fst] in *; rewrite E1 in *.
    destruct C as [C|C]; [congruence|].
    destruct (C p Hpn E1) as (e & A & G).
    destruct (p =? i) eqn:E2; [apply N.eqb_eq in E2; subst p; exfalso; unfold nxt in E1; destruct (i + 1 =? n) eqn:E3; lia|].
    exists e; split; assumption.
  - destruct (p =? i) eqn:E2.
    + apply N.eqb_eq in E2; subst p; exists (h, k, v); split; [reflexivity|apply Nx; assumption].
    + apply R; assumption.
Qed.

Lemma nxt_inj n p q : p < n -> q < n -> nxt n p = nxt n q -> p = q.
Proof. intros; circ. Qed.

(** A key that is not in the table is placed. *)
Lemma place fuel : forall stolen h k v m s i d,
  holds m s -> robin (cap m) s -> i < cap m -> exists_ h = true -> carry (cap m) s i h ->
  d < cap m -> at_ s (adv (cap m) i d) = None -> (N.to_nat d < fuel)%nat ->
  (stolen = true \/ forall j e, at_ s j = Some e -> eqk k (key_of e) = false) ->
  exists m' s', insert_loop eqk fuel stolen h k v m i = Ret (None, m') /\ cap m' = cap m /\ len m' = add64 (len m) 1 /\
    holds m' s' /\ robin (cap m) s' /\ Permutation (filled_in s') ((h, k, v) :: filled_in s).
Proof.
  induction fuel as [|fuel IH]; intros stolen h k v m s i d Hh R Hi Eh C Hd He Hf Ab; [lia|].
  pose proof (h_power _ _ Hh) as Hp; pose proof (h_size _ _ Hh) as Hs.
  pose proof (h_slots _ _ Hh i Hi) as SL; unfold slot_ok in SL; cbn [insert_loop].
  destruct (at_ s i) as [[[h' k'] v']|] eqn:EP.
  - destruct SL as (S1 & S2 & S3 & S4); rewrite (load_at _ _ _ S1), (load_at _ _ _ S3); cbn [bind]; rewrite S2.
    assert (Q : (if negb stolen && (h =? h') then Ret (eqk k k') else Ret false) = Ret false).
    { destruct Ab as [->|Ab]; [reflexivity|]; rewrite (Ab _ _ EP : eqk k k' = false); destruct (_ && _); reflexivity. }
    rewrite Q; cbn [bind]; rewrite !distance_gap by assumption; cbn [bind]; rewrite next_index by assumption; cbn [bind].
    assert (D0 : 0 < d) by (destruct (N.eq_dec d 0) as [->|]; [rewrite adv_0 in He by exact Hi; congruence|lia]).
    assert (Nl : nxt (cap m) i < cap m) by (apply nxt_lt; exact Hi).
    destruct (gap (cap m) i h' <? gap (cap m) i h) eqn:EG.
    + apply N.ltb_lt in EG.
      rewrite (replace_upd _ _ _ _ S1), (replace_upd _ _ _ _ S3), (replace_upd _ _ _ _ S4); cbn [bind].
      set (m1 := Body (len m) (cap m) _ _ _).
      assert (Hh1 : holds m1 (upd s i (Some (h, k, v)))) by (apply holds_upd; assumption).
      assert (R1 : robin (cap m) (upd s i (Some (h, k, v)))).
      { apply robin_upd; try assumption.
        intros e A G; destruct (R i e Hi A G) as (e' & A' & G'); rewrite EP in A'; injection A' as <-; cbn in G'; lia. }
      destruct (IH true h' k' v' m1 _ (nxt (cap m) i) (d - 1) Hh1 R1 Nl S2) as (m' & s' & E1 & E2 & E3 & E4 & E5 & E6).
      * destruct (gap_nxt (cap m) i h' Hp Hi) as [G|G]; [left; exact G|right].
        intros p Pl Pn; apply nxt_inj in Pn; [|assumption..]; subst p.
        rewrite at_upd, N.eqb_refl by lia; exists (h, k, v); split; [reflexivity|]; cbn [m1 cap hash_of fst]; lia.
      * cbn [m1 cap]; lia.
      * cbn [m1 cap]; rewrite adv_nxt by assumption; rewrite at_upd by lia.
        pose proof (adv_ne (cap m) i d Hi Hd D0) as NE; apply N.eqb_neq in NE; rewrite NE; exact He.
      * lia.
      * now left.
      * exists m', s'; split; [exact E1|]; split; [exact E2|]; split; [exact E3|]; split; [exact E4|]; split; [exact E5|].
        rewrite E6; pose proof (filled_in_upd s i (Some (h, k, v)) ltac:(lia)) as P; rewrite EP in P; cbn [olist app] in P.
        symmetry; exact P.
    + apply N.ltb_ge in EG.
      destruct (IH stolen h k v m s (nxt (cap m) i) (d - 1) Hh R Nl Eh) as (m' & s' & E).
      * destruct (gap_nxt (cap m) i h Hp Hi) as [G|G]; [left; exact G|right].
        intros p Pl Pn; apply nxt_inj in Pn; [|assumption..]; subst p.
        exists (h', k', v'); split; [exact EP|]; cbn [hash_of fst]; lia.
      * lia.
      * rewrite adv_nxt by assumption; exact He.
      * lia.
      * exact Ab.
      * exists m', s'; exact E.
  - destruct SL as (h0 & S1 & S2); rewrite (load_at _ _ _ S1); cbn [bind]; rewrite S2.
    rewrite !store_upd by (rewrite ?(h_hashes _ _ Hh), ?(h_keys _ _ Hh), ?(h_values _ _ Hh); exact Hi); cbn [bind].
    eexists _, (upd s i (Some (h, k, v))); split; [reflexivity|]; cbn [cap len]; split; [reflexivity|]; split; [reflexivity|].
    split; [apply holds_upd; assumption|]; split.
    + apply robin_upd; try assumption.
      intros e A G; destruct (R i e Hi A G) as (e' & A' & _); congruence.
    + pose proof (filled_in_upd s i (Some (h, k, v)) ltac:(lia)) as P; rewrite EP in P; cbn [olist app] in P; symmetry; exact P.
Qed.

(** A key that is in the table keeps its slot; its value is replaced. *)
Lemma replaced fuel m s i h k v e :
  holds m s -> robin (cap m) s -> unique eqk s -> i < cap m -> at_ s i = Some e -> h = hash_of e -> eqk k (key_of e) = true ->
  forall x, x <= gap (cap m) i h -> (N.to_nat (gap (cap m) i h - x) < fuel)%nat ->
  insert_loop eqk fuel false h k v m (adv (cap m) (ideal_index h (cap m)) x) =
  Ret (Some (val_of e), Body (len m) (cap m) (hashes m) (keys m) (upd (values m) i (Some v))).
Proof.
  intros Hh R U Hi He -> Hk; set (h := hash_of e); set (n := cap m) in *; pose proof (h_power _ _ Hh) as Hp; fold n in Hp.
  pose proof (gap_lt n i h Hp Hi) as GL; pose proof (ideal_lt n h Hp) as IL.
  induction fuel as [|fuel IH]; intros x Hx Hf; [lia|].
  destruct (chain n s i e Hp R Hi He x Hx) as (e' & A & G); fold h in A, G.
  pose proof (adv_lt n (ideal_index h n) x IL ltac:(lia)) as PL.
  set (p := adv n (ideal_index h n) x) in *.
  pose proof (h_slots _ _ Hh p PL) as SL; unfold slot_ok in SL; rewrite A in SL; destruct e' as [[h' k'] v'].
  destruct SL as (S1 & S2 & S3 & S4).
  cbn [insert_loop negb andb]; rewrite (load_at _ _ _ S1); cbn [bind]; rewrite S2.
  destruct (N.eq_dec p i) as [->|NE].
  - assert (Same : (h', k', v') = e) by congruence; subst e; cbn in h; subst h; rewrite N.eqb_refl, (load_at _ _ _ S3); cbn [bind].
    cbn in Hk; rewrite Hk, (replace_upd _ _ _ _ S4); reflexivity.
  - assert (X : x <> gap n i h) by (intros ->; apply NE; unfold p; apply adv_gap; assumption).
    assert (Q : (if h =? h' then let* k0 := load p (keys m) in Ret (eqk k k0) else Ret false) = Ret false).
    { destruct (h =? h') eqn:EH; [|reflexivity]; rewrite (load_at _ _ _ S3); cbn [bind]; f_equal.
      destruct (eqk k k') eqn:EK; [|reflexivity]; exfalso; apply NE; eapply (U p i); [exact A|exact He|].
      cbn; eapply (eqk_trans _ _ L); [apply (eqk_sym _ _ L); exact EK|exact Hk]. }
    rewrite Q; cbn [bind].
    fold n; rewrite !distance_gap by assumption; cbn [bind].
    assert (PX : gap n p h = x) by (apply gap_adv; [exact Hp|lia]); rewrite PX.
    cbn in G; replace (gap n p h' <? x) with false by lia.
    rewrite next_index by assumption; cbn [bind].
    unfold p; rewrite <- adv_succ by lia; apply IH; lia.
Qed.

Lemma holds_value m s i e v : holds m s -> i < cap m -> at_ s i = Some e ->
  holds (Body (len m) (cap m) (hashes m) (keys m) (upd (values m) i (Some v))) (upd s i (Some (hash_of e, key_of e, v))).
Proof.
  intros [Hp H1 H2 H3 H4 H5] Hi He.
  split; cbn [cap hashes keys values]; rewrite ?size_upd by lia; try assumption.
  intros j Hj; unfold slot_ok; cbn [hashes keys values]; rewrite !at_upd by lia.
  specialize (H5 j Hj); unfold slot_ok in H5.
  destruct (j =? i) eqn:E; [|exact H5].
  apply N.eqb_eq in E; subst j; rewrite He in H5; destruct e as [[h k] w]; cbn; intuition.
Qed.
Lemma robin_value n s i e v : size s = n -> robin n s -> i < n -> at_ s i = Some e -> robin n (upd s i (Some (hash_of e, key_of e, v))).
Proof.
  intros Hs R Hi He p e' Hpn A G.
  rewrite at_upd in A by lia; rewrite at_upd by lia.
  assert (A' : exists e2, at_ s (nxt n p) = Some e2 /\ hash_of e2 = hash_of e').
  { destruct (nxt n p =? i) eqn:E; [apply N.eqb_eq in E; rewrite E; injection A as <-; exists e; now split|exists e'; now split]. }
  destruct A' as (e2 & A2 & H2); rewrite <- H2 in G |- *.
  destruct (R p e2 Hpn A2 G) as (e3 & A3 & G3).
  destruct (p =? i) eqn:E; [|exists e3; now split].
  apply N.eqb_eq in E; subst p; eexists; split; [reflexivity|]; cbn; congruence.
Qed.

(** ** Removing *)

(** After an entry, [r] entries that are not at their ideal index follow. *)
Definition follow (n : N) s (i r : N) : Prop :=
  r + 1 < n /\
  (forall x, 1 <= x <= r -> exists e, at_ s (adv n i x) = Some e /\ gap n (adv n i x) (hash_of e) <> 0) /\
  (forall e, at_ s (adv n i (r + 1)) = Some e -> gap n (adv n i (r + 1)) (hash_of e) = 0).

Lemma back_loop_follow fuel : forall m s i x d,
  holds m s -> i < cap m -> x < d -> d < cap m -> at_ s (adv (cap m) i d) = None -> (N.to_nat (d - x) <= fuel)%nat ->
  (forall y, 1 <= y <= x -> exists e, at_ s (adv (cap m) i y) = Some e /\ gap (cap m) (adv (cap m) i y) (hash_of e) <> 0) ->
  exists r, back_loop fuel m (adv (cap m) i x) = Ret (adv (cap m) i r) /\ follow (cap m) s i r.
Proof.
  induction fuel as [|fuel IH]; intros m s i x d Hh Hi Hx Hd He Hf Hy; [lia|].
  pose proof (h_power _ _ Hh) as Hp.
  cbn [back_loop]; rewrite next_index by (try assumption; apply adv_lt; lia); cbn [bind].
  rewrite <- adv_succ by lia.
  pose proof (adv_lt (cap m) i (x + 1) Hi ltac:(lia)) as PL.
  pose proof (h_slots _ _ Hh _ PL) as SL; unfold slot_ok in SL.
  destruct (at_ s (adv (cap m) i (x + 1))) as [[[h' k'] v']|] eqn:EP.
  - destruct SL as (S1 & S2 & S3 & S4); rewrite (load_at _ _ _ S1); cbn [bind]; rewrite S2, distance_gap by assumption; cbn [bind].
    assert (D : x + 1 <> d) by (intros <-; congruence).
    destruct (_ =? 0) eqn:EG.
    + apply N.eqb_eq in EG; exists x; split; [reflexivity|]; split; [lia|]; split; [exact Hy|].
      intros e Ee; rewrite EP in Ee; injection Ee as <-; exact EG.
    + apply N.eqb_neq in EG; apply (IH m s i (x + 1) d); try assumption; try lia.
      intros y Yx; destruct (N.eq_dec y (x + 1)) as [->|NE]; [exists (h', k', v'); now split|apply Hy; lia].
  - destruct SL as (h0 & S1 & S2); rewrite (load_at _ _ _ S1); cbn [bind]; rewrite S2.
    exists x; split; [reflexivity|]; split; [lia|]; split; [exact Hy|]; intros e Ee; congruence.
Qed.

Lemma backshift_at {A} (n i r : N) (b : buf A) : power n -> size b = n -> i < n -> r + 1 < n ->
  (forall x, 1 <= x <= r -> at_ b (adv n i x) <> None) ->
  exists b', backshift i (adv n i r) n b = Ret b' /\ size b' = n /\
    forall x, x < n -> at_ b' (adv n i x) = if x <? r then at_ b (adv n i (x + 1)) else at_ b (adv n i x).
Proof.
  intros Hp Hs Hi Hr Hb; unfold backshift; pose proof (power_pos n Hp) as [P1 P2].
  assert (N1 : sub64 n 1 = n - 1).
  { unfold sub64; replace (n + w64 - 1) with ((n - 1) + 1 * w64) by lia; rewrite N.mod_add by discriminate; apply N.mod_small; rewrite w64_62; lia. }
  assert (I1 : add64 i 1 = i + 1) by (unfold add64; apply N.mod_small; rewrite w64_62; lia).
  rewrite N1, I1.
  destruct (adv n i r <? i) eqn:W.
  - assert (W' : adv n i r = i + r - n /\ n <= i + r) by circ; destruct W' as [WJ WR]; rewrite WJ in *; clear W.
    assert (M1 : exists b1, (if negb (i =? n - 1) then move (i + 1) (sub64 (n - 1) i) i b else Ret b) = Ret b1 /\ size b1 = n /\
              forall q, at_ b1 q = if (i <=? q) && (q <? n - 1) then at_ b (q + 1) else at_ b q).
    { destruct (i =? n - 1) eqn:E; cbn [negb].
      - exists b; split; [reflexivity|]; split; [exact Hs|]; intros q; replace ((i <=? q) && (q <? n - 1)) with false by lia; reflexivity.
      - assert (SI : sub64 (n - 1) i = n - 1 - i).
        { unfold sub64; replace (n - 1 + w64 - i) with ((n - 1 - i) + 1 * w64) by lia; rewrite N.mod_add by discriminate; apply N.mod_small; rewrite w64_62; lia. }
        rewrite SI; destruct (move_at b (i + 1) (n - 1 - i) i ltac:(lia) ltac:(lia)) as (b1 & E1 & E2 & E3).
        exists b1; split; [exact E1|]; split; [congruence|]; intros q; rewrite E3.
        replace (i + (n - 1 - i)) with (n - 1) by lia; destruct (_ && _) eqn:EQ; [f_equal; lia|reflexivity]. }
    destruct M1 as (b1 & -> & S1 & A1); cbn [bind].
    assert (Z : exists z, at_ b 0 = Some z).
    { specialize (Hb (n - i) ltac:(lia)); replace (adv n i (n - i)) with 0 in Hb by circ; destruct (at_ b 0) as [z|]; [exists z; reflexivity|congruence]. }
    destruct Z as (z & Ez).
    assert (Ez1 : at_ b1 0 = Some z) by (rewrite A1; replace (i <=? 0) with false by lia; exact Ez).
    rewrite (load_at _ _ _ Ez1); cbn [bind]; rewrite store_upd by lia; cbn [bind].
    assert (S2 : size (upd b1 (n - 1) (Some z)) = n) by (rewrite size_upd; lia).
    assert (A2 : forall q, at_ (upd b1 (n - 1) (Some z)) q = if q =? n - 1 then at_ b 0 else if (i <=? q) && (q <? n - 1) then at_ b (q + 1) else at_ b q).
    { intros q; rewrite at_upd by lia; rewrite A1, Ez; reflexivity. }
    assert (M3 : exists b3, (if negb (i + r - n =? 0) then move 1 (i + r - n) 0 (upd b1 (n - 1) (Some z)) else Ret (upd b1 (n - 1) (Some z))) = Ret b3 /\ size b3 = n /\
              forall q, at_ b3 q = if q <? i + r - n then at_ b (q + 1) else at_ (upd b1 (n - 1) (Some z)) q).
    { destruct (i + r - n =? 0) eqn:E; cbn [negb].
      - eexists; split; [reflexivity|]; split; [exact S2|]; intros q; replace (q <? i + r - n) with false by lia; reflexivity.
      - destruct (move_at (upd b1 (n - 1) (Some z)) 1 (i + r - n) 0 ltac:(lia) ltac:(lia)) as (b3 & E1 & E2 & E3).
        exists b3; split; [exact E1|]; split; [congruence|]; intros q; rewrite E3.
        replace (0 <=? q) with true by lia; replace (0 + (i + r - n)) with (i + r - n) by lia; cbn [andb].
        destruct (q <? i + r - n) eqn:EQ; [|reflexivity].
        replace (q + 1 - 0) with (q + 1) by lia; rewrite A2; replace (q + 1 =? n - 1) with false by lia; replace ((i <=? q + 1) && (q + 1 <? n - 1)) with false by lia; reflexivity. }
    destruct M3 as (b3 & -> & S3 & A3); exists b3; split; [reflexivity|]; split; [exact S3|].
    intros x Hx; rewrite A3, A2; clear A3 A2 A1.
    unfold adv; destruct (i + x <? n) eqn:X1, (i + (x + 1) <? n) eqn:X2; repeat match goal with |- context [if ?c then _ else _] => let E := fresh "E" in destruct c eqn:E end;
      try (exfalso; lia); f_equal; lia.
  - destruct (i =? adv n i r) eqn:E; cbn [negb].
    + apply N.eqb_eq in E; assert (r = 0) by circ; subst r.
      exists b; split; [reflexivity|]; split; [exact Hs|]; intros x Hx; replace (x <? 0) with false by lia; reflexivity.
    + apply N.eqb_neq in E; assert (J : adv n i r = i + r /\ i + r < n) by circ; destruct J as [J1 J2]; rewrite J1 in *.
      assert (SI : sub64 (i + r) i = r).
      { unfold sub64; replace (i + r + w64 - i) with (r + 1 * w64) by lia; rewrite N.mod_add by discriminate; apply N.mod_small; rewrite w64_62; lia. }
      rewrite SI; destruct (move_at b (i + 1) r i ltac:(lia) ltac:(lia)) as (b1 & E1 & E2 & E3).
      exists b1; split; [exact E1|]; split; [congruence|]; intros x Hx; rewrite E3; clear E3.
      unfold adv; destruct (i + x <? n) eqn:X1, (i + (x + 1) <? n) eqn:X2; repeat match goal with |- context [if ?c then _ else _] => let E := fresh "E" in destruct c eqn:E end;
        try (exfalso; lia); f_equal; lia.
Qed.

(** The table turned so that a slot comes first. *)
Definition turn {A} (i : N) (b : buf A) : buf A := skipn (N.to_nat i) b ++ firstn (N.to_nat i) b.
Lemma turn_at {A} n i (b : buf A) x : size b = n -> i < n -> x < n -> at_ (turn i b) x = at_ b (adv n i x).
Proof.
  intros Hs Hi Hx; unfold turn; rewrite at_app, size_skipn, Hs.
  destruct (x <? n - i) eqn:E; [rewrite at_skipn|rewrite at_firstn by lia]; f_equal; circ.
Qed.
Lemma turn_size {A} i (b : buf A) : i <= size b -> size (turn i b) = size b.
Proof. intros H; unfold turn; rewrite size_app, size_skipn, size_firstn; lia. Qed.
Lemma turn_filled {A} i (b : buf A) : Permutation (filled_in (turn i b)) (filled_in b).
Proof.
  unfold turn; rewrite filled_in_app, Permutation_app_comm, <- filled_in_app, firstn_skipn; reflexivity.
Qed.

(** What the slots hold when one is shifted out. *)
Lemma shifted_filled n s s' i r : size s = n -> size s' = n -> i < n -> r + 1 < n ->
  (forall x, x < n -> at_ s' (adv n i x) = if x <? r then at_ s (adv n i (x + 1)) else if x =? r then None else at_ s (adv n i x)) ->
  Permutation (filled_in s) (olist (at_ s i) ++ filled_in s').
Proof.
  intros Hs Hs' Hi Hr H.
  rewrite <- (turn_filled i s), <- (turn_filled i s').
  assert (T : forall x, x < n -> at_ (turn i s') x = if x <? r then at_ (turn i s) (x + 1) else if x =? r then None else at_ (turn i s) x).
  { intros x Hx; rewrite (turn_at n) by assumption; rewrite H by exact Hx.
    destruct (x <? r) eqn:E1; [rewrite (turn_at n) by lia; reflexivity|].
    destruct (x =? r); [reflexivity|rewrite (turn_at n) by lia; reflexivity]. }
  assert (H0 : at_ (turn i s) 0 = at_ s i) by (rewrite (turn_at n) by lia; rewrite adv_0 by exact Hi; reflexivity).
  rewrite <- H0; assert (C1 : size (turn i s) = n) by (rewrite turn_size; lia); assert (C2 : size (turn i s') = n) by (rewrite turn_size; lia).
  generalize dependent (turn i s'); generalize dependent (turn i s); intros c _ C1 c' T C2.
  assert (E' : c' = firstn (N.to_nat r) (skipn (N.to_nat 1) c) ++ None :: skipn (N.to_nat (r + 1)) c).
  { apply at_ext.
    - rewrite size_app, size_firstn by (rewrite size_skipn; lia); unfold size at 2; cbn [List.length].
      pose proof (size_skipn c (r + 1)) as SK; unfold size at 1 in SK; lia.
    - intros x Hx; rewrite T by lia; rewrite at_app, size_firstn by (rewrite size_skipn; lia).
      destruct (x <? r) eqn:E1; [rewrite at_firstn, at_skipn by lia; f_equal; lia|].
      change (None :: skipn (N.to_nat (r + 1)) c) with ([None] ++ skipn (N.to_nat (r + 1)) c); rewrite at_app; change (size [None]) with 1.
      destruct (x =? r) eqn:E2; [replace (x - r) with 0 by lia; reflexivity|].
      replace (x - r <? 1) with false by lia; rewrite at_skipn; f_equal; lia. }
  rewrite E', filled_in_app; cbn [filled_in flat_map olist app]; change (flat_map olist (skipn (N.to_nat (r + 1)) c)) with (filled_in (skipn (N.to_nat (r + 1)) c)).
  rewrite <- filled_in_app; destruct c as [|c0 c]; [unfold size in C1; cbn in C1; lia|].
  replace (N.to_nat (r + 1)) with (S (N.to_nat r)) by lia; change (N.to_nat 1) with 1%nat; cbn [skipn]; rewrite firstn_skipn; reflexivity.
Qed.

Lemma shifted_robin n s s' i r : power n -> robin n s -> i < n -> follow n s i r ->
  (forall x, x < n -> at_ s' (adv n i x) = if x <? r then at_ s (adv n i (x + 1)) else if x =? r then None else at_ s (adv n i x)) ->
  robin n s'.
Proof.
  intros Hp R Hi (Hr & F1 & F2) H p e Hpn He Hg.
  assert (Dn : forall q h, q < n -> gap n (nxt n q) h <> 0 -> gap n (nxt n q) h = gap n q h + 1).
  { intros q h Hq G; destruct (gap_nxt n q h Hp Hq); congruence. }
  destruct (adv_onto n i p Hi Hpn) as (x & Hx & <-).
  rewrite (H x Hx).
  destruct (N.eq_dec (x + 1) n) as [Ex|Ex].
  - assert (Ei : nxt n (adv n i x) = i) by circ; rewrite Ei in *.
    replace (x <? r) with false by lia; replace (x =? r) with false by lia.
    specialize (H 0 ltac:(lia)); rewrite adv_0 in H by exact Hi; rewrite He in H.
    destruct (0 <? r) eqn:R0; [|destruct (0 =? r) eqn:R1; [discriminate|lia]].
    replace (0 + 1) with 1 in H by reflexivity; destruct (F1 1 ltac:(lia)) as (e1 & A1 & G1); assert (e1 = e) by congruence; subst e1.
    assert (E1 : adv n i 1 = nxt n i) by circ; rewrite E1 in *.
    destruct (R i e Hi A1 G1) as (e0 & A0 & G0).
    pose proof (Dn i (hash_of e) Hi G1) as D1.
    assert (G2 : gap n i (hash_of e0) <> 0) by lia.
    rewrite <- Ei in A0, G2.
    destruct (R (adv n i x) e0 Hpn A0 G2) as (e' & A' & G'); rewrite Ei in G'.
    exists e'; split; [exact A'|]; lia.
  - assert (Ei : nxt n (adv n i x) = adv n i (x + 1)) by (symmetry; apply adv_succ; lia); rewrite Ei in *.
    rewrite (H (x + 1) ltac:(lia)) in He.
    destruct (x + 1 <? r) eqn:E1.
    + replace (x <? r) with true by lia.
      destruct (F1 (x + 1 + 1) ltac:(lia)) as (e1 & A1 & G1); assert (e1 = e) by congruence; subst e1.
      assert (E2 : adv n i (x + 1 + 1) = nxt n (adv n i (x + 1))) by (apply adv_succ; lia); rewrite E2 in *.
      pose proof (adv_lt n i (x + 1) Hi ltac:(lia)) as Q.
      destruct (R _ e Q A1 G1) as (e' & A' & G').
      destruct (F1 (x + 1) ltac:(lia)) as (e2 & A2 & G2); assert (e2 = e') by congruence; subst e2.
      pose proof (Dn _ (hash_of e) Q G1) as D1.
      rewrite <- Ei in G2; pose proof (Dn _ (hash_of e') Hpn G2) as D2; rewrite Ei in D2.
      exists e'; split; [exact A'|]; lia.
    + destruct (x + 1 =? r) eqn:E2; [discriminate|].
      replace (x <? r) with false by lia.
      destruct (x =? r) eqn:E3.
      * apply N.eqb_eq in E3; subst x; exfalso; apply Hg; apply F2, He.
      * rewrite <- Ei in He, Hg; destruct (R _ e Hpn He Hg) as (e' & A' & G'); exists e'; split; [exact A'|]; rewrite <- Ei; exact G'.
Qed.

Lemma removed m s i k e : holds m s -> robin (cap m) s -> room (cap m) s -> lookup eqk (put_flag (hash k)) k m = Ret (Some i) -> at_ s i = Some e ->
  exists m' s', remove eqk hash k m = Ret (Some (val_of e), m') /\ cap m' = cap m /\ len m' = sub64 (len m) 1 /\ holds m' s' /\ robin (cap m) s' /\
    Permutation (filled_in s) (e :: filled_in s').
Proof.
  intros Hh R (q & Hq & Eq) Lk He; unfold remove, remove_hashed; rewrite Lk; cbn [bind].
  pose proof (h_power _ _ Hh) as Hp.
  assert (Hi : i < cap m) by (rewrite <- (h_size _ _ Hh); eapply at_some_in; eassumption).
  pose proof (h_slots _ _ Hh i Hi) as SL; unfold slot_ok in SL; rewrite He in SL; destruct e as [[h k'] v]; destruct SL as (S1 & S2 & S3 & S4).
  rewrite (load_at _ _ _ S4); cbn [bind].
  destruct (adv_onto (cap m) i q Hi Hq) as (d & Hd & Ed).
  assert (D0 : 0 < d) by (destruct (N.eq_dec d 0) as [->|]; [rewrite adv_0 in Ed by exact Hi; congruence|lia]).
  destruct (back_loop_follow (S (N.to_nat (cap m))) m s i 0 d Hh Hi D0 Hd ltac:(congruence) ltac:(lia)) as (r & Er & F).
  { intros y Y; lia. }
  rewrite adv_0 in Er by exact Hi; rewrite Er; cbn [bind].
  pose proof F as (Hr & F1 & F2).
  assert (In : forall x, 1 <= x <= r -> at_ (hashes m) (adv (cap m) i x) <> None /\ at_ (keys m) (adv (cap m) i x) <> None /\ at_ (values m) (adv (cap m) i x) <> None /\ at_ s (adv (cap m) i x) <> None).
  { intros x Hx; destruct (F1 x Hx) as ([[h1 k1] v1] & A1 & _).
    pose proof (h_slots _ _ Hh (adv (cap m) i x) (adv_lt (cap m) i x Hi ltac:(lia))) as SL; unfold slot_ok in SL; rewrite A1 in SL.
    destruct SL as (T1 & T2 & T3 & T4); repeat split; congruence. }
  destruct (backshift_at (cap m) i r (hashes m) Hp (h_hashes _ _ Hh) Hi Hr) as (hs & B1 & Z1 & C1); [intros x Hx; apply (In x Hx)|].
  destruct (backshift_at (cap m) i r (keys m) Hp (h_keys _ _ Hh) Hi Hr) as (ks & B2 & Z2 & C2); [intros x Hx; apply (In x Hx)|].
  destruct (backshift_at (cap m) i r (values m) Hp (h_values _ _ Hh) Hi Hr) as (vs & B3 & Z3 & C3); [intros x Hx; apply (In x Hx)|].
  destruct (backshift_at (cap m) i r s Hp (h_size _ _ Hh) Hi Hr) as (ss & B4 & Z4 & C4); [intros x Hx; apply (In x Hx)|].
  pose proof (adv_lt (cap m) i r Hi ltac:(lia)) as JL.
  rewrite B1, B2, B3; cbn [bind]; rewrite store_upd by lia; cbn [bind].
  assert (C5 : forall x, x < cap m -> at_ (upd ss (adv (cap m) i r) None) (adv (cap m) i x) =
    if x <? r then at_ s (adv (cap m) i (x + 1)) else if x =? r then None else at_ s (adv (cap m) i x)).
  { intros x Hx; rewrite at_upd by lia; rewrite C4 by exact Hx.
    destruct (adv (cap m) i x =? adv (cap m) i r) eqn:E.
    - apply N.eqb_eq, adv_inj in E; [|lia..]; subst x; rewrite N.ltb_irrefl, N.eqb_refl; reflexivity.
    - destruct (x =? r) eqn:E2; [apply N.eqb_eq in E2; subst x; rewrite N.eqb_refl in E; discriminate|reflexivity]. }
  eexists _, (upd ss (adv (cap m) i r) None); split; [reflexivity|]; cbn [cap len]; split; [reflexivity|]; split; [reflexivity|].
  split; [|split].
  - split; cbn [cap hashes keys values]; rewrite ?size_upd by lia; try assumption.
    intros j Hj; destruct (adv_onto (cap m) i j Hi Hj) as (x & Hx & <-).
    unfold slot_ok; rewrite C5 by exact Hx; cbn [hashes keys values]; rewrite C2, C3, at_upd by lia; rewrite C1 by exact Hx.
    destruct (adv (cap m) i x =? adv (cap m) i r) eqn:E.
    + apply N.eqb_eq, adv_inj in E; [|lia..]; subst x; rewrite N.ltb_irrefl, N.eqb_refl; exists 0; split; reflexivity.
    + destruct (x <? r) eqn:E1; [apply (h_slots _ _ Hh); apply adv_lt; lia|].
      destruct (x =? r) eqn:E2; [apply N.eqb_eq in E2; subst x; rewrite N.eqb_refl in E; discriminate|].
      apply (h_slots _ _ Hh), adv_lt; lia.
  - apply (shifted_robin (cap m) s _ i r); assumption.
  - pose proof (shifted_filled (cap m) s (upd ss (adv (cap m) i r) None) i r (h_size _ _ Hh) ltac:(rewrite size_upd; lia) Hi Hr C5) as P.
    rewrite He in P; exact P.
Qed.

End Table.
