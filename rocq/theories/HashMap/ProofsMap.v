(** * Maps and histories of calls *)
From Coq Require Import Permutation.
From Verif.Base Require Import Base Buf BufFacts.
From Verif.HashMap Require Import Model Spec ProofsArith Proofs ProofsTable ProofsSpec.
Local Open Scope N_scope.
Local Open Scope list_scope.

Section Map.
Context {K V : Type} (eqk : K -> K -> bool) (hash : K -> N).
Hypothesis L : lawful eqk hash.
Notation ent := (N * K * V)%type.
Implicit Types (m : body K V) (s : buf ent) (e : ent) (k : K) (v : V) (l : list (K * V)).

Definition pair_of e : K * V := (key_of e, val_of e).
Definition entries_of s : list (K * V) := map pair_of (filled_in s).

(** A map in good order, and its slots. *)
Record ok m s : Prop := Ok {
  o_holds : holds m s;
  o_robin : robin (cap m) s;
  o_good : good hash s;
  o_distinct : distinct eqk (entries_of s);
  o_len : len m = N.of_nat (List.length (filled_in s));
  o_room : len m < cap m
}.

Lemma entries_in s k v : In (k, v) (entries_of s) <-> exists i h, at_ s i = Some (h, k, v).
Proof.
  unfold entries_of; rewrite in_map_iff; split.
  - intros ([[h k'] v'] & E & I); unfold pair_of, key_of, val_of in E; cbn [fst snd] in E; injection E as -> ->; apply filled_in_at in I as (i & Hi); exists i, h; exact Hi.
  - intros (i & h & Hi); exists (h, k, v); split; [reflexivity|apply filled_in_at; exists i; exact Hi].
Qed.
Lemma entries_app s s' : entries_of (s ++ s') = entries_of s ++ entries_of s'.
Proof. unfold entries_of; rewrite filled_in_app, map_app; reflexivity. Qed.
Lemma entries_split s i e : at_ s i = Some e ->
  exists x y, entries_of s = x ++ pair_of e :: y /\ (forall e', entries_of (upd s i (Some e')) = x ++ pair_of e' :: y) /\
    (forall j e', j <> i -> at_ s j = Some e' -> In (pair_of e') (x ++ y)).
Proof.
  intros He; destruct (split_at s i (at_some_in _ _ _ He)) as (x & y & E & Lx & U).
  exists (entries_of x), (entries_of y); rewrite He in E; split; [|split].
  - rewrite E at 1; rewrite entries_app; reflexivity.
  - intros e'; rewrite U, entries_app; reflexivity.
  - intros j e' NE Hj; rewrite <- entries_app; apply in_map, filled_in_at.
    rewrite E, at_app in Hj; destruct (j <? size x) eqn:J; [exists j; rewrite at_app, J; exact Hj|].
    exists (j - 1); rewrite at_app; unfold size in *.
    replace (j - 1 <? N.of_nat (List.length x)) with false by lia.
    change (Some e :: y) with ([Some e] ++ y) in Hj; rewrite at_app in Hj; change (size [Some e]) with 1 in Hj.
    replace (j - N.of_nat (List.length x) <? 1) with false in Hj by lia.
    rewrite <- Hj; f_equal; lia.
Qed.

Lemma distinct_unique s : distinct eqk (entries_of s) -> unique eqk s.
Proof.
  intros D i j e e' Hi Hj E; destruct (N.eq_dec i j) as [|NE]; [assumption|exfalso].
  destruct (entries_split s i e Hi) as (x & y & Es & _ & O); rewrite Es in D.
  specialize (O j e' (fun Q => NE (eq_sym Q)) Hj); unfold pair_of in D at 1.
  apply (distinct_mid _ _ L) in D as [_ D]; rewrite value_of_none in D; specialize (D _ O); cbn in D; congruence.
Qed.
Lemma length_room s n : size s = n -> N.of_nat (List.length (filled_in s)) < n -> room n s.
Proof.
  intros Hs H.
  assert (G : (List.length (filled_in s) < List.length s)%nat) by (unfold size in Hs; lia).
  assert (R : exists i, (i < List.length s)%nat /\ nth i s None = None).
  { clear Hs H; induction s as [|[e|] s IH]; cbn [filled_in flat_map olist app List.length] in G; [lia| |exists 0%nat; cbn; split; [lia|reflexivity]].
    destruct IH as (i & Hi & E); [unfold filled_in; lia|]; exists (S i); cbn; split; [lia|exact E]. }
  destruct R as (i & Hi & E); exists (N.of_nat i); split; [unfold size in Hs; lia|unfold at_; rewrite Nat2N.id; exact E].
Qed.

Lemma find_slot m s k : ok m s ->
  (exists i e, at_ s i = Some e /\ eqk k (key_of e) = true /\ value_of eqk k (entries_of s) = Some (val_of e) /\
     lookup eqk (put_flag (hash k)) k m = Ret (Some i)) \/
  ((forall i e, at_ s i = Some e -> eqk k (key_of e) = false) /\ value_of eqk k (entries_of s) = None /\
     lookup eqk (put_flag (hash k)) k m = Ret None).
Proof.
  intros [H1 H2 H3 H4 H5 H6]; destruct (value_of eqk k (entries_of s)) as [v|] eqn:E.
  - left; unfold value_of in E; destruct (find _ _) as [[k' v']|] eqn:F; [|discriminate]; injection E as <-.
    apply find_some in F as [F1 F2]; apply entries_in in F1 as (i & h & Hi); exists i, (h, k', v'); repeat split; try assumption.
    eapply lookup_some; try eassumption; apply distinct_unique; assumption.
  - right; rewrite value_of_none in E.
    assert (A : forall i e, at_ s i = Some e -> eqk k (key_of e) = false).
    { intros i [[h k'] v'] Hi; apply (E (k', v')); apply entries_in; exists i, h; exact Hi. }
    split; [exact A|]; split; [reflexivity|]; eapply lookup_none; try eassumption.
    apply length_room; [apply (h_size _ _ H1)|lia].
Qed.

Lemma get_ok m s k : ok m s -> get eqk hash k m = Ret (value_of eqk k (entries_of s)).
Proof.
  intros O; unfold get; destruct (find_slot m s k O) as [(i & e & He & Hk & Hv & ->)|(A & -> & ->)]; cbn [bind]; [|reflexivity].
  rewrite Hv; assert (Hi : i < cap m) by (rewrite <- (h_size _ _ (o_holds _ _ O)); eapply at_some_in; eassumption).
  pose proof (h_slots _ _ (o_holds _ _ O) i Hi) as S; unfold slot_ok in S; rewrite He in S; destruct e as [[h k'] v']; destruct S as (_ & _ & _ & S4).
  rewrite (load_at _ _ _ S4); reflexivity.
Qed.
Lemma has_ok m s k : ok m s -> has eqk hash k m = Ret (match value_of eqk k (entries_of s) with Some _ => true | None => false end).
Proof.
  intros O; unfold has; destruct (find_slot m s k O) as [(i & e & He & Hk & -> & ->)|(A & -> & ->)]; reflexivity.
Qed.

Lemma small m s : ok m s -> len m + 1 <= 2 ^ 62 /\ 0 < cap m <= 2 ^ 62.
Proof. intros O; pose proof (power_pos _ (h_power _ _ (o_holds _ _ O))); pose proof (o_room _ _ O); lia. Qed.
Lemma add64_small a b : a + b < 2 ^ 64 -> add64 a b = a + b.
Proof. intros H; unfold add64; apply N.mod_small; exact H. Qed.
Lemma sub64_small a b : b <= a -> a < 2 ^ 64 -> sub64 a b = a - b.
Proof.
  intros H1 H2; unfold sub64; replace (a + w64 - b) with ((a - b) + 1 * w64) by lia; rewrite N.mod_add by discriminate.
  apply N.mod_small; unfold w64; lia.
Qed.

(** ** Inserting where there is room *)
Lemma insert_hashed_ok m s k v : ok m s -> len m + 1 < cap m ->
  exists m' s', insert_hashed eqk (put_flag (hash k)) k v m = Ret (value_of eqk k (entries_of s), m') /\ ok m' s' /\ cap m' = cap m /\
    Permutation (entries_of s') (put eqk k v (entries_of s)).
Proof.
  intros O Rm; pose proof (small m s O) as [Sm Cm].
  pose proof (h_power _ _ (o_holds _ _ O)) as Hp; pose proof (h_size _ _ (o_holds _ _ O)) as Hs.
  pose proof (ideal_lt (cap m) (put_flag (hash k)) Hp) as IL.
  unfold insert_hashed; destruct (find_slot m s k O) as [(i & e & He & Hk & Hv & _)|(A & Hv & _)].
  - assert (Hi : i < cap m) by (rewrite <- Hs; eapply at_some_in; eassumption).
    assert (Hh : put_flag (hash k) = hash_of e) by (rewrite (o_good _ _ O _ _ He); f_equal; apply (eqk_hash _ _ L), Hk).
    pose proof (gap_lt (cap m) i (put_flag (hash k)) Hp Hi) as GL.
    pose proof (replaced eqk hash L (S (N.to_nat (cap m))) m s i _ k v e (o_holds _ _ O) (o_robin _ _ O)
      (distinct_unique _ (o_distinct _ _ O)) Hi He Hh Hk 0 ltac:(lia) ltac:(lia)) as E.
    rewrite adv_0 in E by exact IL; rewrite E, Hv.
    destruct (entries_split s i e He) as (x & y & Es & Eu & _).
    pose proof (o_distinct _ _ O) as D; rewrite Es in D; unfold pair_of in D at 1; pose proof D as D'; apply (distinct_mid _ _ L) in D as [D1 D2].
    assert (Ep : entries_of (upd s i (Some (hash_of e, key_of e, v))) = put eqk k v (entries_of s)).
    { rewrite Es, Eu; symmetry; unfold pair_of at 1; apply (put_mid eqk); [|exact Hk].
      apply value_of_app_none in D2 as [D2 _]; rewrite (value_of_eqk _ _ L k (key_of e)) by exact Hk; exact D2. }
    eexists _, (upd s i (Some (hash_of e, key_of e, v))); split; [reflexivity|]; cbn [cap]; split; [|split; [reflexivity|now rewrite Ep]].
    split; cbn [cap len].
    + apply holds_value; try assumption; apply O.
    + apply robin_value; try assumption; apply O.
    + intros j e' Hj; rewrite at_upd in Hj by lia; destruct (j =? i) eqn:EJ; [|apply (o_good _ _ O j e' Hj)].
      injection Hj as <-; cbn; apply (o_good _ _ O i e He).
    + rewrite Ep; apply (distinct_put _ _ L), O.
    + rewrite (o_len _ _ O); pose proof (filled_in_upd s i (Some (hash_of e, key_of e, v)) ltac:(lia)) as P; rewrite He in P.
      apply Permutation_length in P; cbn in P; lia.
    + apply O.
  - assert (Rm' : room (cap m) s) by (apply length_room; [exact Hs|pose proof (o_len _ _ O); lia]).
    destruct Rm' as (q & Hq & Eq); destruct (adv_onto (cap m) (ideal_index (put_flag (hash k)) (cap m)) q IL Hq) as (d & Hd & Ed).
    destruct (place eqk (S (N.to_nat (cap m))) false (put_flag (hash k)) k v m s _ d (o_holds _ _ O) (o_robin _ _ O) IL (exists_put _)
      (or_introl (gap_ideal _ _ Hp)) Hd ltac:(congruence) ltac:(lia) (or_intror A)) as (m' & s' & E & E1 & E2 & E3 & E4 & E5).
    rewrite E, Hv.
    assert (Ep : Permutation (entries_of s') (put eqk k v (entries_of s))).
    { rewrite put_absent by exact Hv; unfold entries_of; rewrite E5; cbn [map pair_of key_of val_of fst snd]; apply Permutation_cons_append. }
    exists m', s'; split; [reflexivity|]; split; [|split; assumption].
    split; rewrite ?E1; try assumption.
    + intros j e Hj; assert (I : In e (filled_in s')) by (apply filled_in_at; exists j; exact Hj).
      eapply Permutation_in in I; [|exact E5]; destruct I as [<-|I]; [reflexivity|].
      apply filled_in_at in I as (j' & Hj'); apply (o_good _ _ O j' e Hj').
    + eapply (distinct_perm _ _ L); [symmetry; exact Ep|]; apply (distinct_put _ _ L), O.
    + rewrite E2, add64_small by lia; rewrite (o_len _ _ O); rewrite (Permutation_length E5); cbn [List.length]; lia.
    + rewrite E2, add64_small by lia; lia.
Qed.

Lemma remove_ok m s k : ok m s ->
  exists m' s', remove eqk hash k m = Ret (value_of eqk k (entries_of s), m') /\ ok m' s' /\ Permutation (entries_of s') (del eqk k (entries_of s)).
Proof.
  intros O; pose proof (small m s O) as [Sm Cm].
  destruct (find_slot m s k O) as [(i & e & He & Hk & Hv & Lk)|(A & Hv & Lk)].
  - assert (Rm' : room (cap m) s) by (apply length_room; [apply (h_size _ _ (o_holds _ _ O))|pose proof (o_len _ _ O); pose proof (o_room _ _ O); lia]).
    destruct (removed eqk hash m s i k e (o_holds _ _ O) (o_robin _ _ O) Rm' Lk He) as (m' & s' & E & E1 & E2 & E3 & E4 & E5).
    rewrite E, Hv; exists m', s'; split; [reflexivity|].
    assert (Pe : Permutation (entries_of s) ((key_of e, val_of e) :: entries_of s')) by (unfold entries_of; rewrite E5; reflexivity).
    pose proof (distinct_perm _ _ L _ _ Pe (o_distinct _ _ O)) as D; cbn [distinct] in D; destruct D as [D1 D2].
    assert (Ln : List.length (filled_in s) = S (List.length (filled_in s'))) by (rewrite (Permutation_length E5); reflexivity).
    assert (Lm : len m' = N.of_nat (List.length (filled_in s'))).
    { rewrite E2; rewrite sub64_small; rewrite (o_len _ _ O), Ln in *; [lia|lia|]; change (2 ^ 64) with (4 * 2 ^ 62); lia. }
    split.
    + split; rewrite ?E1; try assumption.
      * intros j e' Hj; assert (I : In e' (e :: filled_in s')) by (right; apply filled_in_at; exists j; exact Hj).
        eapply Permutation_in in I; [|symmetry; exact E5]; apply filled_in_at in I as (j' & Hj'); apply (o_good _ _ O j' e' Hj').
      * pose proof (o_room _ _ O); rewrite (o_len _ _ O), Ln in *; lia.
    + rewrite (del_perm eqk k _ _ Pe); cbn [del filter fst]; rewrite Hk; cbn [negb]; fold (del eqk k (entries_of s')).
      rewrite del_absent; [reflexivity|]; rewrite (value_of_eqk _ _ L k (key_of e)) by exact Hk; exact D1.
  - unfold remove, remove_hashed; rewrite Lk, Hv; cbn [bind]; exists m, s; split; [reflexivity|]; split; [exact O|].
    rewrite del_absent by exact Hv; reflexivity.
Qed.

(** ** New maps, and growing *)
Lemma filled_none s : (forall i, at_ s i = None) -> filled_in s = [].
Proof.
  intros H; destruct (filled_in s) as [|e l] eqn:E; [reflexivity|].
  assert (I : In e (filled_in s)) by (rewrite E; now left); apply filled_in_at in I as (i & Hi); rewrite H in Hi; discriminate.
Qed.
Lemma fresh_ok c : power c -> ok (Body 0 c (filled 0 c) (alloc c) (alloc c)) (alloc c) /\ entries_of (alloc c) = [].
Proof.
  intros Hp; pose proof (power_pos c Hp) as [P1 P2].
  assert (F : filled_in (alloc c : buf ent) = []) by (apply filled_none; intros i; apply at_alloc).
  split; [|unfold entries_of; rewrite F; reflexivity].
  split; cbn [cap len].
  - split; cbn [cap hashes keys values]; rewrite ?size_alloc, ?size_filled; try reflexivity; [exact Hp|].
    intros i Hi; unfold slot_ok; rewrite at_alloc; cbn [hashes]; exists 0; split; [apply at_filled, Hi|reflexivity].
  - intros i e Hi He; rewrite at_alloc in He; discriminate.
  - intros i e He; rewrite at_alloc in He; discriminate.
  - unfold entries_of; rewrite F; exact I.
  - rewrite F; reflexivity.
  - exact P1.
Qed.
Lemma with_capacity_ok c : 1 <= c <= 2 ^ 62 -> exists m s, with_capacity c = Ret m /\ ok m s /\ entries_of s = [].
Proof.
  intros H; destruct (next_power c H) as (p & Lp & E & _); unfold with_capacity; rewrite E; cbn [bind].
  destruct (fresh_ok (2 ^ p)) as [O En]; [exists p; now split|]; eexists _, _; split; [reflexivity|]; split; eassumption.
Qed.

Lemma firstn_snoc {A} (b : buf A) i : i < size b -> firstn (N.to_nat (i + 1)) b = firstn (N.to_nat i) b ++ [at_ b i].
Proof.
  intros H; destruct (split_at b i H) as (x & y & E & Lx & _); set (z := at_ b i) in *; clearbody z; subst b.
  rewrite <- Lx; replace (N.to_nat (i + 1)) with (S (List.length x)) by lia.
  rewrite !firstn_app, Nat.sub_diag; replace (S (List.length x) - List.length x)%nat with 1%nat by lia.
  rewrite !(firstn_all2 x) by lia; cbn [firstn]; rewrite app_nil_r; reflexivity.
Qed.

Lemma reinsert_ok n : forall old so i m s, ok old so -> ok m s -> cap old < cap m -> i + N.of_nat n = cap old ->
  Permutation (entries_of s) (entries_of (firstn (N.to_nat i) so)) ->
  exists m' s', reinsert eqk n old i m = Ret m' /\ ok m' s' /\ cap m' = cap m /\ Permutation (entries_of s') (entries_of so).
Proof.
  induction n as [|n IH]; intros old so i m s Oo O Hc Hi P.
  - exists m, s; split; [reflexivity|]; split; [exact O|]; split; [reflexivity|].
    rewrite P, firstn_all2; [reflexivity|]; pose proof (h_size _ _ (o_holds _ _ Oo)) as Hs; unfold size in Hs; lia.
  - cbn [reinsert]; pose proof (small _ _ Oo) as [Sm Cm]; pose proof (small _ _ O) as [Sm' Cm'].
    assert (Il : i < cap old) by lia.
    pose proof (h_size _ _ (o_holds _ _ Oo)) as Hs.
    pose proof (h_slots _ _ (o_holds _ _ Oo) i Il) as S; unfold slot_ok in S.
    rewrite (add64_small i 1) by (change (2 ^ 64) with (4 * 2 ^ 62); lia).
    pose proof (firstn_snoc so i ltac:(lia)) as Fs.
    destruct (at_ so i) as [[[h k] v]|] eqn:E.
    + destruct S as (S1 & S2 & S3 & S4); rewrite (load_at _ _ _ S1), (load_at _ _ _ S3), (load_at _ _ _ S4); cbn [bind]; rewrite S2.
      pose proof (o_good _ _ Oo _ _ E) as G; cbn in G; rewrite G.
      assert (Es : entries_of so = (entries_of (firstn (N.to_nat i) so) ++ [(k, v)]) ++ entries_of (skipn (N.to_nat (i + 1)) so)).
      { rewrite <- (firstn_skipn (N.to_nat (i + 1)) so) at 1; rewrite entries_app, Fs, entries_app; reflexivity. }
      pose proof (o_distinct _ _ Oo) as D; rewrite Es in D; pose proof (distinct_app eqk _ _ D) as D'.
      apply (distinct_mid _ _ L) in D' as [D1 D2]; rewrite app_nil_r in D1, D2.
      assert (Ln : (List.length (entries_of s) < List.length (entries_of so))%nat).
      { rewrite (Permutation_length P), Es, !app_length; cbn; lia. }
      unfold entries_of in Ln at 1 2; rewrite !map_length in Ln.
      pose proof (o_len _ _ O) as L1; pose proof (o_len _ _ Oo) as L2; pose proof (o_room _ _ Oo) as L3.
      destruct (insert_hashed_ok m s k v O ltac:(lia)) as (m1 & s1 & E1 & O1 & C1 & P1); rewrite E1; cbn [bind].
      destruct (IH old so (i + 1) m1 s1 Oo O1 ltac:(lia) ltac:(lia)) as (m' & s' & E2 & O2 & C2 & P2).
      * rewrite P1, Fs, entries_app, put_absent; [rewrite P; reflexivity|].
        rewrite (value_of_perm _ _ L _ _ _ P); [exact D2|apply O].
      * exists m', s'; split; [exact E2|]; split; [exact O2|]; split; [congruence|exact P2].
    + destruct S as (h & S1 & S2); rewrite (load_at _ _ _ S1); cbn [bind]; rewrite S2; cbn [bind].
      apply (IH old so (i + 1) m s Oo O Hc ltac:(lia)).
      rewrite P, Fs, entries_app; cbn; rewrite app_nil_r; reflexivity.
Qed.
Lemma reserve_ok c m s : c <= 2 ^ 62 -> ok m s ->
  exists m' s', reserve eqk c m = Ret m' /\ ok m' s' /\ c <= cap m' /\ Permutation (entries_of s') (entries_of s).
Proof.
  intros Hc O; unfold reserve; destruct (N.eq_dec c 0) as [->|C0].
  - rewrite next_power_zero; cbn [bind]; replace (0 <=? cap m) with true by lia; exists m, s; split; [reflexivity|]; split; [exact O|]; split; [lia|reflexivity].
  - destruct (next_power c ltac:(lia)) as (p & Lp & E & Hle); rewrite E; cbn [bind].
    destruct (2 ^ p <=? cap m) eqn:Ec.
    + exists m, s; split; [reflexivity|]; split; [exact O|]; split; [lia|reflexivity].
    + destruct (fresh_ok (2 ^ p)) as [O1 E1]; [exists p; now split|].
      destruct (reinsert_ok (N.to_nat (cap m)) m s 0 _ _ O O1) as (m' & s' & E2 & O2 & C2 & P2); cbn [cap]; try lia.
      * rewrite E1; reflexivity.
      * exists m', s'; split; [exact E2|]; split; [exact O2|]; cbn [cap] in C2; split; [lia|exact P2].
Qed.

Lemma insert_ok m s k v : ok m s -> len m + 1 <= 2 ^ 61 ->
  exists m' s', insert eqk hash k v m = Ret (value_of eqk k (entries_of s), m') /\ ok m' s' /\ Permutation (entries_of s') (put eqk k v (entries_of s)).
Proof.
  intros O Hl; unfold insert, appropriate_capacity.
  rewrite (add64_small (len m) 1) by (change (2 ^ 64) with (8 * 2 ^ 61); lia).
  rewrite (add64_small (len m + 1) 8) by (change (2 ^ 64) with (8 * 2 ^ 61); lia).
  set (q := (len m + 1 + 8) / 9).
  assert (Q : 9 * q <= len m + 9 < 9 * q + 9).
  { pose proof (N.div_mod (len m + 1 + 8) 9 ltac:(lia)) as D; pose proof (N.mod_lt (len m + 1 + 8) 9 ltac:(lia)); fold q in D; lia. }
  assert (Mq : mul64 q 10 = 10 * q).
  { unfold mul64; rewrite N.mod_small; [lia|]; unfold w64; change (2 ^ 64) with (8 * 2 ^ 61); lia. }
  rewrite Mq.
  destruct (reserve_ok (10 * q) m s ltac:(change (2 ^ 62) with (2 * 2 ^ 61); lia) O) as (m1 & s1 & E1 & O1 & C1 & P1); rewrite E1; cbn [bind].
  assert (Ll : len m1 = len m).
  { rewrite (o_len _ _ O1), (o_len _ _ O); apply Permutation_length in P1; unfold entries_of in P1; rewrite !map_length in P1; lia. }
  destruct (insert_hashed_ok m1 s1 k v O1 ltac:(lia)) as (m' & s' & E2 & O2 & _ & P2).
  exists m', s'; rewrite E2, (value_of_perm _ _ L k _ _ P1) by apply O1; split; [reflexivity|]; split; [exact O2|].
  rewrite P2; apply (put_perm _ _ L); [exact P1|apply O1].
Qed.

(** ** The other calls *)
Lemma zero_at n : forall i hs, i + N.of_nat n <= size hs -> i + N.of_nat n <= 2 ^ 62 ->
  exists hs', zero n i hs = Ret hs' /\ size hs' = size hs /\
    forall j, at_ hs' j = if (i <=? j) && (j <? i + N.of_nat n) then Some 0 else at_ hs j.
Proof.
  induction n as [|n IH]; intros i hs H1 H2; cbn [zero].
  - exists hs; split; [reflexivity|]; split; [reflexivity|]; intros j; replace ((i <=? j) && (j <? i + N.of_nat 0)) with false by lia; reflexivity.
  - rewrite store_upd by lia; cbn [bind]; rewrite add64_small by (change (2 ^ 64) with (4 * 2 ^ 62); lia).
    destruct (IH (i + 1) (upd hs i (Some 0))) as (hs' & E & Sz & A); rewrite ?size_upd by lia; try lia.
    exists hs'; split; [exact E|]; split; [rewrite Sz, size_upd by lia; reflexivity|]; intros j; rewrite A, at_upd by lia.
    destruct (j =? i) eqn:Ej; [replace ((i + 1 <=? j) && (j <? i + 1 + N.of_nat n)) with false by lia; replace ((i <=? j) && (j <? i + N.of_nat (S n))) with true by lia; reflexivity|].
    replace ((i + 1 <=? j) && (j <? i + 1 + N.of_nat n)) with ((i <=? j) && (j <? i + N.of_nat (S n))) by lia; reflexivity.
Qed.
Lemma clear_ok m s : ok m s -> exists m' s', clear m = Ret m' /\ ok m' s' /\ entries_of s' = [].
Proof.
  intros O; pose proof (small _ _ O) as [Sm Cm]; pose proof (o_holds _ _ O) as [H1 H2 H3 H4 H5 H6]; unfold clear.
  destruct (zero_at (N.to_nat (cap m)) 0 (hashes m)) as (hs & E & Sz & A); try lia; rewrite E; cbn [bind].
  assert (F : filled_in (alloc (cap m) : buf ent) = []) by (apply filled_none; intros i; apply at_alloc).
  eexists _, (alloc (cap m)); split; [reflexivity|]; split; [|unfold entries_of; rewrite F; reflexivity].
  split; cbn [cap len].
  - split; cbn [cap hashes keys values]; rewrite ?size_alloc; try congruence.
    intros i Hi; unfold slot_ok; rewrite at_alloc; cbn [hashes]; exists 0; split; [|reflexivity].
    rewrite A; replace ((0 <=? i) && (i <? 0 + N.of_nat (N.to_nat (cap m)))) with true by lia; reflexivity.
  - intros i e Hi He; rewrite at_alloc in He; discriminate.
  - intros i e He; rewrite at_alloc in He; discriminate.
  - unfold entries_of; rewrite F; exact I.
  - rewrite F; reflexivity.
  - lia.
Qed.

Lemma skipn_cons {A} (b : buf A) i : i < size b -> skipn (N.to_nat i) b = at_ b i :: skipn (N.to_nat (i + 1)) b.
Proof.
  intros H; destruct (split_at b i H) as (x & y & E & Lx & _); set (z := at_ b i) in *; clearbody z; subst b.
  rewrite <- Lx; replace (N.to_nat (i + 1)) with (S (List.length x)) by lia.
  rewrite !skipn_app, Nat.sub_diag; replace (S (List.length x) - List.length x)%nat with 1%nat by lia.
  rewrite !(skipn_all2 x) by lia; reflexivity.
Qed.
Lemma elems_ok m s : ok m s -> elems m = Ret (entries_of s).
Proof.
  intros O; pose proof (small _ _ O) as [Sm Cm]; pose proof (h_size _ _ (o_holds _ _ O)) as Hs.
  assert (G : forall n i, i + N.of_nat n = cap m -> elems_from n i m = Ret (entries_of (skipn (N.to_nat i) s))).
  { induction n as [|n IH]; intros i Hi; cbn [elems_from].
    - rewrite skipn_all2 by (unfold size in Hs; lia); reflexivity.
    - rewrite (skipn_cons s i) by lia; rewrite (add64_small i 1) by (change (2 ^ 64) with (4 * 2 ^ 62); lia); rewrite IH by lia.
      pose proof (h_slots _ _ (o_holds _ _ O) i ltac:(lia)) as S; unfold slot_ok in S.
      destruct (at_ s i) as [[[h k] v]|] eqn:E.
      + destruct S as (S1 & S2 & S3 & S4); rewrite (load_at _ _ _ S1), (load_at _ _ _ S3), (load_at _ _ _ S4); cbn [bind]; rewrite S2; reflexivity.
      + destruct S as (h & S1 & S2); rewrite (load_at _ _ _ S1); cbn [bind]; rewrite S2; reflexivity. }
  unfold elems; rewrite G by lia; reflexivity.
Qed.

Lemma copy_all {A} (b d : buf A) n : size b = n -> size d = n -> copy b 0 n d 0 = Ret b.
Proof.
  intros H1 H2; destruct (copy_at b 0 n d 0 ltac:(lia) ltac:(lia)) as (d' & E & S & At); rewrite E; f_equal.
  apply at_ext; [congruence|]; intros i Hi; rewrite At; replace ((0 <=? i) && (i <? 0 + n)) with true by lia; f_equal; lia.
Qed.
Lemma shallow_copy_ok m s : ok m s -> shallow_copy m = Ret m.
Proof.
  intros O; pose proof (o_holds _ _ O) as [H1 H2 H3 H4 H5 H6]; unfold shallow_copy.
  rewrite !copy_all by (rewrite ?size_alloc; assumption || reflexivity); destruct m; reflexivity.
Qed.

Lemma deep_from_at dk dv m s : ok m s -> forall n i ks vs, i + N.of_nat n = cap m -> size ks = cap m -> size vs = cap m ->
  exists ks' vs', deep_from dk dv n i m ks vs = Ret (ks', vs') /\ size ks' = cap m /\ size vs' = cap m /\
    (forall j, j < i -> at_ ks' j = at_ ks j /\ at_ vs' j = at_ vs j) /\
    (forall j h k v, i <= j < cap m -> at_ s j = Some (h, k, v) -> at_ ks' j = Some (dk k) /\ at_ vs' j = Some (dv v)).
Proof.
  intros O; pose proof (small _ _ O) as [Sm Cm].
  induction n as [|n IH]; intros i ks vs Hi Hk Hv; cbn [deep_from].
  - exists ks, vs; repeat split; try assumption; intros; lia.
  - rewrite (add64_small i 1) by (change (2 ^ 64) with (4 * 2 ^ 62); lia).
    pose proof (h_slots _ _ (o_holds _ _ O) i ltac:(lia)) as S; unfold slot_ok in S.
    destruct (at_ s i) as [[[h k] v]|] eqn:E.
    + destruct S as (S1 & S2 & S3 & S4); rewrite (load_at _ _ _ S1), (load_at _ _ _ S3), (load_at _ _ _ S4); cbn [bind]; rewrite S2.
      rewrite !store_upd by lia; cbn [bind].
      destruct (IH (i + 1) (upd ks i (Some (dk k))) (upd vs i (Some (dv v)))) as (ks' & vs' & E1 & K1 & V1 & A1 & B1); rewrite ?size_upd by lia; try lia.
      exists ks', vs'; split; [exact E1|]; split; [exact K1|]; split; [exact V1|]; split.
      * intros j Hj; destruct (A1 j ltac:(lia)) as [-> ->]; rewrite !at_upd by lia; replace (j =? i) with false by lia; split; reflexivity.
      * intros j h' k' v' Hj Ej; destruct (N.eq_dec j i) as [->|NE]; [|apply (B1 j h'); [lia|exact Ej]].
        assert (Same : (h', k', v') = (h, k, v)) by congruence; injection Same as -> -> ->.
        destruct (A1 i ltac:(lia)) as [-> ->]; rewrite !at_upd, N.eqb_refl by lia; split; reflexivity.
    + destruct S as (h & S1 & S2); rewrite (load_at _ _ _ S1); cbn [bind]; rewrite S2.
      destruct (IH (i + 1) ks vs ltac:(lia) Hk Hv) as (ks' & vs' & E1 & K1 & V1 & A1 & B1).
      exists ks', vs'; split; [exact E1|]; split; [exact K1|]; split; [exact V1|]; split.
      * intros j Hj; apply A1; lia.
      * intros j h' k' v' Hj Ej; apply (B1 j h'); [|exact Ej]; destruct (N.eq_dec j i) as [->|NE]; [congruence|lia].
Qed.
Lemma deep_copy_ok dk dv m s : (forall k, eqk k (dk k) = true) -> ok m s ->
  exists m' s', deep_copy dk dv m = Ret m' /\ ok m' s' /\ entries_of s' = map (fun p : K * V => (dk (fst p), dv (snd p))) (entries_of s).
Proof.
  intros Hd O; pose proof (o_holds _ _ O) as [H1 H2 H3 H4 H5 H6]; unfold deep_copy.
  rewrite copy_all by (rewrite ?size_alloc; assumption || reflexivity); cbn [bind].
  destruct (deep_from_at dk dv m s O (N.to_nat (cap m)) 0 (alloc (cap m)) (alloc (cap m))) as (ks & vs & E & K1 & V1 & _ & B); rewrite ?size_alloc; try lia.
  rewrite E; cbn [bind].
  set (f := fun e : ent => (hash_of e, dk (key_of e), dv (val_of e))).
  set (s' := map (option_map f) s).
  assert (At : forall i, at_ s' i = option_map f (at_ s i)).
  { intros i; unfold at_, s'; exact (map_nth (option_map f) s None (N.to_nat i)). }
  assert (Fi : filled_in s' = map f (filled_in s)).
  { unfold filled_in, s'; clear; induction s as [|[e|] s IH]; [reflexivity| |exact IH]; cbn; now f_equal. }
  assert (En : entries_of s' = map (fun p : K * V => (dk (fst p), dv (snd p))) (entries_of s)).
  { unfold entries_of; rewrite Fi, !map_map; reflexivity. }
  eexists _, s'; split; [reflexivity|]; split; [|exact En].
  split; cbn [cap len].
  - split; cbn [cap hashes keys values]; try assumption; [unfold size, s' in *; rewrite map_length; exact H2|].
    intros i Hi; unfold slot_ok; rewrite At; cbn [hashes keys values]; specialize (H6 i Hi); unfold slot_ok in H6.
    destruct (at_ s i) as [[[h k] v]|] eqn:Ei; cbn [option_map f hash_of key_of val_of fst snd]; [|exact H6].
    destruct (B i h k v ltac:(lia) Ei) as [-> ->]; intuition.
  - intros i e Hi He Hg; rewrite At in He; destruct (at_ s (nxt (cap m) i)) as [e1|] eqn:E1; [|discriminate]; cbn in He; injection He as <-.
    cbn [f hash_of fst] in Hg |- *; destruct (o_robin _ _ O i e1 Hi E1 Hg) as (e2 & E2 & G2).
    exists (f e2); rewrite At, E2; split; [reflexivity|exact G2].
  - intros i e He; rewrite At in He; destruct (at_ s i) as [e1|] eqn:E1; [|discriminate]; cbn in He; injection He as <-; cbn.
    rewrite (o_good _ _ O i e1 E1); f_equal; apply (eqk_hash _ _ L), Hd.
  - rewrite En; apply (distinct_map _ _ L); [exact Hd|apply O].
  - rewrite Fi, map_length; apply O.
  - apply O.
Qed.

Lemma map_eq_ok eqv a sa b sb : ok a sa -> ok b sb -> map_eq eqk hash eqv a b = Ret (equal eqk eqv (entries_of sa) (entries_of sb)).
Proof.
  intros Oa Ob; unfold map_eq, equal.
  assert (Le : (len a =? len b) = (List.length (entries_of sa) =? List.length (entries_of sb))%nat).
  { rewrite (o_len _ _ Oa), (o_len _ _ Ob); unfold entries_of; rewrite !map_length; lia. }
  rewrite Le; destruct (_ =? _)%nat; cbn [negb andb]; [|reflexivity].
  rewrite (elems_ok a sa Oa); cbn [bind]; generalize (entries_of sa); intros l.
  induction l as [|[k v] l IH]; [reflexivity|]; cbn [all_in forallb fst snd].
  rewrite (get_ok b sb k Ob); cbn [bind]; destruct (value_of eqk k (entries_of sb)) as [w|]; [|reflexivity].
  destruct (eqv v w); [exact IH|reflexivity].
Qed.

(** ** Histories *)
Definition rep m l : Prop := exists s, ok m s /\ Permutation (entries_of s) l.

Lemma rep_distinct m l : rep m l -> distinct eqk l.
Proof. intros (s & O & P); eapply (distinct_perm _ _ L); [exact P|apply O]. Qed.
Lemma rep_len m l : rep m l -> len m = N.of_nat (List.length l).
Proof. intros (s & O & P); rewrite (o_len _ _ O), <- (Permutation_length P); unfold entries_of; now rewrite map_length. Qed.

Lemma update_rel {A B} (Rel : A -> B -> Prop) ms ls i (m : A) (l : B) :
  Forall2 Rel ms ls -> (i < List.length ms)%nat -> Rel m l -> Forall2 Rel (update ms i m) (update ls i l).
Proof.
  intros F Hi Hr; unfold update; revert i Hi; induction F as [|m0 l0 ms ls R0 F IH]; intros i Hi; [cbn in Hi; lia|].
  destruct i as [|i]; cbn [firstn skipn app]; constructor; try assumption.
  cbn in Hi; apply IH; lia.
Qed.
Lemma nth_rel {A B} (Rel : A -> B -> Prop) ms ls i : Forall2 Rel ms ls ->
  match nth_error ms i, nth_error ls i with Some m, Some l => Rel m l /\ (i < List.length ms)%nat | None, None => True | _, _ => False end.
Proof.
  intros F; revert i; induction F as [|m0 l0 ms ls R0 F IH]; intros [|i]; cbn; try exact I; [split; [exact R0|lia]|].
  specialize (IH i); destruct (nth_error ms i), (nth_error ls i); try assumption; destruct IH; split; [assumption|lia].
Qed.
Lemma Forall_update {A} (P : A -> Prop) ls i (l : A) : Forall P ls -> P l -> Forall P (update ls i l).
Proof.
  intros F Hl; unfold update; apply Forall_app; split; [|constructor; [exact Hl|]]; apply Forall_forall; intros x I; rewrite Forall_forall in F; apply F.
  - rewrite <- (firstn_skipn i ls); apply in_app_iff; now left.
  - rewrite <- (firstn_skipn (S i) ls); apply in_app_iff; now right.
Qed.
Lemma put_length k v l : (List.length (put eqk k v l) <= S (List.length l))%nat.
Proof. induction l as [|[k' v'] l IH]; cbn [put List.length]; [lia|]; destruct (eqk k k'); cbn [List.length]; lia. Qed.
Lemma del_length k l : (List.length (del eqk k l) <= List.length l)%nat.
Proof. unfold del; induction l as [|e l IH]; cbn [filter]; [lia|]; destruct (negb _); cbn [List.length]; lia. Qed.

Lemma step_ok (c : nat) ms ls cl : proper eqk cl -> Forall2 rep ms ls -> Forall (fun l => (List.length l <= c)%nat) ls -> N.of_nat c < 2 ^ 61 ->
  exists a ms', step eqk hash ms cl = Ret (a, ms') /\ agree a (fst (spec_step eqk ls cl)) /\ Forall2 rep ms' (snd (spec_step eqk ls cl)) /\
    Forall (fun l => (List.length l <= S c)%nat) (snd (spec_step eqk ls cl)).
Proof.
  intros Pr F B Hc.
  assert (B' : Forall (fun l => (List.length l <= S c)%nat) ls) by (eapply Forall_impl; [|exact B]; cbn; intros; lia).
  destruct cl as [n|i k|i k|i k v|i k|i|i n|i|i|i|i|dk dv i|eqv i j]; cbn [step spec_step proper] in *.
  1:{ destruct (with_capacity_ok n Pr) as (m & s & E & O & En); rewrite E; cbn [bind fst snd].
      eexists _, _; split; [reflexivity|]; split; [reflexivity|]; split.
      - apply Forall2_app; [exact F|]; constructor; [|constructor]; exists s; split; [exact O|now rewrite En].
      - apply Forall_app; split; [exact B'|]; constructor; [cbn; lia|constructor]. }
  all: unfold on, with_map; pose proof (nth_rel rep ms ls i F) as Hn;
    destruct (nth_error ms i) as [m|] eqn:Em; destruct (nth_error ls i) as [l|] eqn:El; try contradiction;
    [destruct Hn as [Hr Hi]|eexists _, _; split; [reflexivity|]; cbn [fst snd]; split; [reflexivity|]; split; assumption].
  all: assert (Hl : (List.length l <= c)%nat) by (rewrite Forall_forall in B; apply B; eapply nth_error_In; eassumption).
  all: pose proof (rep_distinct m l Hr) as D; pose proof (rep_len m l Hr) as Ln; destruct Hr as (s & O & P); cbn [fst snd].
  - rewrite (get_ok m s k O), (value_of_perm _ _ L k _ _ P) by apply O; cbn [bind].
    eexists _, _; split; [reflexivity|]; split; [reflexivity|]; split; assumption.
  - rewrite (has_ok m s k O), (value_of_perm _ _ L k _ _ P) by apply O; cbn [bind].
    eexists _, _; split; [reflexivity|]; split; [reflexivity|]; split; assumption.
  - destruct (insert_ok m s k v O ltac:(lia)) as (m' & s' & E & O' & P'); rewrite E; cbn [bind].
    rewrite (value_of_perm _ _ L k _ _ P) by apply O.
    eexists _, _; split; [reflexivity|]; split; [reflexivity|]; split.
    + apply update_rel; try assumption; exists s'; split; [exact O'|]; rewrite P'; apply (put_perm _ _ L); [exact P|apply O].
    + apply Forall_update; [exact B'|]; pose proof (put_length k v l); lia.
  - destruct (remove_ok m s k O) as (m' & s' & E & O' & P'); rewrite E; cbn [bind].
    rewrite (value_of_perm _ _ L k _ _ P) by apply O.
    eexists _, _; split; [reflexivity|]; split; [reflexivity|]; split.
    + apply update_rel; try assumption; exists s'; split; [exact O'|]; rewrite P'; apply del_perm, P.
    + apply Forall_update; [exact B'|]; pose proof (del_length k l); lia.
  - destruct (clear_ok m s O) as (m' & s' & E & O' & P'); rewrite E; cbn [bind].
    eexists _, _; split; [reflexivity|]; split; [reflexivity|]; split.
    + apply update_rel; try assumption; exists s'; split; [exact O'|now rewrite P'].
    + apply Forall_update; [exact B'|]; cbn; lia.
  - destruct (reserve_ok n m s Pr O) as (m' & s' & E & O' & _ & P'); rewrite E; cbn [bind].
    eexists _, _; split; [reflexivity|]; split; [reflexivity|]; split; [|exact B'].
    replace ls with (update ls i l).
    + apply update_rel; try assumption; exists s'; split; [exact O'|now rewrite P'].
    + unfold update; apply nth_error_split in El as (x & y & -> & <-).
      rewrite firstn_app, Nat.sub_diag, firstn_all2 by lia; cbn [firstn]; rewrite app_nil_r.
      rewrite skipn_app, skipn_all2 by lia; replace (S (List.length x) - List.length x)%nat with 1%nat by lia; reflexivity.
  - eexists _, _; split; [reflexivity|]; split; [cbn; now rewrite Ln|]; split; assumption.
  - eexists _, _; split; [reflexivity|]; split; [|split; assumption]; cbn; f_equal; rewrite Ln; destruct l; reflexivity.
  - rewrite (elems_ok m s O); cbn [bind]; eexists _, _; split; [reflexivity|]; split; [exact P|]; split; assumption.
  - rewrite (shallow_copy_ok m s O); cbn [bind]; eexists _, _; split; [reflexivity|]; split; [reflexivity|]; split.
    + apply Forall2_app; [exact F|]; constructor; [|constructor]; exists s; split; assumption.
    + apply Forall_app; split; [exact B'|]; constructor; [lia|constructor].
  - destruct (deep_copy_ok dk dv m s Pr O) as (m' & s' & E & O' & P'); rewrite E; cbn [bind].
    eexists _, _; split; [reflexivity|]; split; [reflexivity|]; split.
    + apply Forall2_app; [exact F|]; constructor; [|constructor]; exists s'; split; [exact O'|]; rewrite P'; apply Permutation_map, P.
    + apply Forall_app; split; [exact B'|]; constructor; [rewrite map_length; lia|constructor].
  - pose proof (nth_rel rep ms ls j F) as Hj; destruct (nth_error ms j) as [m2|]; destruct (nth_error ls j) as [l2|]; try contradiction.
    + destruct Hj as [(s2 & O2 & P2) _]; rewrite (map_eq_ok eqv m s m2 s2 O O2); cbn [bind].
      rewrite (equal_perm _ _ L eqv _ _ _ _ P P2) by apply O2.
      eexists _, _; split; [reflexivity|]; split; [reflexivity|]; split; assumption.
    + eexists _, _; split; [reflexivity|]; split; [reflexivity|]; split; assumption.
Qed.

Lemma run_ok cs : forall (c : nat) ms ls, Forall (proper eqk) cs -> Forall2 rep ms ls -> Forall (fun l => (List.length l <= c)%nat) ls ->
  N.of_nat (c + List.length cs) <= 2 ^ 61 ->
  exists rs ms', run eqk hash ms cs = Ret (rs, ms') /\ Forall2 agree rs (fst (spec_run eqk ls cs)) /\ Forall2 rep ms' (snd (spec_run eqk ls cs)).
Proof.
  induction cs as [|cl cs IH]; intros c ms ls Pr F B Hc; cbn [run spec_run].
  - exists [], ms; split; [reflexivity|]; split; [constructor|exact F].
  - inversion Pr as [|? ? P1 P2]; subst; cbn [List.length] in Hc.
    destruct (step_ok c ms ls cl P1 F B ltac:(lia)) as (a & ms1 & E1 & A1 & F1 & B1); rewrite E1; cbn [bind].
    destruct (spec_step eqk ls cl) as [a' ls1]; cbn [fst snd] in *.
    destruct (IH (S c) ms1 ls1 P2 F1 B1 ltac:(lia)) as (rs & ms' & E2 & A2 & F2); rewrite E2; cbn [bind].
    destruct (spec_run eqk ls1 cs) as [rs' ls']; cbn [fst snd] in *.
    exists (a :: rs), ms'; split; [reflexivity|]; split; [constructor; assumption|exact F2].
Qed.

Lemma answers (cs : list (call K V)) : Forall (proper eqk) cs -> N.of_nat (List.length cs) <= 2 ^ 61 ->
  exists rs ms, run eqk hash [] cs = Ret (rs, ms) /\ Forall2 agree rs (fst (spec_run eqk [] cs)).
Proof.
  intros Pr Hc; destruct (run_ok cs 0 [] [] Pr) as (rs & ms & E & A & _); try constructor; [exact Hc|].
  exists rs, ms; split; assumption.
Qed.

(** The keys of every map stay distinct. *)
Lemma spec_distinct (cs : list (call K V)) : Forall (proper eqk) cs -> N.of_nat (List.length cs) <= 2 ^ 61 -> Forall (distinct eqk) (snd (spec_run eqk [] cs)).
Proof.
  intros Pr Hc; destruct (run_ok cs 0 [] [] Pr) as (rs & ms & E & A & F); try constructor; [exact Hc|].
  clear - F L; induction F as [|m l ms ls R F IH]; constructor; [eapply rep_distinct; eassumption|exact IH].
Qed.

(** A map made with capacity zero is outside its arrays at the first search. *)
Lemma zero_capacity k : run eqk hash [] [New 0; Get 0 k : call K V] = Panic.
Proof.
  cbn [run step]; unfold with_capacity; rewrite next_power_zero; cbn [bind app on nth_error run step].
  unfold get, lookup; cbn [cap]; change (S (N.to_nat 0)) with 1%nat; cbn [lookup_loop hashes].
  rewrite load_none by (apply at_out; rewrite size_filled; apply N.le_0_l); reflexivity.
Qed.

End Map.
