(** * The table: what its slots hold, and searching it *)
From Coq Require Import Permutation.
From Verif.Base Require Import Base Buf BufFacts.
From Verif.HashMap Require Import Model Spec ProofsArith.
Local Open Scope N_scope.
Local Open Scope list_scope.

Section Proofs.
Context {K V : Type} (eqk : K -> K -> bool) (hash : K -> N).
Hypothesis L : lawful eqk hash.
Notation ent := (N * K * V)%type.
Implicit Types (m : body K V) (s : buf ent) (e : ent) (k : K) (v : V).

Definition key_of e : K := snd (fst e).
Definition hash_of e : N := fst (fst e).
Definition val_of e : V := snd e.

Lemma eqk_refl k : eqk k k = true.
Proof. destruct L as (A & B & C & D & E); eauto. Qed.
Lemma eqk_sym k k' : eqk k k' = true -> eqk k' k = true.
Proof. destruct L as (A & B & C & D & E); eauto. Qed.
Lemma eqk_trans k k' k'' : eqk k k' = true -> eqk k' k'' = true -> eqk k k'' = true.
Proof. destruct L as (A & B & C & D & E); eauto. Qed.
Lemma eqk_hash k k' : eqk k k' = true -> hash k = hash k'.
Proof. destruct L as (A & B & C & D & E); eauto. Qed.
Lemma eqk_comm k k' : eqk k k' = eqk k' k.
Proof.
  destruct (eqk k k') eqn:E, (eqk k' k) eqn:E'; try reflexivity; [apply eqk_sym in E|apply eqk_sym in E']; congruence.
Qed.

(** The slots of a map: what a slot that is in use holds. *)
Definition slot_ok m s (i : N) : Prop :=
  match at_ s i with
  | None => exists h, at_ (hashes m) i = Some h /\ exists_ h = false
  | Some (h, k, v) => at_ (hashes m) i = Some h /\ exists_ h = true /\ at_ (keys m) i = Some k /\ at_ (values m) i = Some v
  end.
Record holds m s : Prop := Holds {
  h_power : power (cap m);
  h_size : size s = cap m;
  h_hashes : size (hashes m) = cap m;
  h_keys : size (keys m) = cap m;
  h_values : size (values m) = cap m;
  h_slots : forall i, i < cap m -> slot_ok m s i
}.

(** An entry that is not at its ideal index has before it an entry that is as far from its own, or one less. *)
Definition robin (n : N) s : Prop :=
  forall i e, i < n -> at_ s (nxt n i) = Some e -> gap n (nxt n i) (hash_of e) <> 0 ->
  exists e', at_ s i = Some e' /\ gap n (nxt n i) (hash_of e) <= gap n i (hash_of e') + 1.
Definition good s : Prop := forall i e, at_ s i = Some e -> hash_of e = put_flag (hash (key_of e)).
Definition unique s : Prop := forall i j e e', at_ s i = Some e -> at_ s j = Some e' -> eqk (key_of e) (key_of e') = true -> i = j.
Definition room (n : N) s : Prop := exists i, i < n /\ at_ s i = None.

(** From the ideal index of an entry up to it all slots are in use, by entries at least as far from their ideal index. *)
Lemma chain n s i e : power n -> robin n s -> i < n -> at_ s i = Some e ->
  forall x, x <= gap n i (hash_of e) -> exists e', at_ s (adv n (ideal_index (hash_of e) n) x) = Some e' /\
    x <= gap n (adv n (ideal_index (hash_of e) n) x) (hash_of e').
Proof.
  intros Hp R Hi He x Hx.
  remember (N.to_nat (gap n i (hash_of e) - x)) as y eqn:Ey; revert x Hx Ey.
  induction y as [|y IH]; intros x Hx Ey.
  - replace x with (gap n i (hash_of e)) by lia; rewrite adv_gap by assumption; exists e; split; [exact He|lia].
  - destruct (IH (x + 1) ltac:(lia) ltac:(lia)) as (e' & A & G).
    pose proof (gap_lt n i (hash_of e) Hp Hi) as GL.
    pose proof (ideal_lt n (hash_of e) Hp) as IL.
    rewrite (adv_succ n _ x) in A, G by lia.
    destruct (R _ e' (adv_lt n _ x IL ltac:(lia)) A ltac:(lia)) as (e2 & A2 & G2).
    exists e2; split; [exact A2|lia].
Qed.

(** An entry with a key equal to the one looked for is found from the ideal index on. *)
Lemma lookup_found fuel m s i h k e :
  holds m s -> robin (cap m) s -> unique s -> i < cap m -> at_ s i = Some e -> h = hash_of e -> eqk k (key_of e) = true ->
  forall x, x <= gap (cap m) i h -> (N.to_nat (gap (cap m) i h - x) < fuel)%nat ->
  lookup_loop eqk fuel h k m (adv (cap m) (ideal_index h (cap m)) x) = Ret (Some i).
Proof.
  intros Hh R U Hi He -> Hk; set (h := hash_of e); set (n := cap m) in *; pose proof (h_power _ _ Hh) as Hp; fold n in Hp.
  pose proof (gap_lt n i h Hp Hi) as GL; pose proof (ideal_lt n h Hp) as IL.
  induction fuel as [|fuel IH]; intros x Hx Hf; [lia|].
  destruct (chain n s i e Hp R Hi He x Hx) as (e' & A & G); fold h in A, G.
  pose proof (adv_lt n (ideal_index h n) x IL ltac:(lia)) as PL.
  set (p := adv n (ideal_index h n) x) in *.
  pose proof (h_slots _ _ Hh p PL) as SL; unfold slot_ok in SL; rewrite A in SL; destruct e' as [[h' k'] v'].
  destruct SL as (S1 & S2 & S3 & S4).
  cbn [lookup_loop]; rewrite (load_at _ _ _ S1); cbn [bind].
  destruct (N.eq_dec p i) as [->|NE].
  - assert (Same : (h', k', v') = e) by congruence; subst e; cbn in h; subst h; rewrite N.eqb_refl, (load_at _ _ _ S3); cbn [bind].
    cbn in Hk; rewrite Hk; reflexivity.
  - assert (X : x <> gap n i h) by (intros ->; apply NE; unfold p; apply adv_gap; assumption).
    assert (Q : (let* same := (if h =? h' then let* k0 := load p (keys m) in Ret (eqk k k0) else Ret false) in Ret same) = Ret false).
    { destruct (h =? h') eqn:EH; [|reflexivity]; rewrite (load_at _ _ _ S3); cbn [bind]; f_equal.
      destruct (eqk k k') eqn:EK; [|reflexivity]; exfalso; apply NE; eapply (U p i); [exact A|exact He|].
      cbn; eapply eqk_trans; [apply eqk_sym; exact EK|exact Hk]. }
    destruct (if h =? h' then _ else _) as [same| |] eqn:ES; try discriminate; cbn [bind] in Q |- *.
    injection Q as ->; rewrite S2; cbn [negb].
    fold n; rewrite !distance_gap by assumption; cbn [bind].
    assert (PX : gap n p h = x) by (apply gap_adv; [exact Hp|lia]); rewrite PX.
    cbn in G; replace (gap n p h' <? x) with false by lia.
    rewrite next_index by assumption; cbn [bind].
    unfold p; rewrite <- adv_succ by lia; apply IH; lia.
Qed.

(** A key that is not there is not found. *)
Lemma lookup_absent fuel m s h k :
  holds m s -> (forall i e, at_ s i = Some e -> eqk k (key_of e) = false) -> room (cap m) s ->
  forall x, x < cap m -> (forall y, y < x -> at_ s (adv (cap m) (ideal_index h (cap m)) y) <> None) ->
  (N.to_nat (cap m - x) < fuel)%nat -> exists_ h = true ->
  lookup_loop eqk fuel h k m (adv (cap m) (ideal_index h (cap m)) x) = Ret None.
Proof.
  intros Hh A (q & Hq & Eq); set (n := cap m) in *; pose proof (h_power _ _ Hh) as Hp; fold n in Hp.
  pose proof (ideal_lt n h Hp) as IL.
  induction fuel as [|fuel IH]; intros x Hx Hy Hf Ex; [lia|].
  pose proof (adv_lt n (ideal_index h n) x IL ltac:(lia)) as PL.
  set (p := adv n (ideal_index h n) x) in *.
  pose proof (h_slots _ _ Hh p PL) as SL; unfold slot_ok in SL; cbn [lookup_loop].
  destruct (at_ s p) as [[[h' k'] v']|] eqn:EP.
  - destruct SL as (S1 & S2 & S3 & S4); rewrite (load_at _ _ _ S1), (load_at _ _ _ S3); cbn [bind].
    pose proof (A _ _ EP) as AK; cbn in AK; rewrite AK.
    replace (let* same := (if h =? h' then Ret false else Ret false) in _) with (if negb (exists_ h') then Ret (@None N) else
        let* d := distance p h (cap m) in
        let* d' := distance p h' (cap m) in
        if d' <? d then Ret None
        else let* i := rem64 (add64 p 1) (cap m) in lookup_loop eqk fuel h k m i) by (destruct (h =? h'); reflexivity).
    rewrite S2; cbn [negb]; rewrite !distance_gap by assumption; cbn [bind].
    destruct (_ <? _); [reflexivity|].
    fold n; rewrite next_index by assumption; cbn [bind].
    assert (X : x + 1 < n).
    { destruct (N.lt_ge_cases (x + 1) n) as [X|X]; [exact X|exfalso].
      destruct (adv_onto n (ideal_index h n) q IL Hq) as (y & Yn & Yq).
      destruct (N.lt_ge_cases y x) as [Y|Y]; [apply (Hy y Y); congruence|].
      replace y with x in Yq by lia; fold p in Yq; congruence. }
    unfold p; rewrite <- adv_succ by lia; apply IH; try assumption; try lia.
    intros y Yx; destruct (N.lt_ge_cases y x) as [Y|Y]; [exact (Hy y Y)|].
    replace y with x by lia; fold p; congruence.
  - destruct SL as (h' & S1 & S2); rewrite (load_at _ _ _ S1); cbn [bind].
    destruct (h =? h') eqn:EH; [apply N.eqb_eq in EH; congruence|]; cbn [bind]; rewrite S2; reflexivity.
Qed.

(** Flags. *)
Lemma exists_put h : exists_ (put_flag h) = true.
Proof.
  unfold exists_, put_flag; apply negb_true_iff, N.eqb_neq; intros E.
  assert (B : N.testbit (N.land (N.lor h flag) flag) 63 = N.testbit 0 63) by now rewrite E.
  rewrite N.land_spec, N.lor_spec in B; change (N.testbit flag 63) with true in B; rewrite orb_true_r in B; discriminate.
Qed.

(** What a search gives. *)
Lemma lookup_some m s k i e :
  holds m s -> robin (cap m) s -> unique s -> good s -> at_ s i = Some e -> eqk k (key_of e) = true ->
  lookup eqk (put_flag (hash k)) k m = Ret (Some i).
Proof.
  intros Hh R U G He Hk; unfold lookup; pose proof (h_power _ _ Hh) as Hp.
  assert (Hi : i < cap m) by (rewrite <- (h_size _ _ Hh); eapply at_some_in; eassumption).
  pose proof (ideal_lt (cap m) (put_flag (hash k)) Hp) as IL; pose proof (gap_lt (cap m) i (put_flag (hash k)) Hp Hi) as GL.
  rewrite <- (adv_0 (cap m) (ideal_index _ _)) at 1 by exact IL.
  eapply lookup_found; try eassumption; try lia.
  rewrite (G _ _ He); f_equal; apply eqk_hash, Hk.
Qed.
Lemma lookup_none m s k :
  holds m s -> room (cap m) s -> (forall i e, at_ s i = Some e -> eqk k (key_of e) = false) ->
  lookup eqk (put_flag (hash k)) k m = Ret None.
Proof.
  intros Hh Rm A; unfold lookup; pose proof (h_power _ _ Hh) as Hp.
  pose proof (ideal_lt (cap m) (put_flag (hash k)) Hp) as IL.
  rewrite <- (adv_0 (cap m) (ideal_index _ _)) at 1 by exact IL.
  eapply lookup_absent; try eassumption; try (intros; lia); apply exists_put.
Qed.

End Proofs.
