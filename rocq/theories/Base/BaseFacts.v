From Verif.Base Require Export Base.

Lemma len_utf8_pos c : (0 < len_utf8 c)%N.
Proof.
  unfold len_utf8; destruct (c <? 128)%N; [lia|]; destruct (c <? 2048)%N; [lia|].
  destruct (c <? 65536)%N; lia.
Qed.

Lemma blen_app a b : blen (a ++ b) = (blen a + blen b)%N.
Proof. induction a as [|c a IH]; cbn [blen app]; [reflexivity|]. rewrite IH; lia. Qed.

Lemma blen_0 t : blen t = 0%N -> t = [].
Proof. destruct t as [|c t]; cbn [blen]; [reflexivity|]. pose proof (len_utf8_pos c); lia. Qed.

Lemma text_eqb_eq a b : text_eqb a b = true <-> a = b.
Proof.
  revert b; induction a as [|x a IH]; intros [|y b]; cbn; split; try discriminate; try reflexivity.
  - rewrite andb_true_iff, IH, N.eqb_eq. intros [-> ->]; reflexivity.
  - intros H; inversion H; subst. rewrite N.eqb_refl. cbn. apply IH; reflexivity.
Qed.

Lemma text_eqb_refl a : text_eqb a a = true.
Proof. apply text_eqb_eq; reflexivity. Qed.

Lemma split_at_byte_app a b : split_at_byte (blen a) (a ++ b) = Some (a, b).
Proof.
  induction a as [|c a IH].
  - destruct b; reflexivity.
  - cbn [blen app split_at_byte]. pose proof (len_utf8_pos c) as Hp.
    destruct (N.eqb_spec (len_utf8 c + blen a) 0) as [E|_]; [lia|].
    destruct (N.leb_spec (len_utf8 c) (len_utf8 c + blen a)) as [_|Hlt]; [|lia].
    replace (len_utf8 c + blen a - len_utf8 c)%N with (blen a) by lia.
    rewrite IH; reflexivity.
Qed.

Lemma split_at_byte_some n t a b : split_at_byte n t = Some (a, b) -> t = a ++ b /\ n = blen a.
Proof.
  revert n a b; induction t as [|c t IH]; intros n a b; cbn [split_at_byte].
  - destruct (N.eqb_spec n 0); intros H; inversion H; subst; cbn; auto.
  - destruct (N.eqb_spec n 0) as [->|Hn].
    + intros H; inversion H; subst; cbn; auto.
    + destruct (N.leb_spec (len_utf8 c) n) as [Hle|_]; [|discriminate].
      destruct (split_at_byte (n - len_utf8 c) t) as [[a' b']|] eqn:E; [|discriminate].
      intros H; inversion H; subst. apply IH in E as [-> E].
      cbn [app blen]. split; [reflexivity|]. lia.
Qed.

Lemma starts_with_true p t : starts_with p t = true <-> exists r, t = p ++ r.
Proof.
  revert t; induction p as [|x p IH]; intros t; cbn [starts_with].
  - split; [intros _; exists t; reflexivity|reflexivity].
  - destruct t as [|y t].
    + split; [discriminate|]. intros [r Hr]; discriminate.
    + rewrite andb_true_iff, N.eqb_eq, IH. split.
      * intros [-> [r ->]]; exists r; reflexivity.
      * intros [r Hr]; inversion Hr; subst; split; [reflexivity|exists r; reflexivity].
Qed.

Lemma starts_with_app p r : starts_with p (p ++ r) = true.
Proof. apply starts_with_true; exists r; reflexivity. Qed.
