(** * Cutting strings of characters *)
From Coq Require Import NArith ZArith Lia.
From Verif.Base Require Import Base.
From Verif.Utf8 Require Import Model Spec Proofs ProofsMain.
Local Open Scope N_scope.
Local Open Scope list_scope.

Lemma stepped_det s b1 c1 : stepped s b1 c1 -> forall b2 c2 r1 r2, stepped s b2 c2 -> b1 ++ r1 = b2 ++ r2 -> c1 = c2 /\ r1 = r2.
Proof.
  induction 1 as [s b c E|s b i bs c E _ IH]; intros b2 c2 r1 r2 H2 Q.
  - inversion H2; subst; cbn in Q; injection Q as -> Q; split; congruence.
  - inversion H2; subst; cbn in Q; injection Q as -> Q; [congruence|]. rewrite E in *.
    match goal with H : Continue _ = Continue _ |- _ => injection H as -> end. eapply IH; eauto.
Qed.

Lemma utf8_prefix_free c1 c2 r1 r2 : known c1 -> known c2 -> utf8 c1 ++ r1 = utf8 c2 ++ r2 -> c1 = c2 /\ r1 = r2.
Proof. intros. eapply stepped_det; eauto using stepped_utf8. Qed.

Lemma prefix_chars ps : Forall known ps -> forall cs rest, Forall known cs ->
  flat_map utf8 cs = flat_map utf8 ps ++ rest -> exists cs', cs = ps ++ cs' /\ rest = flat_map utf8 cs'.
Proof.
  induction 1 as [|p ps K _ IH]; intros cs rest KC E; cbn [flat_map app] in *.
  - now exists cs.
  - rewrite <- List.app_assoc in E. destruct KC as [|c cs KC KCS]; cbn [flat_map] in E.
    + pose proof (utf8_nonempty p). destruct (utf8 p); [congruence|discriminate].
    + apply utf8_prefix_free in E as [-> E]; auto. destruct (IH cs rest KCS E) as (cs' & -> & ->). now exists cs'.
Qed.

Lemma cut_chars cs : Forall known cs -> forall a b, flat_map utf8 cs = a ++ b -> between cs (List.length a) ->
  exists ca cb, cs = ca ++ cb /\ a = flat_map utf8 ca /\ b = flat_map utf8 cb.
Proof.
  intros K a b E (ca & cb & -> & L). exists ca, cb. rewrite flat_map_app in E.
  assert (A : a = flat_map utf8 ca).
  { apply (f_equal (firstn (List.length a))) in E. rewrite L in E at 1. now rewrite !firstn_app, !Nat.sub_diag, !firstn_O, !app_nil_r, !firstn_all in E. }
  refine (conj eq_refl (conj A _)). rewrite A in E. now apply app_inv_head in E.
Qed.

(** Where the bytes of a string occur in another, its characters do. *)
Lemma occurrence_chars cs ps a b : Forall known cs -> Forall known ps -> ps <> [] -> flat_map utf8 cs = a ++ flat_map utf8 ps ++ b ->
  exists ca cb, cs = ca ++ ps ++ cb /\ a = flat_map utf8 ca /\ b = flat_map utf8 cb.
Proof.
  intros KC KP NE E. destruct ps as [|p ps]; [congruence|]. pose proof (Forall_inv KP) as K.
  destruct (first_valid p K) as (b0 & bs & U & V & _).
  assert (B : between cs (List.length a)).
  { apply (boundary_byte cs KC (List.length a) b0); auto. rewrite E, nth_error_app2, Nat.sub_diag by auto. cbn [flat_map]. rewrite U. reflexivity. }
  destruct (cut_chars cs KC _ _ E B) as (ca & cb & -> & -> & E2). apply Forall_app in KC as [KA KB].
  destruct (prefix_chars (p :: ps) KP cb b KB (eq_sym E2)) as (cb' & -> & ->). now exists ca, cb'.
Qed.
