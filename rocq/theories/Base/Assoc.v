(** Rust [HashMap<String, V>]: an association list without repeated keys. The order of iteration is
    not fixed: where code iterates, the model takes the order as a parameter. *)
From Verif.Base Require Import Base BaseFacts.
From Coq Require Export Permutation.

Section Assoc.
Context {V : Type}.

Fixpoint hget (x : text) (m : list (text * V)) : option V :=
  match m with
  | [] => None
  | (y, v) :: m => if text_eqb x y then Some v else hget x m
  end.
Definition hremove (x : text) (m : list (text * V)) : list (text * V) :=
  filter (fun p => negb (text_eqb x (fst p))) m.
Definition hinsert (x : text) (v : V) (m : list (text * V)) : list (text * V) := (x, v) :: hremove x m.

Lemma hget_remove x y m : hget x (hremove y m) = if text_eqb x y then None else hget x m.
Proof.
  induction m as [|[z s] m IH]; [cbn; destruct (text_eqb x y); reflexivity|]. cbn [hremove filter fst]. destruct (text_eqb y z) eqn:E1; cbn [negb].
  - fold (hremove y m). rewrite IH. apply text_eqb_eq in E1. subst z. cbn [hget]. destruct (text_eqb x y); reflexivity.
  - cbn [hget]. fold (hremove y m). rewrite IH. destruct (text_eqb x z) eqn:E2; [|reflexivity]. apply text_eqb_eq in E2. subst z.
    destruct (text_eqb x y) eqn:E3; [|reflexivity]. apply text_eqb_eq in E3. subst y. rewrite text_eqb_refl in E1. discriminate.
Qed.

Lemma hget_insert x y v m : hget x (hinsert y v m) = if text_eqb x y then Some v else hget x m.
Proof. unfold hinsert. cbn [hget]. rewrite hget_remove. destruct (text_eqb x y); reflexivity. Qed.

Lemma in_hremove x p m : In p (hremove x m) <-> In p m /\ fst p <> x.
Proof.
  unfold hremove. rewrite filter_In. split; intros (H & E); (split; [exact H|]).
  - intros E'. rewrite E', text_eqb_refl in E. discriminate.
  - destruct (text_eqb x (fst p)) eqn:E2; [apply text_eqb_eq in E2; congruence|reflexivity].
Qed.

Definition keys (m : list (text * V)) : list text := map fst m.

Lemma keys_hremove x y m : In y (keys (hremove x m)) <-> In y (keys m) /\ y <> x.
Proof.
  unfold keys. rewrite !in_map_iff. split.
  - intros (p & <- & H). apply in_hremove in H. destruct H as (H & Hn). split; [exists p; auto|exact Hn].
  - intros ((p & <- & H) & Hn). exists p. split; [reflexivity|]. apply in_hremove. auto.
Qed.

Lemma nodup_hremove x m : NoDup (keys m) -> NoDup (keys (hremove x m)).
Proof.
  induction m as [|[y v] m IH]; intros H; [exact H|]. cbn in H. inversion_clear H as [|? ? Hn H']. cbn [hremove filter fst]. destruct (negb (text_eqb x y)); [|apply IH, H'].
  cbn [keys map fst]. constructor; [|apply IH, H']. intros Hin. apply keys_hremove in Hin. apply Hn, Hin.
Qed.

Lemma nodup_hinsert x v m : NoDup (keys m) -> NoDup (keys (hinsert x v m)).
Proof. intros H. cbn. constructor; [|apply nodup_hremove, H]. intros Hin. apply keys_hremove in Hin. destruct Hin as (_ & Hn). apply Hn. reflexivity. Qed.

Lemma hget_in x v m : NoDup (keys m) -> hget x m = Some v <-> In (x, v) m.
Proof.
  induction m as [|[y w] m IH]; intros H; [cbn; split; [discriminate|intros []]|]. cbn in H. inversion_clear H as [|? ? Hn H']. cbn [hget]. destruct (text_eqb x y) eqn:E.
  - apply text_eqb_eq in E. subst y. split; [intros E; injection E as ->; left; reflexivity|]. intros [E|Hin]; [injection E as ->; reflexivity|]. exfalso. apply Hn. apply (in_map fst) in Hin. exact Hin.
  - rewrite (IH H'). split; [intros Hin; right; exact Hin|]. intros [E2|Hin]; [injection E2 as -> ->; rewrite text_eqb_refl in E; discriminate|exact Hin].
Qed.

Lemma hget_none x m : hget x m = None <-> ~ In x (keys m).
Proof.
  induction m as [|[y w] m IH]; [cbn; tauto|]. cbn [hget keys map fst In]. destruct (text_eqb x y) eqn:E.
  - apply text_eqb_eq in E. subst y. split; [discriminate|]. intros H. exfalso. apply H. left. reflexivity.
  - unfold keys in IH. rewrite IH. split; [intros H [->|H2]; [rewrite text_eqb_refl in E; discriminate|contradiction]|tauto].
Qed.
End Assoc.
