From Verif.Base Require Import Base.
From Verif.Base Require Export Vec.

Lemma vget_nth {A} (l : list A) i d : (i < List.length l)%nat -> vget l i = Ret (nth i l d).
Proof. intros H. unfold vget. rewrite (nth_error_nth' l d H). reflexivity. Qed.

Lemma vget_some {A} (l : list A) i x : nth_error l i = Some x -> vget l i = Ret x.
Proof. intros H. unfold vget. rewrite H. reflexivity. Qed.

Lemma vset_ok {A} (l : list A) i x : (i < List.length l)%nat -> exists l', vset l i x = Ret l' /\
  List.length l' = List.length l /\ forall j d, nth j l' d = if Nat.eqb i j then x else nth j l d.
Proof.
  revert i. induction l as [|y l IH]; intros i H; cbn in H; [lia|]. destruct i as [|i]; cbn [vset].
  - exists (x :: l). split; [reflexivity|]. split; [reflexivity|]. intros [|j] d; reflexivity.
  - destruct (IH i) as (l' & -> & Hl & Hn); [lia|]. exists (y :: l'). cbn [bind]. split; [reflexivity|].
    split; [cbn; lia|]. intros [|j] d; cbn; [reflexivity|]. apply Hn.
Qed.

Lemma vset_nth_error {A} (l : list A) i x : (i < List.length l)%nat -> exists l', vset l i x = Ret l' /\
  List.length l' = List.length l /\ forall j, nth_error l' j = if Nat.eqb i j then Some x else nth_error l j.
Proof.
  revert i. induction l as [|y l IH]; intros i H; cbn in H; [lia|]. destruct i as [|i]; cbn [vset].
  - exists (x :: l). split; [reflexivity|]. split; [reflexivity|]. intros [|j]; reflexivity.
  - destruct (IH i) as (l' & -> & Hl & Hn); [lia|]. exists (y :: l'). cbn [bind]. split; [reflexivity|].
    split; [cbn; lia|]. intros [|j]; cbn; [reflexivity|]. apply Hn.
Qed.

Lemma conv_ret {A} (r : A) : conv (fun _ => Ret r) r.
Proof. exists 0%nat. reflexivity. Qed.

Lemma conv_eq {A} (o : outcome A) (r : A) : o = Ret r -> conv (fun _ => o) r.
Proof. intros ->. apply conv_ret. Qed.

Lemma conv_bind {A B} (f : nat -> outcome A) (g : A -> nat -> outcome B) r s :
  conv f r -> conv (g r) s -> conv (fun n => let* x := f n in g x n) s.
Proof.
  intros (n1 & H1) (n2 & H2). exists (Nat.max n1 n2). intros m Hm. rewrite H1 by lia. cbn [bind]. apply H2. lia.
Qed.

Lemma conv_step {A} (f g : nat -> outcome A) r : (forall n, f (S n) = g n) -> conv g r -> conv f r.
Proof.
  intros E (n & H). exists (S n). intros [|m] Hm; [lia|]. rewrite E. apply H. lia.
Qed.

Lemma conv_ext {A} (f g : nat -> outcome A) r : (forall n, f n = g n) -> conv g r -> conv f r.
Proof. intros E (n & H). exists n. intros m Hm. rewrite E. auto. Qed.

Lemma conv_unique {A} (f : nat -> outcome A) r s : conv f r -> conv f s -> r = s.
Proof. intros (n1 & H1) (n2 & H2). specialize (H1 (Nat.max n1 n2)). specialize (H2 (Nat.max n1 n2)). rewrite H1 in H2 by lia. specialize (H2 ltac:(lia)). congruence. Qed.
