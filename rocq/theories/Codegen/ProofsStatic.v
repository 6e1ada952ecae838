(** How the recorded depth changes. *)
From Coq Require Import ZArith Lia.
From Verif.Base Require Import Base.
From Verif.Layout Require Import Model Spec Proofs ProofsResolve.
From Verif.Stack Require Import Machine Model Spec Facts Proofs ProofsValue ProofsMove.
From Verif.Codegen Require Import Model Machine Spec Facts.
Local Open Scope Z_scope.

Definition zero_but (rsp : Z) : state := State (fun x => if gpr_eqb x Rsp then rsp else 0) (fun _ => 0) (fun _ => 0).
Lemma ea_zero a rsp : address_ok a -> ea a (zero_but rsp) = disp a.
Proof.
  intros (_ & _ & _ & _ & Ab & Ai). unfold ea, zero_but. cbn [gp]. rewrite (gpr_eqb_neq _ _ Ab).
  destruct (index a) as [x|]; [|lia]. rewrite gpr_eqb_neq by (intros ->; contradiction). lia.
Qed.
Lemma has_any l s : usable l -> has l (undefined (length_of l)) s.
Proof.
  intros U. destruct (value_any l s U) as [bs V]. exists bs. split; [|exact V]. pose proof (proj1 V) as E.
  split; [unfold undefined; now rewrite repeat_length|]. intros i z H. unfold undefined in H. apply nth_error_In in H. apply repeat_spec in H. discriminate.
Qed.
Lemma load_static a l : usable l -> address_ok a -> snd (load a l) * 8 = taken l.
Proof.
  intros U A. pose (rsp := - Z.abs (disp a)). refine (proj1 (proj2 (proj2 (load_has a l (undefined (length_of l)) (zero_but rsp) U A _ _ _)))).
  - apply repeat_length.
  - apply holds_undefined.
  - rewrite ea_zero by exact A. cbn [zero_but gp]. change (gpr_eqb Rsp Rsp) with true. cbn iota. intros x. pose proof (taken_bounds l). lia.
Qed.
Lemma store_static a l : usable l -> address_ok a -> snd (store a l) * 8 = - taken l.
Proof.
  intros U A. pose (rsp := Z.abs (disp a) + Z.of_N (size l)). refine (proj1 (proj2 (proj2 (store_has a l (undefined (length_of l)) (zero_but rsp) U A _ _)))).
  - apply has_any, U.
  - rewrite ea_zero by exact A. cbn [zero_but gp]. change (gpr_eqb Rsp Rsp) with true. cbn iota. intros x. unfold rsp. lia.
Qed.
Lemma load_var_static a l : usable l -> address_ok a -> snd (load a (in_stack l)) * 8 = taken l.
Proof. intros U A. rewrite load_static by (try apply usable_in_stack; assumption). apply taken_in_stack. Qed.
Lemma store_var_static a l : usable l -> address_ok a -> snd (store a (in_stack l)) * 8 = - taken l.
Proof. intros U A. rewrite store_static by (try apply usable_in_stack; assumption). now rewrite taken_in_stack. Qed.
Lemma push_static l : usable l -> snd (push l) * 8 = room l - taken l.
Proof. intros U. apply (push_has l (undefined (length_of l)) (zero_but 0) U). apply has_any, U. Qed.
Lemma pop_static l : usable l -> snd (pop l) * 8 = taken l - room l.
Proof.
  intros U. apply (pop_has l (undefined (length_of l)) (zero_but 0) U); [apply repeat_length | apply holds_undefined].
Qed.
Lemma extend_static l : snd (extend_stack l) * 8 = room l. Proof. apply (extend_ok l (zero_but 0)). Qed.
Lemma shrink_static l : snd (shrink_stack l) * 8 = - room l. Proof. apply (shrink_ok l (zero_but 0)). Qed.
Lemma discard_static l : usable l -> snd (discard l) * 8 = - taken l. Proof. intros U. apply (discard_ok l (zero_but 0) U). Qed.
Lemma reinterpret_static a l : usable a -> usable l -> snd (reinterpret a l) * 8 = taken l - taken a.
Proof.
  intros U U'. destruct (value_any a (zero_but 0) U) as [bs V]. destruct (reinterpret_ok a l bs _ U U' V) as (bs' & _ & _ & _ & E & _). exact E.
Qed.
Lemma struct_elem_static l i es cs o e c : usable l -> usable e -> (o + size e <= size l)%N -> composite l = Some (es, cs) -> nth_error es i = Some (o, e) ->
  (o <> 0%N \/ num_eightbytes e <> num_eightbytes l \/ map e_class (eightbytes e) = map e_class (eightbytes l)) ->
  struct_elem l i = Ret (c, e) -> snd c * 8 = taken e - taken l.
Proof.
  intros U U' S C N D H. destruct (value_any l (zero_but 0) U) as [bs V].
  apply (struct_elem_at l i es cs o e bs _ c U U' S C N V D H).
Qed.
Lemma rbp_ok o : address_ok (at_rbp o). Proof. repeat split; discriminate. Qed.
Lemma rdi_ok o : address_ok (Addr Rdi None o). Proof. repeat split; discriminate. Qed.
Lemma rsi_ok o : address_ok (Addr Rsi None o). Proof. repeat split; discriminate. Qed.
Lemma value_taken l : Z.of_N (size_in_stack l true) = taken l.
Proof.
  unfold size_in_stack, taken. destruct (cls l); cbn [class_eqb negb andb]; try reflexivity. rewrite room_words. unfold words. lia.
Qed.
Lemma eightbytes_room l : size_in_stack l false = Z.to_N (room l).
Proof. unfold size_in_stack. cbn [andb]. rewrite room_words. unfold words. lia. Qed.

