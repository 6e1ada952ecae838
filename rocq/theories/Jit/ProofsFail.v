(** * What the engine gets wrong *)
From Coq Require Import NArith ZArith.
From Verif.Base Require Import Base.
From Verif.Obj Require Import Model Spec.
From Verif.Jit Require Import Model Spec Proofs ProofsEngine ProofsLoad ProofsAdd.
Local Open Scope Z_scope.
Local Open Scope string_scope.
Local Open Scope list_scope.

(** An operating system that maps after everything. *)
Definition bump (ms : list mmap) (n : Z) : option Z :=
  Some ((fold_right (fun m a => Z.max a (m_ptr m + m_size m)) 1 ms + 4095) / 4096 * 4096).

Lemma bump_honest : honest bump.
Proof.
  intros ms n p _ H. unfold bump in H. injection H as <-. set (t := fold_right _ 1 ms).
  assert (T : 1 <= t /\ forall m, In m ms -> m_ptr m + m_size m <= t).
  { unfold t. clear. induction ms as [|m ms [IH1 IH2]]; cbn; [split; [lia|intros m []]|]. split; [lia|]. intros m' [<-|I]; [lia|]. specialize (IH2 m' I). lia. }
  destruct T as [T1 T2]. pose proof (Z.div_mod (t + 4095) 4096 ltac:(lia)). pose proof (Z.mod_pos_bound (t + 4095) 4096 ltac:(lia)).
  split; [lia|]. split; [unfold page_size; apply Z.mod_mul; lia|]. intros m I. specialize (T2 m I). lia.
Qed.

Definition nobody (n : string) : Z := 0.
Definition blank (x : Z) : N := 0%N.
Definition add := add_object bump nobody.

Definition succeeds (r : result unit) : bool := match r with Ret (_, inl tt) => true | _ => false end.
Definition engine_of (r : result unit) (e : engine) : engine := match r with Ret (e, _) => e | _ => e end.

Lemma succeeds_ret r e : succeeds r = true -> r = Ret (engine_of r e, inl tt).
Proof. destruct r as [[e' [[]|x]]| |]; cbn; congruence. Qed.

(** ** Offsets that do not fit *)

Definition start1 : engine := engine_of (register nobody "far" 1099511627776 (new_engine blank)) (new_engine blank).
Definition far_object : object := Object (Buffers [235; 0]%N [] []) 0
  [("far", Global None); ("here", Global (Some (Loc Text 0)))] [Reloc (Loc Text 1) (Symbol "far") (-1) PcRel8].

Lemma start1_reachable : reachable bump nobody blank start1.
Proof. apply (later_step _ _ _ (new_engine blank) (Register "far" 1099511627776) _ (inl tt)); [constructor|exact I|reflexivity]. Qed.

Lemma far_sound : sound far_object.
Proof.
  split; [cbn; lia|]. split; [cbn; repeat (constructor; [cbn; intuition discriminate|]); constructor|].
  intros r [<-|[]]. cbn. lia.
Qed.

Lemma offset_ignored : exists os resolver mem e o e' lk r v, honest os /\ reachable os resolver mem e /\ sound o /\
  ForallOrdPairs relocs_apart (o_relocs o) /\ add_object os resolver o e = Ret (e', inl tt) /\ loaded_at lk o e e' /\
  In r (o_relocs o) /\ reloc_value lk r = Some v /\ ~ in_reach (r_type r) v.
Proof.
  pose proof (reachable_inv bump bump_honest nobody blank start1 start1_reachable) as Iv.
  destruct (add_object_ok bump bump_honest nobody far_object start1 Iv far_sound) as (e' & x & E & _ & _ & _ & _ & _ & K).
  assert (S1 : succeeds (add_object bump nobody far_object start1) = true) by (vm_compute; reflexivity).
  assert (S2 : get "here" (engine_of (add_object bump nobody far_object start1) start1) = Some 4096) by (vm_compute; reflexivity).
  assert (S3 : get "far" (engine_of (add_object bump nobody far_object start1) start1) = Some 1099511627776) by (vm_compute; reflexivity).
  rewrite E in S1, S2, S3. cbn [engine_of] in S2, S3. destruct x as [[]|]; [|discriminate S1].
  assert (Ap : ForallOrdPairs relocs_apart (o_relocs far_object)) by (repeat constructor).
  destruct (K eq_refl Ap) as (lk & L & _).
  assert (Adr : forall n, address lk n = get n e').
  { intro n. destruct (la_local _ _ _ _ L n) as [(l & [H|[H|[]]])|H]; [discriminate H|discriminate H|exact H]. }
  assert (Pl : place lk Text = 4096).
  { destruct (la_linked _ _ _ _ L) as (Co & _). specialize (Co "here" (Loc Text 0)). rewrite Adr, S2 in Co. unfold at_ in Co. cbn in Co.
    assert (H : Some 4096 = Some (place lk Text + 0)) by (apply Co; auto). injection H as H. lia. }
  exists bump, nobody, blank, start1, far_object, e', lk, (Reloc (Loc Text 1) (Symbol "far") (-1) PcRel8), (1099511627776 + -1 - (4096 + 1)).
  split; [exact bump_honest|]. split; [exact start1_reachable|]. split; [exact far_sound|]. split; [exact Ap|]. split; [exact E|]. split; [exact L|].
  split; [now left|]. split; [|cbn; lia]. unfold reloc_value, at_. cbn. rewrite Adr, S3, Pl. reflexivity.
Qed.

(** ** A failure leaves symbols behind *)

Definition bad_object : object := Object (Buffers [195]%N [] []) 0 [("f", Global (Some (Loc Text 0))); ("nowhere", Global None)] [].
Definition good_object : object := Object (Buffers [195]%N [] []) 0 [("f", Global (Some (Loc Text 0)))] [].

Lemma bad_sound : sound bad_object /\ sound good_object.
Proof.
  split; (split; [cbn; lia|]; split; [cbn; repeat (constructor; [cbn; intuition discriminate|]); constructor|]; intros r []).
Qed.

Lemma failure_leaves_symbols : exists os resolver mem e bad good e1 e2 e3, honest os /\ reachable os resolver mem e /\ sound bad /\ sound good /\
  add_object os resolver bad e = Ret (e1, inr (EUndefinedSymbol "nowhere")) /\ get "f" e = None /\ get "f" e1 <> None /\
  add_object os resolver good e = Ret (e2, inl tt) /\ add_object os resolver good e1 = Ret (e3, inr (EDuplicateSymbol "f")).
Proof.
  exists bump, nobody, blank, (new_engine blank), bad_object, good_object. do 3 eexists.
  split; [exact bump_honest|]. split; [constructor|]. split; [apply bad_sound|]. split; [apply bad_sound|].
  split; [vm_compute; reflexivity|]. split; [reflexivity|]. split; [vm_compute; discriminate|]. split; vm_compute; reflexivity.
Qed.

(** ** The table of addresses has only global symbols *)

Definition start3 : engine := engine_of (register nobody "f" 1048576 (new_engine blank)) (new_engine blank).
Definition table_object : object := Object (Buffers [255; 21; 0; 0; 0; 0; 195]%N [] []) 0 [("f", Local (Loc Text 6))]
  [Reloc (Loc Text 2) (Symbol "f") (-4) PcRelToAddressTable32].

Lemma start3_reachable : reachable bump nobody blank start3.
Proof. apply (later_step _ _ _ (new_engine blank) (Register "f" 1048576) _ (inl tt)); [constructor|exact I|reflexivity]. Qed.

Lemma table_sound : sound table_object.
Proof.
  split; [cbn; lia|]. split; [cbn; repeat (constructor; [cbn; intuition discriminate|]); constructor|].
  intros r [<-|[]]. cbn. lia.
Qed.

Lemma table_only_global : exists os resolver mem e o e' lk r n l g a, honest os /\ reachable os resolver mem e /\ sound o /\
  add_object os resolver o e = Ret (e', inl tt) /\ loaded_at lk o e e' /\ In r (o_relocs o) /\
  r_type r = PcRelToAddressTable32 /\ r_target r = Symbol n /\ In (n, Local l) (o_symbols o) /\
  entry lk n = Some g /\ holds (e_mem e') g 8 a /\ a mod 2 ^ 64 <> at_ lk l mod 2 ^ 64.
Proof.
  pose proof (reachable_inv bump bump_honest nobody blank start3 start3_reachable) as Iv.
  destruct (add_object_ok bump bump_honest nobody table_object start3 Iv table_sound) as (e' & x & E & _ & _ & _ & _ & _ & K).
  assert (S1 : succeeds (add_object bump nobody table_object start3) = true) by (vm_compute; reflexivity).
  assert (S3 : get "f" (engine_of (add_object bump nobody table_object start3) start3) = Some 1048576) by (vm_compute; reflexivity).
  rewrite E in S1, S3. cbn [engine_of] in S3. destruct x as [[]|]; [|discriminate S1].
  assert (Ap : ForallOrdPairs relocs_apart (o_relocs table_object)) by (repeat constructor).
  destruct (K eq_refl Ap) as (lk & L & _).
  (* where the code is *)
  assert (Us : forall x, used_seg (e_rx (engine_of (add_object bump nobody table_object start3) start3)) x -> x < 8192).
  { intro y. assert (C : s_chunks (e_rx (engine_of (add_object bump nobody table_object start3) start3)) = [Mmap 4096 1 ReadExec]) by (vm_compute; reflexivity).
    assert (O : s_offset (e_rx (engine_of (add_object bump nobody table_object start3) start3)) = 16) by (vm_compute; reflexivity).
    unfold used_seg. rewrite C, O. cbn [m_ptr]. intros [H|(m & [] & _)]. lia. }
  rewrite E in Us. cbn [engine_of] in Us.
  assert (Nn : forall x, used_seg (e_rx (engine_of (add_object bump nobody table_object start3) start3)) x -> 4096 <= x).
  { intro y. assert (C : s_chunks (e_rx (engine_of (add_object bump nobody table_object start3) start3)) = [Mmap 4096 1 ReadExec]) by (vm_compute; reflexivity).
    unfold used_seg. rewrite C. cbn [m_ptr]. intros [H|(m & [] & _)]. lia. }
  rewrite E in Nn. cbn [engine_of] in Nn.
  assert (Pl : 4096 <= place lk Text + 6 < 8192).
  { assert (used_seg (segment_of Text e') (place lk Text + 6)) as U by (apply (la_place _ _ _ _ L Text); cbn; lia). cbn in U. split; [now apply Nn|now apply Us]. }
  destruct (la_linked _ _ _ _ L) as (_ & Re & _). destruct (Re _ (or_introl eq_refl)) as (v & V & _). cbn in V.
  destruct (entry lk "f") as [g|] eqn:G; [|discriminate V]. destruct (la_entry _ _ _ _ L "f" g G) as (a & A & H & _). rewrite S3 in A. injection A as <-.
  exists bump, nobody, blank, start3, table_object, e', lk, (Reloc (Loc Text 2) (Symbol "f") (-4) PcRelToAddressTable32), "f", (Loc Text 6), g, 1048576.
  split; [exact bump_honest|]. split; [exact start3_reachable|]. split; [exact table_sound|]. split; [exact E|]. split; [exact L|]. split; [now left|].
  split; [reflexivity|]. split; [reflexivity|]. split; [now left|]. split; [exact G|]. split; [exact H|].
  unfold at_. cbn [l_section l_pos]. rewrite (Z.mod_small (place lk Text + 6)) by (change (2 ^ 64) with 18446744073709551616; lia).
  change (1048576 mod 2 ^ 64) with 1048576. lia.
Qed.
