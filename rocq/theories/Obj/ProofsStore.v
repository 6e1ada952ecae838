(** * Storing an immediate at a label *)
From Coq Require Import NArith ZArith.
From Verif.Base Require Import Base Vec.
From Verif.Asm Require Model Table.
From Verif.Obj Require Import Model Spec Proofs ProofsProduce ProofsLink.
Local Open Scope Z_scope.

Definition store_history : list call :=
  [CIssue; CInst Text (StoreI 0%nat 7); CWrite Text (repeat 0%N 8); CDefine Text 0%nat false].

Definition store_object : list N := [72; 199; 5; 0; 0; 0; 0; 8; 0; 0; 0; 0; 0; 0; 0; 0; 0; 0; 0]%N.
Definition store_memory (a : Z) : N := nth (Z.to_nat a) store_object 0%N.
Definition store_linking : linking := Linking (fun _ => 0) (fun _ => None) (fun _ => None).

Lemma store_bytes n z bs : encode (instruction (StoreI 0%nat n) z) = Ret bs ->
  bs = [72; 199; 5]%N ++ Model.le_bytes 4 z ++ Model.le_bytes 4 n.
Proof.
  destruct (lookup_inst "movq"%string [Model.KMem; Model.KI32]) as [e|] eqn:E; [|vm_compute in E; discriminate E].
  pose proof (fun ops => encode_found "movq"%string [Model.KMem; Model.KI32] ops e E) as H. vm_compute in E. injection E as <-.
  cbn [instruction]. rewrite H. intro F. change (Ret ([72; 199; 5]%N ++ Model.le_bytes 4 z ++ Model.le_bytes 4 n ++ []) = Ret bs) in F.
  assert (X : forall a b : list N, Ret a = Ret b -> b = a) by (intros a b Q; now injection Q as ->).
  apply X in F. subst bs. now rewrite app_nil_r.
Qed.

Lemma store_immediate : exists cs w es o lk mem e c l n, run new cs = Ret (w, es) /\ In e es /\ e_call e = CInst c (StoreI l n) /\
  produce w = Ret (Some o) /\ well_placed w es /\ linked lk o mem /\
  (forall z bs, encode (instruction (StoreI l n) z) = Ret bs -> ~ loaded mem (place lk c + e_before e c) bs) /\
  exists n' bs, encode (instruction (StoreI l n') 0) = Ret bs /\ loaded mem (place lk c + e_before e c) bs /\ n' <> n.
Proof.
  destruct (run new store_history) as [[w es]| |] eqn:R; [|vm_compute in R; discriminate R|vm_compute in R; discriminate R].
  destruct es as [|e0 [|e es]]; [vm_compute in R; discriminate R|vm_compute in R; discriminate R|].
  assert (Ec : e_call e = CInst Text (StoreI 0%nat 7) /\ e_before e Text = 0 /\ w_names w = []).
  { vm_compute in R. injection R as <- _ <- _. repeat split. }
  assert (O : produce w = Ret (Some (Object (Buffers store_object [] []) 0 [] []))) by (vm_compute in R; injection R as <- _ _ _; vm_compute; reflexivity).
  assert (U : uses (e0 :: e :: es) = [Use (Loc Text 7) 0%nat (-4) PcRel32]) by (vm_compute in R; injection R as _ <- <- <-; vm_compute; reflexivity).
  assert (Ps : position w Text = 19) by (vm_compute in R; injection R as <- _ _ _; vm_compute; reflexivity).
  destruct Ec as (Ec & Eb & _).
  exists store_history, w, (e0 :: e :: es), (Object (Buffers store_object [] []) 0 [] []), store_linking, store_memory, e, Text, 0%nat, 7.
  split; [exact R|]. split; [right; now left|]. split; [exact Ec|]. split; [exact O|]. split; [|split; [|split]].
  - unfold well_placed. rewrite U. split; [repeat constructor|]. constructor; [|constructor]. split; cbn [u_location l_pos l_section u_type width]; [lia|]. rewrite Ps. lia.
  - split; [|split].
    + intros n l [[]|[]].
    + intros r [].
    + intros c i b N B _. cbn [place store_linking]. unfold store_memory. destruct c; cbn [buffer o_buffers b_text b_data b_rodata] in N.
      * rewrite Z.add_0_l. now apply nth_error_nth.
      * destruct (Z.to_nat i); discriminate N.
      * destruct (Z.to_nat i); discriminate N.
  - intros z bs En L. apply store_bytes in En. rewrite Eb in L. cbn [place store_linking] in L. subst bs.
    specialize (L 7 7%N eq_refl ltac:(lia)). assert (store_memory (0 + 0 + 7) = 7%N) as X by exact L. discriminate X.
  - destruct (encode (instruction (StoreI 0%nat 8) 0)) as [bs| |] eqn:En; [|vm_compute in En; discriminate En|vm_compute in En; discriminate En].
    exists 8, bs. split; [exact En|]. split; [|discriminate]. apply store_bytes in En. rewrite Eb. subst bs. intros j b N B.
    cbn [place store_linking]. unfold store_memory. rewrite Z.add_0_l.
    assert (Z.to_nat j < 11)%nat as Lj by (change 11%nat with (List.length ([72; 199; 5]%N ++ Model.le_bytes 4 0 ++ Model.le_bytes 4 8)); apply nth_error_Some; congruence).
    change ([72; 199; 5]%N ++ Model.le_bytes 4 0 ++ Model.le_bytes 4 8) with (firstn 11 store_object) in N.
    apply nth_error_nth. rewrite <- (firstn_skipn 11 store_object). rewrite nth_error_app1; [exact N|]. cbn. exact Lj.
Qed.
