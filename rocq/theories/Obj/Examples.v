(** * The hypotheses of the properties are met *)
From Coq Require Import NArith ZArith.
From Verif.Base Require Import Base.
From Verif.Asm Require Model.
From Verif.Obj Require Import Model Spec.
Local Open Scope Z_scope.

(** A call to an external function, a jump back to a local label, an address in the data, and space in .bss. *)
Definition history : list call :=
  [CGet "main"; CGet "puts"; CIssue; CGet "message"; CGet "buffer";
   CDefine Text 0%nat true;
   CInst Text (Lea Model.Rdi 3%nat);
   CDefine Text 2%nat false;
   CInst Text (CallTable 1%nat);
   CInst Text (JccShort 5 2%nat);
   CInst Text (Jmp 2%nat);
   CAlign Text 16;
   CDefine Rodata 3%nat false;
   CWrite Rodata [104; 105; 0]%N;
   CAlign Data 8;
   CWrite Data (repeat 0%N 8);
   CUseRelative Data (-8) 4%nat 12 Abs64;
   CAllocate Bss 3; CAlign Bss 16;
   CDefine Bss 4%nat true;
   CAllocate Bss 64]%string.

Definition produced : option object :=
  match run new history with
  | Ret (w, _) => match produce w with Ret o => o | _ => None end
  | _ => None
  end.

(** The object: two jumps resolved, three relocations. *)
Example produced_object : produced = Some (Object
  (Buffers [72; 141; 61; 0; 0; 0; 0; 255; 21; 0; 0; 0; 0; 116; 248; 233; 243; 255; 255; 255;
            144; 144; 144; 144; 144; 144; 144; 144; 144; 144; 144; 144]%N
     [0; 0; 0; 0; 0; 0; 0; 0]%N [104; 105; 0]%N) 80
  [("main", Global (Some (Loc Text 0))); ("puts", Global None); ("message", Local (Loc Rodata 0));
   ("buffer", Global (Some (Loc Bss 16)))]
  [Reloc (Loc Text 3) (Symbol "message") (-4) PcRel32;
   Reloc (Loc Text 9) (Symbol "puts") (-4) PcRelToAddressTable32;
   Reloc (Loc Data 0) (Symbol "buffer") 12 Abs64])%string.
Proof. vm_compute. reflexivity. Qed.

(** Its fields are apart and inside. *)
Example history_well_placed : match run new history with Ret (w, es) => well_placed w es | _ => False end.
Proof.
  destruct (run new history) as [[w es]| |] eqn:R; [|vm_compute in R; discriminate R|vm_compute in R; discriminate R].
  assert (U : uses es = [Use (Loc Text 3) 3%nat (-4) PcRel32; Use (Loc Text 9) 1%nat (-4) PcRelToAddressTable32;
    Use (Loc Text 14) 2%nat (-1) PcRel8; Use (Loc Text 16) 2%nat (-4) PcRel32; Use (Loc Data 0) 4%nat 12 Abs64])
    by (vm_compute in R; injection R as _ <-; vm_compute; reflexivity).
  assert (P : position w Text = 32 /\ position w Data = 8) by (vm_compute in R; injection R as <- _; split; reflexivity).
  destruct P as [P1 P2]. unfold well_placed. rewrite U. clear R U. split.
  - repeat (constructor; [repeat (constructor; [first [right; left; cbn; lia | left; discriminate]|]); constructor|]). constructor.
  - repeat (constructor; [split; cbn [u_location u_type l_section l_pos width]; rewrite ?P1, ?P2; lia|]). constructor.
Qed.

(** A memory in which it is linked. *)
Definition linking0 : linking := Linking
  (fun s => match s with In_ Text => 4096 | In_ Data => 8192 | In_ Rodata => 12288 | Bss => 16384 end)
  (fun n => if String.eqb n "main" then Some 4096 else if String.eqb n "puts" then Some 99999
            else if String.eqb n "message" then Some 12288 else if String.eqb n "buffer" then Some 16400 else None)%string
  (fun n => if String.eqb n "puts" then Some 20480 else None)%string.

Definition image : list N :=
  [72; 141; 61; 249; 31; 0; 0; 255; 21; 243; 63; 0; 0; 116; 248; 233; 243; 255; 255; 255;
   144; 144; 144; 144; 144; 144; 144; 144; 144; 144; 144; 144]%N.
Definition memory0 (a : Z) : N :=
  if a <? 8192 then nth (Z.to_nat (a - 4096)) image 0%N
  else if a <? 12288 then nth (Z.to_nat (a - 8192)) [28; 64; 0; 0; 0; 0; 0; 0]%N 0%N
  else nth (Z.to_nat (a - 12288)) [104; 105; 0]%N 0%N.

Lemma below n i : 0 <= i < Z.of_nat n -> In i (map Z.of_nat (seq 0 n)).
Proof. intro B. apply in_map_iff. exists (Z.to_nat i). split; [lia|]. apply in_seq. lia. Qed.

Example object_linked : match produced with Some o => linked linking0 o memory0 | None => False end.
Proof.
  rewrite produced_object. split; [|split].
  - intros n l [H|H]; cbn in H; repeat (destruct H as [H|H]; [first [discriminate H | injection H as <- <-; reflexivity]|]); destruct H.
  - intros r H. cbn in H. repeat destruct H as [<-|H]; try contradiction; eexists; (split; [reflexivity|]); intros i B; cbn [width r_type] in B.
    + apply (below 4) in B. cbn in B. repeat destruct B as [<-|B]; try contradiction; vm_compute; reflexivity.
    + apply (below 4) in B. cbn in B. repeat destruct B as [<-|B]; try contradiction; vm_compute; reflexivity.
    + apply (below 8) in B. cbn in B. repeat destruct B as [<-|B]; try contradiction; vm_compute; reflexivity.
  - intros c i b N P C. assert (L : (Z.to_nat i < List.length (buffer c (o_buffers (Object
      (Buffers [72; 141; 61; 0; 0; 0; 0; 255; 21; 0; 0; 0; 0; 116; 248; 233; 243; 255; 255; 255;
            144; 144; 144; 144; 144; 144; 144; 144; 144; 144; 144; 144]%N
     [0; 0; 0; 0; 0; 0; 0; 0]%N [104; 105; 0]%N) 0 [] []))))%nat) by (apply nth_error_Some; cbn [o_buffers] in *; congruence).
    assert (C1 : forall p ty k, In (Reloc (Loc c p) k (-4) ty) [Reloc (Loc Text 3) (Symbol "message") (-4) PcRel32;
      Reloc (Loc Text 9) (Symbol "puts") (-4) PcRelToAddressTable32]%string -> ~ (p <= i < p + width ty)).
    { intros p ty k I B. apply (C (Reloc (Loc c p) k (-4) ty)); [cbn in *; tauto|]. split; [reflexivity|exact B]. }
    assert (C2 : c = Data -> ~ (0 <= i < 8)).
    { intros -> B. apply (C (Reloc (Loc Data 0) (Symbol "buffer"%string) 12 Abs64)); [cbn; tauto|]. split; [reflexivity|exact B]. }
    destruct c; cbn [buffer o_buffers b_text b_data b_rodata] in N, L; cbn [List.length] in L.
    + assert (A1 : ~ (3 <= i < 7)) by (apply (C1 3 PcRel32 (Symbol "message"%string)); cbn; tauto).
      assert (A2 : ~ (9 <= i < 13)) by (apply (C1 9 PcRelToAddressTable32 (Symbol "puts"%string)); cbn; tauto).
      assert (B : 0 <= i < Z.of_nat 32) by lia. apply below in B. cbn in B.
      repeat (destruct B as [<-|B]; [first [lia | cbn in N; injection N as <-; vm_compute; reflexivity]|]). destruct B.
    + exfalso. apply C2; [reflexivity|]. lia.
    + assert (B : 0 <= i < Z.of_nat 3) by lia. apply below in B. cbn in B.
      repeat (destruct B as [<-|B]; [first [lia | cbn in N; injection N as <-; vm_compute; reflexivity]|]). destruct B.
Qed.
