(** * The hypotheses of the properties are met *)
From Coq Require Import NArith ZArith Lia.
From Verif.Base Require Import Base.
From Verif.Obj Require Import Model Spec.
From Verif.Native Require Import Model Spec Proofs ProofsConst ProofsRodata ProofsMain.
Local Open Scope Z_scope.

(** Blocks one after another, up to the end of the address space. *)
Definition bump (h : heap) (n : Z) : option Z :=
  let a := fold_right (fun b m => Z.max (fst b + snd b) m) 8 (blocks h) in
  if a + n <=? 2 ^ 64 then Some a else None.

Example bump_sound : sound bump.
Proof.
  intros h n a. unfold bump. set (top := fold_right _ _ _).
  assert (T : 8 <= top /\ forall b, In b (blocks h) -> fst b + snd b <= top).
  { subst top. induction (blocks h) as [|x l IH]; cbn [fold_right]; [split; [lia|intros ? []]|].
    destruct IH as [I J]. split; [lia|]. intros b [<-|M]; [lia|]. specialize (J b M). lia. }
  clearbody top. destruct T as [T U]. destruct (Z.leb_spec (top + n) (2 ^ 64)) as [L|L]; intros [= <-].
  split; [lia|]. split; [exact L|]. intros b M. right. exact (U b M).
Qed.

Definition empty : heap := Heap (fun _ => 0%N) [].

(** [(f -1 ("x" #t) 'a' . 2.5)], at different lines *)
Definition example : sexp :=
  Sexp (1, 4) (RListLike (Sexp (2, 0) (RSymbol [102%N]))
    [Sexp (3, 0) (RInteger true 18446744073709551615); Sexp (4, 0) (RList [Sexp (5, 1) (RString [120%N]); Sexp (6, 0) (RBool true)]);
     Sexp (7, 0) (RChar 97)] (Sexp (8, 9) (RFPNumber 4612811918334230528))).

Ltac proper_ := repeat first [apply Proper; cbn [fst snd]; try lia | constructor; cbn; try lia | exact id].

Example example_proper : proper example.
Proof. unfold example. proper_. Qed.

(** It is converted and read back. *)
Example example_converted : match syntax_from_host bump 20 empty example with
  | Ret (p, h) => p = 394 /\ List.length (blocks h) = 15%nat /\ syntax_into_host 20 (mem h) p = Ret example
  | _ => False
  end.
Proof. vm_compute. repeat split; reflexivity. Qed.

(** The end of the memory *)
Example example_no_memory : syntax_from_host bump 20 (Heap (fun _ => 0%N) [(8, 2 ^ 64 - 40)]) example = Panic.
Proof. vm_compute. reflexivity. Qed.

(** A macro that gives back its argument *)
Definition identity (h : heap) (p : Z) : heap * Z :=
  (Heap (store (store (mem h) 4096 [1%N]) 4104 (Asm.Model.le_bytes 8 p)) (blocks h), 4096).

Example identity_called : native_macro bump 20 identity empty example = Ret (inl example).
Proof. vm_compute. reflexivity. Qed.

(** [(f)] *)
Definition constant0 : sexp := Sexp (1, 0) (RList [Sexp (2, 0) (RSymbol [102%N])]).
Example constant0_proper : proper constant0.
Proof. unfold constant0. proper_. Qed.

Example identity_result : match syntax_from_host bump 20 empty constant0 with
  | Ret (p, h1) => shows_result (mem (fst (identity h1 p))) (snd (identity h1 p)) (inl constant0)
  | _ => False
  end.
Proof.
  destruct (argument bump empty constant0 20 bump_sound constant0_proper) as [(p & h & new & E & G & K)|[E _]];
    [vm_compute; lia| |vm_compute in E; discriminate E].
  rewrite E. assert (P : p = 73) by (vm_compute in E; congruence). subst p.
  assert (B : Forall (fun b => fst b + snd b <= 4096) new).
  { destruct G as (G & _). assert (Bh : Forall (fun b => fst b + snd b <= 4096) (blocks h)).
    { assert (Eb : blocks h = [(73, 32); (41, 32); (9, 32); (8, 1)]) by (vm_compute in E; injection E as <-; reflexivity).
      rewrite Eb. repeat constructor; cbn; lia. }
    rewrite G in Bh. apply Forall_app in Bh. apply Bh. }
  cbn [fst snd identity mem shows_result]. clear E G. split; [split; [cbv; split; [intro X|]; congruence|]|].
  - intros i I. assert (i = 0) as -> by lia. reflexivity.
  - exists 73. split; [split; [cbv; split; [intro X|]; congruence|]|].
    + intros i I. unfold store. cbn [List.length Asm.Model.le_bytes]. replace (4104 <=? 4096 + 8 + i) with true by (symmetry; apply Z.leb_le; lia).
      replace (4096 + 8 + i <? 4104 + Z.of_nat 8) with true by (symmetry; apply Z.ltb_lt; lia). cbn [andb].
      assert (C : i = 0 \/ i = 1 \/ i = 2 \/ i = 3 \/ i = 4 \/ i = 5 \/ i = 6 \/ i = 7) by lia.
      repeat destruct C as [->|C]; [..|subst i]; vm_compute; reflexivity.
    + apply K. intros b x I W. rewrite Forall_forall in B. specialize (B b I). unfold within in W. unfold store.
      replace (4104 <=? x) with false by (symmetry; apply Z.leb_gt; lia).
      replace (4096 <=? x) with false by (symmetry; apply Z.leb_gt; lia). reflexivity.
Qed.

(** As a constant, written and linked at 4096 *)
Definition data0 : list N :=
  [0; 0; 0; 0; 0; 0; 0; 0;
   1; 0; 0; 0; 0; 0; 0; 0; 6; 0; 0; 0; 0; 0; 0; 0; 0; 0; 0; 0; 0; 0; 0; 0; 0; 0; 0; 0; 0; 0; 0; 0;
   2; 0; 0; 0; 0; 0; 0; 0; 3; 0; 0; 0; 0; 0; 0; 0; 0; 0; 0; 0; 0; 0; 0; 0; 1; 0; 0; 0; 0; 0; 0; 0;
   102; 0; 0; 0; 0; 0; 0; 0;
   1; 0; 0; 0; 0; 0; 0; 0; 7; 0; 0; 0; 0; 0; 0; 0; 0; 0; 0; 0; 0; 0; 0; 0; 0; 0; 0; 0; 0; 0; 0; 0]%N.
Definition relocs0 : list reloc :=
  [Reloc (Loc Rodata 56) (Section Rodata) 72 Abs64; Reloc (Loc Rodata 24) (Section Rodata) 40 Abs64;
   Reloc (Loc Rodata 32) (Section Rodata) 80 Abs64; Reloc (Loc Rodata 0) (Section Rodata) 8 Abs64].
Example constant0_object : match embed_constant bump 9 empty new constant0 with
  | Ret (w, l) => l = 0%nat /\ produce w = Ret (Some (Object (Buffers [] [] data0) 0 [] relocs0))
  | _ => False
  end.
Proof. vm_compute. split; reflexivity. Qed.

Definition linking0 : linking := Linking (fun s => match s with In_ Rodata => 4096 | _ => 65536 end) (fun _ => None) (fun _ => None).
Definition memory0 : memory :=
  store (store (store (store (store (fun _ => 0%N) 4096 data0) 4096 [8; 16]%N) 4120 [40; 16]%N) 4128 [80; 16]%N) 4152 [72; 16]%N.

Lemma below n i : 0 <= i < Z.of_nat n -> In i (map Z.of_nat (seq 0 n)).
Proof. intro B. apply in_map_iff. exists (Z.to_nat i). split; [lia|]. apply in_seq. lia. Qed.

Example constant0_linked : linked linking0 (Object (Buffers [] [] data0) 0 [] relocs0) memory0.
Proof.
  split; [|split].
  - intros n l [[]|[]].
  - intros r H. cbn in H. repeat destruct H as [<-|H]; try contradiction; eexists; (split; [reflexivity|]); intros i B; cbn [width r_type] in B;
      apply (below 8) in B; cbn in B; repeat destruct B as [<-|B]; try contradiction; vm_compute; reflexivity.
  - intros c i b N P C. destruct c; cbn [buffer o_buffers b_text b_data b_rodata] in N.
    1, 2: destruct (Z.to_nat i); discriminate N.
    assert (D : forall p, In p [0; 24; 32; 56] -> ~ p <= i < p + 8).
    { intros p I J. assert (exists t a, In (Reloc (Loc Rodata p) t a Abs64) relocs0) as (t & a & R).
      { unfold relocs0. cbn in I. repeat destruct I as [<-|I]; try contradiction; do 2 eexists; cbn; tauto. }
      apply (C _ R). split; [reflexivity|exact J]. }
    assert (L : (Z.to_nat i < List.length data0)%nat) by (apply nth_error_Some; congruence).
    assert (B : 0 <= i < Z.of_nat 112) by (cbn in L; lia). apply below in B. cbn in B. clear L C P.
    repeat (destruct B as [<-|B];
      [first [cbn in N; injection N as <-; vm_compute; reflexivity | exfalso; apply (D 0); [cbn; tauto|lia] | exfalso; apply (D 24); [cbn; tauto|lia] | exfalso; apply (D 32); [cbn; tauto|lia]
             | exfalso; apply (D 56); [cbn; tauto|lia]]|]). destruct B.
Qed.

Example constant0_addressed : match embed_constant bump 9 empty new constant0 with
  | Ret (w, l) => addressed linking0 w
  | _ => False
  end.
Proof. vm_compute. repeat split; congruence. Qed.

(** Read where it was linked *)
Example constant0_read : load memory0 4096 8 = 4104 /\ syntax_into_host 9 memory0 4104 = Ret constant0.
Proof. vm_compute. split; reflexivity. Qed.
