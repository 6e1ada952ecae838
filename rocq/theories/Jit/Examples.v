(** * The hypotheses of the properties are met *)
From Coq Require Import NArith ZArith.
From Verif.Base Require Import Base.
From Verif.Obj Require Import Model Spec.
From Verif.Obj Require Examples.
From Verif.Jit Require Import Model Spec ProofsFail.
Local Open Scope Z_scope.
Local Open Scope string_scope.
Local Open Scope list_scope.

(** Requests that fill a page, and one of two pages. *)
Example some_requests : map as_ptr (snd (requests bump [Mmap 0 3 ReadOnly] [16; 4080; 0; 32; 8000; 48] (new_segment ReadExec)))
  = [12288; 12304; 16384; 16384; 20480; 28480].
Proof. vm_compute. reflexivity. Qed.

(** The system that maps after everything is honest. *)
Example some_system : honest bump.
Proof. exact bump_honest. Qed.

(** The object of the writer's example, with its three relocations, and another one before it. *)
Definition libc (n : string) : Z := if String.eqb n "puts" then 140000000000 else 0.
Definition first : object := Object (Buffers [195]%N (repeat 7%N 20) []) 8 [("g", Global (Some (Loc Data 4)))]
  [Reloc (Loc Bss 0) (Symbol "g") 1 Abs64].
Definition second : object := match Obj.Examples.produced with Some o => o | None => first end.

Example first_sound : sound first.
Proof. split; [cbn; lia|]. split; [cbn; repeat (constructor; [cbn; intuition discriminate|]); constructor|]. intros r [<-|[]]. cbn. lia. Qed.
Example second_sound : sound second /\ ForallOrdPairs relocs_apart (o_relocs second).
Proof.
  unfold second. rewrite Obj.Examples.produced_object. split.
  - split; [cbn; lia|]. split; [cbn; repeat (constructor; [cbn; intuition discriminate|]); constructor|]. intros r [<-|[<-|[<-|[]]]]; cbn; lia.
  - cbn. repeat (constructor; [repeat (constructor; [first [right; left; cbn; lia | left; discriminate]|]); constructor|]). constructor.
Qed.

Definition engine1 : engine := engine_of (add_object bump libc first (new_engine blank)) (new_engine blank).
Definition engine2 : engine := engine_of (add_object bump libc second engine1) engine1.

Example engine1_reachable : reachable bump libc blank engine1.
Proof.
  apply (later_step _ _ _ (new_engine blank) (AddObject first) engine1 (inl tt)); [constructor|exact first_sound|].
  apply succeeds_ret. vm_compute. reflexivity.
Qed.
Example second_added : add_object bump libc second engine1 = Ret (engine2, inl tt).
Proof. apply succeeds_ret. vm_compute. reflexivity. Qed.

(** Where its symbols are, the protections, and the call through the table of addresses. *)
Example second_symbols : (get "g" engine2, get "main" engine2, get "puts" engine2, get "buffer" engine2, get "message" engine2)
  = (Some 8196, Some 4112, Some 140000000000, Some 8272, None).
Proof. vm_compute. reflexivity. Qed.
Example second_mappings : mappings engine2 = [Mmap 16384 1 ReadOnly; Mmap 12288 1 ReadOnly; Mmap 8192 1 ReadWrite; Mmap 4096 1 ReadExec].
Proof. vm_compute. reflexivity. Qed.
Example second_call : map (fun i => e_mem engine2 (4112 + i)) [7; 8; 9; 10; 11; 12] = [255; 21; 227; 47; 0; 0]%N /\
  map (fun i => e_mem engine2 (16384 + i)) [0; 1; 2; 3; 4; 5; 6; 7] = [0; 120; 166; 152; 32; 0; 0; 0]%N.
Proof. vm_compute. split; reflexivity. Qed.
