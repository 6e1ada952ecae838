(** * Examples *)
From Coq Require Import ZArith Permutation.
From Verif.Base Require Import Base.
From Verif.Ir Require Import Model RtInd.
From Verif.Frame Require Import Model Spec Properties.

Definition w (t : ct) : nat := match t with CtClos _ _ => 2 | CtEnv => 1 | CtUnit => 0 | CtF64 => 3 | _ => 1 end.
Definition mem (t : ct) : bool := match t with CtF64 => true | _ => false end.

(** A closure of two words in its environment, two parameters, a large result, a variable and two
    continuations with a parameter each. *)
Definition f : function := Function (Some (0, [(1, CtClos [] CtUnit)])) [(2, CtF64); (3, CtClos [] CtUnit)] CtF64
  (RLetVar [(4, CtF64, RVar 2 CtF64)]
    (RLetCont
      [(0, [(5, CtEnv); (6, CtF64)], RSeq [RVar 5 CtEnv] (RVar 6 CtF64)); (1, [(7, CtF64)], RVar 7 CtF64)]
      (RLetVar [(8, CtEnv, RAlloc LStackStatic (RVar 4 CtF64))]
        (RIf (RVar 8 CtEnv) (RContCall 0 [RVar 8 CtEnv; RVar 4 CtF64] (Some CtF64)) (RContCall 1 [RVar 4 CtF64] (Some CtF64))))))
  Standard.

Definition s : frame := match new w mem f with Ret (s, _) => s | _ => Frame [] 0 0 0 end.

Example computed : new w mem f = Ret (s, Some (-32)%Z).
Proof. reflexivity. Qed.

(** The two continuations share their places. *)
Example layout : map (lookup (offsets s)) [0; 1; 2; 3; 4; 5; 6; 7; 8] =
  [Some (-8); Some (-24); Some 32; Some 16; Some (-56); Some (-72); Some (-96); Some (-88); Some (-64)]%Z /\
  vars s = 12 /\ reserved s = 120%Z.
Proof. repeat split. Qed.

Example distinct : NoDup (map fst (bound f)).
Proof. cbn. repeat constructor; cbn; intuition discriminate. Qed.

(** At the jump, after both arguments. *)
Example jump : live (initial f) [] [] (f_body f)
  ([(5, CtEnv); (6, CtF64)] ++ ((initial f ++ [(4, CtF64)]) ++ [(8, CtEnv)])).
Proof.
  apply live_let, live_scope, live_let. eapply live_child; [reflexivity|right; left; reflexivity|].
  exact (live_jumped _ [] _ 0 [RVar 8 CtEnv; RVar 4 CtF64] (Some CtF64)).
Qed.

Example at_jump : separate w s ([(5, CtEnv); (6, CtF64)] ++ ((initial f ++ [(4, CtF64)]) ++ [(8, CtEnv)])).
Proof. exact (frame_variables_separate w mem f s _ distinct computed _ jump). Qed.

Example reserved_variable : exists r, place w s (6, CtF64) r /\ (- Z.of_nat (vars s) * 8 <= fst r /\ snd r <= 0)%Z.
Proof. apply (frame_locals_reserved w mem f s _ distinct computed). cbn. tauto. Qed.

Example first_argument : exists r, place w s (2, CtF64) r /\ fst r = 32%Z.
Proof. apply (frame_arguments_exact w mem f s _ distinct computed [] (2, CtF64) [(3, CtClos [] CtUnit)]). reflexivity. Qed.

Example return_pointer : apart (-32, -24)%Z (-24, -8)%Z.
Proof.
  apply (proj2 (frame_return_pointer_exact w mem f s _ distinct computed) (-32)%Z eq_refl) with (1, CtClos [] CtUnit).
  - cbn. tauto.
  - exists (-24)%Z. split; reflexivity.
Qed.

Ltac allocs := repeat first [apply Forall2_nil | apply Forall2_cons; [eapply allocs_node; cbn [children app map snd]|]].

Example one_alloc : exists ts, allocs_in (f_body f) ts /\ Permutation ts ([CtF64] ++ []).
Proof.
  eexists. split.
  - apply allocs_node. cbn. allocs.
  - cbn. constructor. constructor.
Qed.

Example allocated : exists os, consumes (map w [CtF64]) s = Ret os /\
  stacked (- Z.of_nat (vars s) * 8) (- reserved s) (map w [CtF64]) os.
Proof. destruct one_alloc as (ts & A & P). exact (frame_allocations_separate w mem f s _ ts _ _ computed A P). Qed.

Example fits : convention mem f /\ supported (f_body f).
Proof. apply (frame_exists_exactly w). exists (s, Some (-32)%Z). exact computed. Qed.
