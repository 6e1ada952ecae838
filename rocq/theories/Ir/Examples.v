(** The hypotheses of the theorems about the IR are met by a real expression. *)
From Verif.Base Require Import Base.
From Verif.Ir Require Import Model Spec Typing Proofs ProofsEval ProofsTyping.

Definition s32 := CtS 32.
Definition pair := CtId 7.
Definition int (n : N) : rt := RConst (KInteger s32 false n).

(** [(let ([p (ptr (pair 3 4))]) (match p [(non-null (pair 1 a)) a] [b (second (load b))]))] *)
Definition body : rt := RMatch (RVar 0 (CtPtr pair))
  [(PNonNull (PStruct pair [PConst (KInteger s32 false 1); PVar 1 s32 None]), RVar 1 s32);
   (PVar 2 (CtPtr pair) None, RUnary (UStructElem s32 1) (RUnary ULoad (RVar 2 (CtPtr pair))))].
Definition expr : rt :=
  let_var [(0%nat, CtPtr pair, RAlloc LHeap (RConstructStruct pair [int 3; int 4]))]
    (let_var [(5%nat, s32, int 1)] body).

(** The two lets are one. *)
Example merged : expr = RLetVar [(0%nat, CtPtr pair, RAlloc LHeap (RConstructStruct pair [int 3; int 4]));
  (5%nat, s32, int 1)] body.
Proof. reflexivity. Qed.

Definition fields (t : ct) : option (list ct) :=
  match t with CtId 7 => Some [s32; s32] | _ => None end.
Definition member (_ _ : ct) : Prop := False.
Definition sigs (_ : nat) : option (list ct * ct * list ct) := None.
Definition array_val (_ : val) (_ : ct) : Prop := False.
Definition no_prim (_ : prim_op) (_ : heap) (_ : list val) : option (heap * val) := None.
Definition no_funs (_ : nat) : option (list nat * list nat * rt) := None.

Example types_met : types_ok fields member.
Proof. split; [reflexivity|]. split; [intros t u; split; intros []|]. intros u s []. Qed.
Example prims_met : prims_ok fields member sigs array_val no_prim.
Proof. intros S q ts t h vs h' v _ _ _ E. discriminate E. Qed.
Example funs_met : funs_ok fields member sigs no_funs.
Proof. intros f params captured b args ret caps E. discriminate E. Qed.
Example start_met : env_ok fields member sigs array_val [] [] [] /\ heap_ok fields member sigs array_val [] [].
Proof. split; [constructor|]. split; [reflexivity|]. intros [|a] v t E; discriminate E. Qed.

Lemma int_typed G K n : typed fields member sigs G K CtUnit (int n) (Some (SCt s32)).
Proof. constructor. constructor. exists 32%nat. auto. Qed.

Example expr_typed : typed fields member sigs [] [] CtUnit expr (Some (SCt s32)).
Proof.
  rewrite merged. eapply t_let_cons; [| |eapply t_let_cons; [apply int_typed|constructor|constructor]].
  - constructor. eapply t_struct; [reflexivity|].
    constructor; [apply int_typed|constructor; [apply int_typed|constructor]].
  - constructor.
  - eapply t_match; [constructor; reflexivity|].
    eapply tc_cons; [| |eapply tc_cons; [| |constructor|]|].
    + constructor. eapply ps_struct; [reflexivity|].
      eapply pss_cons; [constructor; constructor; exists 32%nat; auto|].
      eapply pss_cons; [constructor|constructor].
    + constructor. reflexivity.
    + constructor.
    + eapply t_unary; [eapply t_unary; [constructor; reflexivity|constructor]|].
      eapply us_elem; reflexivity.
    + constructor.
    + constructor.
Qed.

Lemma int_ev round32 h e n : (n < 100)%N ->
  ev true round32 no_prim no_funs h e (int n) h (RsVal (VInt n)).
Proof.
  intros L. eapply ev_operation; [reflexivity|constructor|]. unfold perform, const_val, s32.
  rewrite N.mod_small; [reflexivity|]. cbn. lia.
Qed.

Example expr_ev round32 : ev true round32 no_prim no_funs [] [] expr
  [Some (VStruct pair [VInt 3; VInt 4])] (RsVal (VInt 4)).
Proof.
  rewrite merged.
  change [Some (VStruct pair [VInt 3; VInt 4])] with
    (release true (RAlloc LHeap (RConstructStruct pair [int 3; int 4])) (VPtr 0)
       (release true (int 1) (VInt 1) [Some (VStruct pair [VInt 3; VInt 4])])).
  eapply ev_let_cons.
  - eapply ev_operation; [reflexivity|eapply evs_cons; [|constructor]|].
    + eapply ev_operation; [reflexivity| |].
      * eapply evs_cons; [apply int_ev; lia|eapply evs_cons; [apply int_ev; lia|constructor]].
      * reflexivity.
    + reflexivity.
  - eapply ev_let_cons; [apply int_ev; lia|]. constructor.
    eapply ev_match; [constructor; reflexivity|reflexivity|].
    eapply ev_operation; [reflexivity|eapply evs_cons; [|constructor]|].
    + eapply ev_operation; [reflexivity|eapply evs_cons; [|constructor]|].
      * constructor. reflexivity.
      * reflexivity.
    + reflexivity.
Qed.

Example expr_computed : rt_ty expr = Ret (Some s32) /\ no_fge expr = true.
Proof. split; reflexivity. Qed.
