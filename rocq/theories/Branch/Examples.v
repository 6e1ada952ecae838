(** The hypotheses of the theorems about [match] are met by a real expression. *)
From Verif.Base Require Import Base.
From Verif.Ir Require Import Model Spec.
From Verif.Branch Require Import Model Spec ProofsMatch.

(** [(match p [null 0] [(non-null (struct 1 a)) a] [b (load-second b)])] *)
Definition ex_ty := CtPtr (CtId 7).
Definition k (n : N) : const := KInteger (CtS 32) false n.
Definition ex_clauses : list (rtpat * rt) :=
  [(PNull (CtId 7), RConst (k 0));
   (PNonNull (PStruct (CtId 7) [PConst (k 1); PVar 5 (CtS 32) None]), RVar 5 (CtS 32));
   (PVar 6 ex_ty None,
    RUnary (UStructElem (CtS 32) 0) (RUnary ULoad (RVar 6 ex_ty)))].
Definition ex_target := RVar 0 ex_ty.

Example ex_ok : match_ok 100 ex_target ex_clauses.
Proof.
  split; [|split; [|split]].
  - cbn. intros i [].
  - cbn. repeat constructor; cbn; intuition discriminate.
  - intros p body ty I T. cbn in T. inversion T; subst.
    repeat destruct I as [I|I]; inversion I; subst; reflexivity.
  - repeat constructor.
Qed.

Example ex_differ round32 : constants_differ round32 (map fst ex_clauses).
Proof. intros c d v [<-|[]] [<-|[]] _ _ _. reflexivity. Qed.

(** A cell with the pair of 3 and 4 is matched by the third clause. *)
Example ex_runs round32 prim funs :
  ev false round32 prim funs [Some (VStruct (CtId 7) [VInt 3; VInt 4])] [(0%nat, VPtr 0)]
     (RMatch ex_target ex_clauses) [Some (VStruct (CtId 7) [VInt 3; VInt 4])] (RsVal (VInt 3)).
Proof.
  eapply ev_match; [constructor; reflexivity|reflexivity|].
  eapply ev_operation; [reflexivity|eapply evs_cons; [|constructor]|].
  - eapply ev_operation; [reflexivity|eapply evs_cons; [|constructor]|].
    + constructor. reflexivity.
    + reflexivity.
  - reflexivity.
Qed.

(** So its expansion evaluates to the same. *)
Example ex_expanded round32 prim funs :
  exists e n', after_rt (RMatch ex_target ex_clauses) 100 = Ret (e, n') /\
  ev false round32 prim funs [Some (VStruct (CtId 7) [VInt 3; VInt 4])] [(0%nat, VPtr 0)]
     e [Some (VStruct (CtId 7) [VInt 3; VInt 4])] (RsVal (VInt 3)).
Proof.
  destruct (match_final round32 prim funs 100 ex_target ex_clauses ex_ok (ex_differ round32))
    as (e & n' & E & F).
  - eexists. split; [reflexivity|discriminate].
  - intros p body I. repeat destruct I as [I|I]; inversion I; subst; eexists; reflexivity.
  - exists e, n'. split; [exact E|]. apply (F _ _ _ _ (ex_runs round32 prim funs)). auto.
Qed.
