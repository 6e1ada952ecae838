(** Property theorems about the matches of a module. Nothing but statements. *)
From Verif.Base Require Import Base Vec.
From Verif.Pattern Require Import Model Spec Examples.
From Verif.Resolve Require Import Model Examples.
From Verif.Validate Require Import Model Spec ProofsTyped Examples.

(** C53 *)
Theorem module_matches_checked : forall (type_con_of : N -> option N) (value_cons : N -> option (list finite_con)) (is_sexp : N -> bool) (S : types) (r : root),
  distinct S -> declared S type_con_of value_cons -> module_typed is_sexp S r ->
  exists o, conv (fun fuel => run type_con_of value_cons is_sexp fuel r) o /\
  match o with
  | None => forall target clauses t, written r (EMatch target clauses) -> clauses_typed is_sexp S clauses t -> verdict S t clauses MatchOk
  | Some f => exists target clauses, f_match f = EMatch target clauses /\ written r (f_match f) /\ f_reason f <> MatchOk /\
      forall t, clauses_typed is_sexp S clauses t -> verdict S t clauses (f_reason f)
  end.
Proof. intros tc vc sx S r HD Hd HT. exact (run_verdict tc vc sx S HD Hd r HT). Qed.
Print Assumptions module_matches_checked.

Example module_matches_checked_example : distinct listS /\ declared listS x_type_con x_value_cons /\ rich listS /\
  (module_typed x_sexp listS (x_module [(PVar (bd 17 "y") None, EConst 1)]) /\ module_typed x_sexp listS (x_module []) /\
   module_typed x_sexp listS (x_module [(PWildcard, EConst 1); (PConst 2, EConst 2)])) /\
  run x_type_con x_value_cons x_sexp 50 (x_module [(PVar (bd 17 "y") None, EConst 1)]) = Ret None /\
  run x_type_con x_value_cons x_sexp 50 (x_module []) = Ret (Some {| f_match := x_inner []; f_reason := NonExhaustivePattern [PWild] |}) /\
  run x_type_con x_value_cons x_sexp 50 (x_module [(PWildcard, EConst 1); (PConst 2, EConst 2)]) =
    Ret (Some {| f_match := x_inner [(PWildcard, EConst 1); (PConst 2, EConst 2)]; f_reason := UselessPattern (PCon (Const 2) []) |}).
Proof. exact (conj x_distinct (conj x_declared (conj x_rich (conj x_typed_all (conj x_accepted (conj x_missing x_useless)))))). Qed.

(** C53 *)
Theorem module_matches_order_irrelevant : forall (type_con_of : N -> option N) (value_cons : N -> option (list finite_con)) (is_sexp : N -> bool) (S : types) (r r2 : root),
  distinct S -> declared S type_con_of value_cons -> module_typed is_sexp S r -> (forall e, body_of r e <-> body_of r2 e) ->
  conv (fun fuel => run type_con_of value_cons is_sexp fuel r) None -> conv (fun fuel => run type_con_of value_cons is_sexp fuel r2) None.
Proof. intros tc vc sx S r r2 HD Hd HT. exact (run_order tc vc sx S HD Hd r r2 HT). Qed.
Print Assumptions module_matches_order_irrelevant.

Example module_matches_order_irrelevant_example : distinct listS /\ declared listS x_type_con x_value_cons /\
  module_typed x_sexp listS (x_module [(PVar (bd 17 "y") None, EConst 1)]) /\
  run x_type_con x_value_cons x_sexp 50 (x_module [(PVar (bd 17 "y") None, EConst 1)]) = Ret None.
Proof. exact (conj x_distinct (conj x_declared (conj (proj1 x_typed_all) x_accepted))). Qed.
