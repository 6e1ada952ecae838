(** A module whose names are resolved. *)
From Verif.Base Require Import Base BaseFacts Assoc.
From Verif.Lexer Require Import Model.
From Verif.Sexp Require Import Model.
From Verif.Scope Require Import Model Spec.
From Verif.Resolve Require Import Model Spec ProofsBase ProofsModule ProofsDone.

Definition at_ (n : N) : srcloc := let l := {| offset := n; line := 0; character := n |}%N in (l, l).
Definition sy (l : N) (n : string) : symbol := {| s_loc := at_ l; s_name := t_ n |}.
Definition bd (id : N) (n : string) : binder := {| b_id := id; b_sym := sy id n |}.
Definition xtop : table :=
  [(t_ "f", {| loc := at_ 1; construct := 1 |}); (t_ "Pair", {| loc := at_ 2; construct := 2 |}); (t_ "Int", {| loc := at_ 3; construct := 3 |});
   (t_ "C", {| loc := at_ 4; construct := 4 |}); (t_ "m", {| loc := at_ 5; construct := 5 |})]%N.
Definition xvariant (c : N) : variant :=
  match c with
  | 1 => VFunction | 2 => VDataValueCon | 3 => VDataTypeCon | 4 => VClassCon | 5 => VClassMethod
  | 10 => VTypeParameter | 11 | 12 | 14 => VParameter | 13 => VLocalFun | 15 => VLocalVar | 16 | 17 => VPatternVar
  | _ => VExpr
  end%N.
Definition xclass (c : N) : option class_info :=
  if (c =? 4)%N then Some {| ci_sealed := true; ci_here := true; ci_methods := [(t_ "m", (5%N, Some 1, true)); (t_ "n", (6%N, None, false))] |} else None.
Definition ux (l : N) (n : string) : expr := EUse (Unres (sy l n)).
Definition ur (c : N) : expr := EUse (Res c).

(** [(function (f x y) {forall (A) (-> A A Int)} (let ((function (g x) (f x z)) (z (g y))) (match z ((Pair x q) (f x q)) (_ x))))],
    where [z] is missing inside [g] in the wrong version. *)
Definition xann : scheme := {| sc_params := [{| tp_binder := bd 10 "A"; tp_ann := Some KType |}]; sc_constrs := [{| k_class := Unres (sy 20 "C"); k_args := [TUse (sy 21 "A")] |}];
  sc_body := TApp (TUse (sy 22 "Int")) [TUse (sy 23 "A")] |}.
Definition xfun (inner : string) : function :=
  {| f_id := 1; f_params := Some [bd 11 "x"; bd 12 "y"]; f_ann := Some xann;
     f_body := ELet [DVar (bd 15 "z") (Some (TUse (sy 24 "A"))) (EApp (ux 25 "g") [ux 26 "y"]); DFun (bd 13 "g") None [bd 14 "x"] (EApp (ux 27 "f") [ux 28 "x"; ux 29 inner])]
       (EMatch (ux 30 "z") [(PDecon (Unres (sy 31 "Pair")) (Some [PVar (bd 16 "x") None; PVar (bd 17 "q") None]), EApp (ux 32 "f") [ux 33 "x"; ux 34 "q"]); (PWildcard, ux 35 "x")]) |}%N.
Definition xinst : inst_con :=
  {| in_id := 40; in_sym := sy 40 "I"; in_params := []; in_constrs := []; in_target := {| k_class := Unres (sy 41 "C"); k_args := [TUse (sy 42 "Int")] |};
     in_methods := [{| im_id := 43; im_params := Some [bd 11 "x"]; im_ann := None; im_body := ux 44 "x"; im_class_method := Unres (sy 45 "m") |}] |}%N.
Definition xroot (fs : list function) : root :=
  {| r_functions := fs; r_c_functions := []; r_builtin_ops := []; r_macros := []; r_data_types := []; r_builtin_types := []; r_classes := [];
     r_instances := [xinst]; r_inits := [Eval (EApp (ux 50 "f") [EConst 1])] |}%N.

Definition xann' : scheme := {| sc_params := [{| tp_binder := bd 10 "A"; tp_ann := Some KType |}]; sc_constrs := [{| k_class := Res 4; k_args := [TGen 10] |}]; sc_body := TApp (TCon 3) [TGen 10] |}%N.
Definition xfun' : function :=
  {| f_id := 1; f_params := Some [bd 11 "x"; bd 12 "y"]; f_ann := Some xann';
     f_body := ELet [DVar (bd 15 "z") (Some (TGen 10)) (EApp (ur 13) [ur 12]); DFun (bd 13 "g") None [bd 14 "x"] (EApp (ur 1) [ur 14; ur 12])]
       (EMatch (ur 15) [(PDecon (Res 2) (Some [PVar (bd 16 "x") None; PVar (bd 17 "q") None]), EApp (ur 1) [ur 16; ur 17]); (PWildcard, ur 11)]) |}%N.
Definition xinst' : inst_con :=
  {| in_id := 40; in_sym := sy 40 "I"; in_params := []; in_constrs := []; in_target := {| k_class := Res 4; k_args := [TCon 3] |};
     in_methods := [{| im_id := 43; im_params := Some [bd 11 "x"]; im_ann := None; im_body := ur 11; im_class_method := Res 5 |}] |}%N.
Definition xroot' (fs : list function) : root :=
  {| r_functions := fs; r_c_functions := []; r_builtin_ops := []; r_macros := []; r_data_types := []; r_builtin_types := []; r_classes := [];
     r_instances := [xinst']; r_inits := [Eval (EApp (ur 1) [EConst 1])] |}%N.

Definition xid : function := {| f_id := 60; f_params := Some [bd 11 "f"]; f_ann := None; f_body := ux 61 "f" |}%N.
Definition xid' : function := {| f_id := 60; f_params := Some [bd 11 "f"]; f_ann := None; f_body := ur 11 |}%N.

Lemma x_run : run xvariant (@rev _) xclass xtop (xroot [xfun "y"; xid]) = Ret (Good (xroot' [xfun'; xid'])).
Proof. vm_compute. reflexivity. Qed.
Lemma x_run_order : run xvariant (fun l => l) xclass xtop (xroot [xid; xfun "y"]) = Ret (Good (xroot' [xid'; xfun'])).
Proof. vm_compute. reflexivity. Qed.
(** A variable of a [let] is not seen by the functions beside it. *)
Lemma x_run_inner : run xvariant (@rev _) xclass xtop (xroot [xfun "z"; xid]) = Ret (Bad (NotResolved (at_ 29) (t_ "value") (t_ "z"))).
Proof. vm_compute. reflexivity. Qed.
Lemma x_nodup : NoDup (keys xtop).
Proof. repeat constructor; cbn; intuition congruence. Qed.
Lemma x_known : classes_known xvariant xclass.
Proof.
  intros c E. assert (Ec : c = 4%N). { unfold xvariant in E. destruct c as [|p]; [discriminate|]. do 6 (try destruct p as [p|p|]); try discriminate; try reflexivity. }
  subst c. eexists. split; [reflexivity|]. repeat constructor; cbn; intuition congruence.
Qed.
Lemma x_targets fs : targets_named (xroot fs).
Proof. intros i [<-|[]]. eexists. reflexivity. Qed.
Lemma x_methods fs : methods_named (xroot fs).
Proof. intros i m [<-|[]] [<-|[]]. eexists. reflexivity. Qed.
(** Two parameters of the same name: the error shows both. *)
Definition xdup : function := {| f_id := 62; f_params := Some [bd 11 "x"; bd 12 "x"]; f_ann := None; f_body := ux 63 "x" |}%N.
Lemma x_run_dup : run xvariant (@rev _) xclass xtop (xroot [xdup]) =
  Ret (Bad (Declared (DuplicatedIdentifier (t_ "x") {| loc := at_ 11; construct := 11 |} {| loc := at_ 12; construct := 12 |}))).
Proof. vm_compute. reflexivity. Qed.
