(** Modules with matches over lists of numbers. *)
From Verif.Base Require Import Base Vec.
From Verif.Pattern Require Import Model Spec Examples.
From Verif.Resolve Require Import Model Examples.
From Verif.Validate Require Import Model Spec.

Definition x_type_con (c : N) : option N := if (c <? 2)%N then Some 7%N else None.
Definition x_value_cons (d : N) : option (list finite_con) := if (d =? 7)%N then Some (map con_of list_cons) else None.
Definition x_sexp (k : N) : bool := (k =? 99)%N.

(** [(match a (nil 0) (l@(cons x _) (match x (1 0) other)))], inside a local function. *)
Definition x_inner (other : list (pattern * expr)) : expr := EMatch (ur 16) ((PConst 1, EConst 0) :: other).
Definition x_outer (other : list (pattern * expr)) : expr :=
  EMatch (ur 11) [(PDecon (Res 0%N) None, EConst 0); (PVar (bd 15 "l") (Some (PDecon (Res 1%N) (Some [PVar (bd 16 "x") None; PWildcard]))), x_inner other)].
Definition x_module (other : list (pattern * expr)) : root :=
  {| r_functions := [{| f_id := 1; f_params := None; f_ann := None; f_body := ELet [DFun (bd 13 "g") None [bd 11 "a"] (x_outer other)] (EReturn (Some (ur 13))) |}];
     r_c_functions := []; r_builtin_ops := []; r_macros := []; r_data_types := []; r_builtin_types := []; r_classes := []; r_instances := []; r_inits := [Eval (ur 1)] |}%N.

Lemma x_accepted : run x_type_con x_value_cons x_sexp 50 (x_module [(PVar (bd 17 "y") None, EConst 1)]) = Ret None.
Proof. vm_compute. reflexivity. Qed.
Lemma x_missing : run x_type_con x_value_cons x_sexp 50 (x_module []) = Ret (Some {| f_match := x_inner []; f_reason := NonExhaustivePattern [PWild] |}).
Proof. vm_compute. reflexivity. Qed.
Lemma x_useless : run x_type_con x_value_cons x_sexp 50 (x_module [(PWildcard, EConst 1); (PConst 2, EConst 2)]) =
  Ret (Some {| f_match := x_inner [(PWildcard, EConst 1); (PConst 2, EConst 2)]; f_reason := UselessPattern (PCon (Const 2) []) |}).
Proof. vm_compute. reflexivity. Qed.
Lemma x_declared : declared listS x_type_con x_value_cons.
Proof. intros [|] cs c fs E Hin; [discriminate|]. injection E as <-. exists 7%N. destruct Hin as [[= <- <-]|[[= <- <-]|[]]]; split; reflexivity. Qed.
Lemma x_distinct : distinct listS.
Proof. exact (proj1 example_case). Qed.
Lemma x_rich : rich listS.
Proof. exact (conj (proj1 (proj2 example_case)) (proj1 (proj2 (proj2 example_case)))). Qed.

Lemma inside_cases m e : inside m e -> m = e \/ exists a, In a (parts e) /\ inside m a.
Proof. intros H. inversion H as [|a e' Ha Hm]; subst; [left; reflexivity|right; exists a; auto]. Qed.
Lemma x_written other target clauses : (forall p b, In (p, b) other -> exists k, b = EConst k) -> written (x_module other) (EMatch target clauses) ->
  EMatch target clauses = x_outer other \/ EMatch target clauses = x_inner other.
Proof.
  intros Ho (e & Hb & Hi). assert (Hleaf : forall e, parts e = [] -> inside (EMatch target clauses) e -> EMatch target clauses = e) by (intros e0 E H0; apply inside_cases in H0; rewrite E in H0; destruct H0 as [H0|(a & [] & _)]; exact H0).
  inversion Hb as [f Hf|m Hm|c m e0 Hc|i m Hm|e0 He]; subst; cbn in *; try contradiction.
  - destruct Hf as [<-|[]]. apply inside_cases in Hi. destruct Hi as [Hi|(a & Ha & Hi)]; [discriminate|]. cbn in Ha. destruct Ha as [<-|[<-|[]]].
    + apply inside_cases in Hi. destruct Hi as [Hi|(a & Ha & Hi)]; [left; exact Hi|]. cbn in Ha. destruct Ha as [<-|[<-|[<-|[]]]]; try (apply Hleaf in Hi; [discriminate Hi|reflexivity]).
      apply inside_cases in Hi. destruct Hi as [Hi|(a & Ha & Hi)]; [right; exact Hi|]. cbn in Ha. destruct Ha as [<-|[<-|Ha]]; try (apply Hleaf in Hi; [discriminate Hi|reflexivity]).
      apply in_map_iff in Ha. destruct Ha as ([p b] & <- & Hin). destruct (Ho p b Hin) as (k & ->). apply Hleaf in Hi; [discriminate Hi|reflexivity].
    + apply inside_cases in Hi. destruct Hi as [Hi|(a & Ha & Hi)]; [discriminate|]. cbn in Ha. destruct Ha as [<-|[]]. apply Hleaf in Hi; [discriminate Hi|reflexivity].
  - destruct He as [[= <-]|[]]. apply Hleaf in Hi; [discriminate Hi|reflexivity].
Qed.
Lemma x_typed other : (forall p b, In (p, b) other -> (exists k, b = EConst k) /\ typed x_sexp listS p Int) -> module_typed x_sexp listS (x_module other).
Proof.
  intros Ho target clauses Hw. apply x_written in Hw; [|intros p b Hin; apply (Ho p b Hin)]. destruct Hw as [[= -> ->]|[= -> ->]].
  - exists Lst. intros p b [[= <- <-]|[[= <- <-]|[]]].
    + apply (ty_decon _ listS 0%N None list_cons [] Lst); [reflexivity|left; reflexivity|constructor].
    + apply ty_as, (ty_decon _ listS 1%N _ list_cons [Int; Lst] Lst); [reflexivity|right; left; reflexivity|]. repeat constructor.
  - exists Int. intros p b [[= <- <-]|Hin]; [apply ty_const; [reflexivity|exact I|reflexivity]|]. exact (proj2 (Ho p b Hin)).
Qed.
Lemma x_typed_all : module_typed x_sexp listS (x_module [(PVar (bd 17 "y") None, EConst 1)]) /\ module_typed x_sexp listS (x_module []) /\
  module_typed x_sexp listS (x_module [(PWildcard, EConst 1); (PConst 2, EConst 2)]).
Proof.
  split; [|split]; apply x_typed; intros p b Hin.
  - destruct Hin as [[= <- <-]|[]]. split; [eexists; reflexivity|constructor].
  - destruct Hin.
  - destruct Hin as [[= <- <-]|[[= <- <-]|[]]]; (split; [eexists; reflexivity|]); [constructor|]. apply ty_const; [reflexivity|exact I|reflexivity].
Qed.
