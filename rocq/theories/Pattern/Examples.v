(** Concrete types for the match checks. *)
From Verif.Base Require Import Base Vec VecFacts.
From Verif.Pattern Require Import Model Spec.

(** Lists of numbers. *)
Inductive ty := Int | Lst.
Definition list_cons : list (N * list ty) := [(0, []); (1, [Int; Lst])]%N.
Definition listS : types := {| type := ty; cons_of := fun t => match t with Int => None | Lst => Some list_cons end; consts_of := fun _ _ => True |}.
Definition nil_p := PCon (Finite (con_of (0%N, @nil ty)) (map con_of list_cons)) [].
Definition cons_p (a b : pattern) := PCon (Finite (con_of (1%N, [Int; Lst])) (map con_of list_cons)) [a; b].
Definition one_p := PCon (Const 1) [].

Lemma fresh_const (l : list N) : exists c, ~ In c l.
Proof.
  assert (H : exists b, forall x, In x l -> (x < b)%N).
  { induction l as [|x l (b & Hb)]; [exists 0%N; intros x []|]. exists (N.max (x + 1) b). intros y [<-|Hy]; [lia|]. specialize (Hb y Hy). lia. }
  destruct H as (b & Hb). exists b. intros H. specialize (Hb b H). lia.
Qed.

Lemma nil_typed : pat_type listS nil_p Lst.
Proof. apply (p_con listS 0%N [] list_cons [] Lst); [reflexivity|left; reflexivity|constructor]. Qed.
Lemma cons_typed a b : pat_type listS a Int -> pat_type listS b Lst -> pat_type listS (cons_p a b) Lst.
Proof. intros Ha Hb. apply (p_con listS 1%N [a; b] list_cons [Int; Lst] Lst); [reflexivity|right; left; reflexivity|]. constructor; [exact Ha|]. constructor; [exact Hb|constructor]. Qed.

Lemma example_case : distinct listS /\ inhabited listS /\ unbounded listS /\
  Forall (fun p => pat_type listS p Lst) [nil_p; cons_p one_p PWild; cons_p PWild nil_p] /\
  validate_match 50 [nil_p; cons_p one_p PWild; cons_p PWild nil_p] =
    Ret (NonExhaustivePattern [cons_p PWild (cons_p PWild PWild)]) /\
  validate_match 50 [nil_p; cons_p PWild PWild] = Ret MatchOk /\
  validate_match 50 [nil_p; cons_p one_p PWild; cons_p one_p nil_p; PWild] = Ret (UselessPattern (cons_p one_p nil_p)).
Proof.
  split; [|split; [|split; [|split; [|split; [|split]]]]]; try (vm_compute; reflexivity).
  - intros [|] cs E; [discriminate|]. injection E as <-. cbn. repeat (constructor; [cbn; intuition discriminate|]). constructor.
  - intros [|]; [exists (VConst 0); constructor; [reflexivity|exact I]|]. exists (VCon 0 []). apply (t_con listS 0%N [] list_cons []); [reflexivity|left; reflexivity|constructor].
  - intros t l _. destruct (fresh_const l) as (c & Hc). exists c. split; [exact I|exact Hc].
  - constructor; [apply nil_typed|]. constructor; [apply cons_typed; [apply p_const; [reflexivity|exact I]|constructor]|].
    constructor; [apply cons_typed; [constructor|apply nil_typed]|constructor].
Qed.

(** A data type without constructors. *)
Definition voidS : types := {| type := unit; cons_of := fun _ => Some []; consts_of := fun _ _ => False |}.
Lemma uninhabited_case : exists (S : types) (t : type S) (clauses : list pattern),
  distinct S /\ Forall (fun p => pat_type S p t) clauses /\
  (forall v, has_type S v t -> covered clauses v) /\ all_useful S t clauses /\
  exists ps, conv (fun fuel => validate_match fuel clauses) (NonExhaustivePattern ps).
Proof.
  exists voidS, tt, []. split; [|split; [|split; [|split]]].
  - intros t cs E. injection E as <-. constructor.
  - constructor.
  - intros v Hv. inversion Hv as [c args cs fs t E Hin|c t E]; [|discriminate]. injection E as <-. destruct Hin.
  - intros [|x pre] p post E; discriminate.
  - exists [PWild]. apply conv_ret.
Qed.

Definition bitS : types := {| type := unit; cons_of := fun _ => None; consts_of := fun _ c => c = 0%N \/ c = 1%N |}.
Lemma finite_constants_case : exists (S : types) (t : type S) (clauses : list pattern),
  distinct S /\ inhabited S /\ Forall (fun p => pat_type S p t) clauses /\
  (forall v, has_type S v t -> covered clauses v) /\ all_useful S t clauses /\
  exists ps, conv (fun fuel => validate_match fuel clauses) (NonExhaustivePattern ps).
Proof.
  exists bitS, tt, [PCon (Const 0) []; PCon (Const 1) []]. split; [|split; [|split; [|split; [|split]]]].
  - intros t cs E. discriminate.
  - intros t. exists (VConst 0). apply t_const; [reflexivity|left; reflexivity].
  - constructor; [apply p_const; [reflexivity|left; reflexivity]|]. constructor; [apply p_const; [reflexivity|right; reflexivity]|constructor].
  - intros v Hv. inversion Hv as [c args cs fs t E|c t E [->| ->]]; [discriminate| |]; [exists (PCon (Const 0) [])|exists (PCon (Const 1) [])]; (split; [cbn; auto|constructor]).
  - intros [|x [|y [|z pre]]] p post E; cbn in E; injection E; intros; subst; try discriminate.
    + exists (VConst 0). split; [apply t_const; [reflexivity|left; reflexivity]|]. split; [constructor|]. intros (p & [] & _).
    + exists (VConst 1). split; [apply t_const; [reflexivity|right; reflexivity]|]. split; [constructor|]. intros (p & [<-|[]] & Hm). inversion Hm.
  - exists [PWild]. exists 20%nat. intros m Hm. do 20 (destruct m as [|m]; [lia|]). clear Hm. vm_compute. reflexivity.
Qed.
