(** Declarations, and what they become. *)
From Verif.Base Require Import Base BaseFacts.
From Verif.Lexer Require Import Model.
From Verif.Sexp Require Import Model.
From Verif.Syntax Require Import Model ModelDecl Spec SpecDecl ProofsTop Examples.
Local Open Scope string_scope.

(** [(value-data (Option (A k)) None (Some A))], where [k] is the kind of types *)
Definition xdata : sexp := L [w "value-data"; L [w "Option"; L [w "A"; w "*"]]; w "None"; L [w "Some"; w "A"]].
Definition xdata_tree : decl :=
  DeData ReprValue (bd 3 "Option") [{| tp_binder := bd 2 "A"; tp_ann := Some KType |}] [(bd 4 "None", None); (bd 7 "Some", Some [TUse (sy "A")])].
Lemma x_data : build_decl xworld 6 xdata 0%N = Ret (7%N, Built xdata_tree).
Proof. vm_compute. reflexivity. Qed.
(** [(begin (import "std") (value-data ...))] *)
Definition xdecls : sexp := L [w "begin"; L [w "import"; Sexp at0 (RString (t_ "std"))]; xdata].
Lemma x_decls : define xworld 7 xdecls 0%N = Ret (7%N, Built [DeImport (t_ "std") []; xdata_tree]).
Proof. vm_compute. reflexivity. Qed.
Lemma x_decls_fine : no_macros xworld xdecls /\ moderate xworld xdecls.
Proof. unfold xdecls, xdata, L, w, word. split; [plain | small]. Qed.
(** [(transparent-function (id x) {(forall A) (-> A A)} x)] *)
Definition xfun : sexp := L [w "transparent-function"; L [w "annotate"; L [w "id"; w "x"]; L [w "forall"; w "A"]; L [w "->"; w "A"; w "A"]]; w "x"].
Lemma x_fun : exists c i j k, build_decl xworld 6 xfun 0%N = Ret (c, Built (DeFunction true (bd i "id") (Some [bd j "x"])
  (Some {| sc_params := [{| tp_binder := bd k "A"; tp_ann := None |}]; sc_constrs := []; sc_body := TApp (TCon 301) [TUse (sy "A"); TUse (sy "A")] |}) (u "x"))).
Proof. do 4 eexists. vm_compute. reflexivity. Qed.
(** A C function has one type: [(c-function f {(forall A) A} "f")] is refused. *)
Definition xforeign : sexp := L [w "c-function"; L [w "annotate"; w "f"; L [w "forall"; w "A"]; w "A"]; Sexp at0 (RString (t_ "f"))].
Lemma x_foreign : exists c, define xworld 7 xforeign 0%N = Ret (c, Refused (CannotGeneralize at0)).
Proof. eexists. vm_compute. reflexivity. Qed.
(** [(class (Eq A) (where (Base A)) (function (eq a) {(-> A A)}))] *)
Definition xclass (method : sexp) : sexp := L [w "class"; L [w "Eq"; w "A"]; L [w "where"; L [w "Base"; w "A"]]; method].
Lemma x_class : exists c i j k m, build_decl xworld 6 (xclass (L [w "function"; L [w "annotate"; L [w "eq"; w "a"]; L [w "->"; w "A"; w "A"]]])) 0%N =
  Ret (c, Built (DeClass false (bd i "Eq") [{| tp_binder := bd j "A"; tp_ann := None |}] [{| k_class := Unres (sy "Base"); k_args := [TUse (sy "A")] |}]
    [{| cm_transparent := false; cm_binder := bd k "eq"; cm_params := Some [bd m "a"];
        cm_ann := {| sc_params := []; sc_constrs := []; sc_body := TApp (TCon 301) [TUse (sy "A"); TUse (sy "A")] |}; cm_body := None |}])).
Proof. do 5 eexists. vm_compute. reflexivity. Qed.
(** A method of a class needs a type. *)
Lemma x_class_refused : exists c, build_decl xworld 6 (xclass (L [w "function"; L [w "eq"; w "a"]; w "a"])) 0%N = Ret (c, Refused (MethodWithoutType at0)).
Proof. eexists. vm_compute. reflexivity. Qed.
(** [(instance EqList (forall A) (Eq A) (where (Base A)) (function (eq a) a))] *)
Definition xinstance : sexp :=
  L [w "instance"; w "EqList"; L [w "forall"; w "A"]; L [w "Eq"; w "A"]; L [w "where"; L [w "Base"; w "A"]]; L [w "function"; L [w "eq"; w "a"]; w "a"]].
Lemma x_instance : exists c i j k m, build_decl xworld 6 xinstance 0%N =
  Ret (c, Built (DeInstance (bd i "EqList") [{| tp_binder := bd j "A"; tp_ann := None |}] [{| k_class := Unres (sy "Base"); k_args := [TUse (sy "A")] |}]
    {| k_class := Unres (sy "Eq"); k_args := [TUse (sy "A")] |}
    [{| im_transparent := false; im_binder := bd k "eq"; im_params := Some [bd m "a"]; im_ann := None; im_body := u "a"; im_of := Unres (sy "eq") |}])).
Proof. do 5 eexists. vm_compute. reflexivity. Qed.
