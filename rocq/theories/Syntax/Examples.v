(** Expressions of a module, and the trees they become. *)
From Verif.Base Require Import Base BaseFacts.
From Verif.Lexer Require Import Model.
From Verif.Sexp Require Import Model.
From Verif.Syntax Require Import Model Spec ProofsTop.
Local Open Scope string_scope.

Definition at0 : srcloc := let l := {| offset := 0; line := 0; character := 0 |}%N in (l, l).
Definition w (x : string) : sexp := word at0 (t_ x).
Definition L (ss : list sexp) : sexp := Sexp at0 (RList ss).
Definition five : srep := RInteger true 5.
Definition sy (x : string) : symbol := {| s_loc := at0; s_name := t_ x |}.
Definition bd (i : N) (x : string) : binder := {| b_id := i; b_sym := sy x |}.
(** [swap] is a macro of another module, [here] one of this module; the native value [g] holds a function. *)
Definition xworld : world := {|
  variant_of := fun c => match c with 1 | 2 => VMacro | 3 => VFunction | _ => VBuiltinTypeCon end%N;
  top := fun x => if text_eqb x (t_ "swap") then Some 1%N else if text_eqb x (t_ "here") then Some 2%N else None;
  native := fun x => if text_eqb x (t_ "g") then Some 3%N else None;
  own := fun c => N.eqb c 2;
  execute := fun _ s => match s with Sexp l (RList [_; a; b]) => inl (Sexp l (RList [b; a])) | _ => inr (t_ "swap takes two") end;
  number := fun k => match k with Literal (RInteger _ _) => 7 | _ => 8 end%N;
  tuple_con := fun n => (100 + N.of_nat n)%N; tuple_type := fun n => (200 + N.of_nat n)%N; fun_type := fun n => (300 + N.of_nat n)%N;
  bool_con := fun b : bool => if b then 400%N else 401%N |}.

(** [(let (((f a) {(forall A) (-> A A) (where (C A))} a) (x 5)) (match (f x) ((let y (Some (let z))) (: z y)) (_ (swap x f))))] *)
Definition xlet (call : sexp) : sexp :=
  L [w "let";
     L [L [L [w "annotate"; L [w "f"; w "a"]; L [w "forall"; w "A"]; L [w "->"; w "A"; w "A"]; L [w "where"; L [w "C"; w "A"]]]; w "a"];
        L [w "x"; Sexp at0 five]];
     L [w "match"; L [w "f"; w "x"];
        L [L [w "let"; w "y"; L [w "Some"; L [w "let"; w "z"]]]; L [w ":"; w "z"; w "y"]];
        L [w "_"; call]]].
Definition xcall := L [w "swap"; w "x"; w "f"].
Definition u (x : string) : expr := EUse (Unres (sy x)).
Definition xtree : expr :=
  ELet [DFun (bd 12 "f") (Some {| sc_params := [{| tp_binder := bd 2 "A"; tp_ann := None |}];
                                  sc_constrs := [{| k_class := Unres (sy "C"); k_args := [TUse (sy "A")] |}];
                                  sc_body := TApp (TCon 301) [TUse (sy "A"); TUse (sy "A")] |}) [bd 1 "a"] (u "a");
        DVar (bd 15 "x") None (EConst 7)]
    (EMatch (EApp (u "f") [u "x"])
       [(PVar (bd 21 "y") (Some (PDecon (Unres (sy "Some")) (Some [PVar (bd 23 "z") None]))), EApp (ECon 102) [u "z"; u "y"]);
        (PWildcard, EApp (u "f") [u "x"])]).
Lemma x_built : build_expr xworld 12 (xlet xcall) 0%N = Ret (43%N, Built xtree).
Proof. vm_compute. reflexivity. Qed.
(** A macro cannot be used in its own module; a variable of a [let] has one type only. *)
Lemma x_own : build_expr xworld 12 (xlet (L [w "here"; w "x"; w "f"])) 0%N = Ret (34%N, Refused (MacroOfThisModule at0)).
Proof. vm_compute. reflexivity. Qed.
Definition xpoly : sexp := L [w "let"; L [L [L [w "annotate"; w "x"; L [w "forall"; w "A"]; w "A"]; w "nil"]]; w "x"].
Lemma x_poly : build_expr xworld 12 xpoly 0%N = Ret (6%N, Refused (CannotGeneralize at0)).
Proof. vm_compute. reflexivity. Qed.

Ltac plain :=
  constructor; [intros ? M; inversion M; subst; match goal with H : _ = Some ?c, V : variant_of _ ?c = _ |- _ => vm_compute in H; first [discriminate H | injection H as <-; vm_compute in V; discriminate V] end
               |intros ? ? E; first [discriminate E | injection E as <- <-; repeat (apply Forall_cons; [plain|]); apply Forall_nil]].
Ltac small :=
  constructor; [intros ? ? E; first [discriminate E | injection E as <- <-; split; [cbn; lia | repeat (apply Forall_cons; [small|]); apply Forall_nil]]
               |intros ? ? E; first [discriminate E | injection E as <- <-; vm_compute; discriminate]].
Definition xplain : sexp := xlet (L [Sexp at0 (RNative (t_ "g")); w "x"]).
Lemma x_no_macros : no_macros xworld xplain.
Proof. unfold xplain, xlet, L, w, word. plain. Qed.
Lemma x_moderate : moderate xworld xplain.
Proof. unfold xplain, xlet, L, w, word. small. Qed.
Definition xkind : sexp := L [w "->"; w "*"; L [w "->"; w "*"; w "Constraint"]; w "*"].
Lemma x_kind : build_kind xworld 4 xkind 0%N = Ret (0%N, Built (KFun [KType; KFun [KType] KConstraint] KType)).
Proof. vm_compute. reflexivity. Qed.
Lemma x_kind_fine : no_macros xworld xkind /\ moderate xworld xkind.
Proof. unfold xkind, L, w, word. split; [plain | small]. Qed.
Lemma x_kind_refused : build_kind xworld 4 (L [w "->"; w "*"; w "Int"]) 0%N = Ret (0%N, Refused (NoMatch at0 (t_ "<kind>"))).
Proof. vm_compute. reflexivity. Qed.
Definition xtype : sexp := L [w "->"; w "unit"; L [w ":"; w "A"; L [w "List"; w "B"]]].
Lemma x_type : build_type xworld 5 xtype 0%N =
  Ret (3%N, Built (TApp (TCon 301) [TCon 200; TApp (TCon 202) [TUse (sy "A"); TApp (TUse (sy "List")) [TUse (sy "B")]]])).
Proof. vm_compute. reflexivity. Qed.
Lemma x_type_fine : no_macros xworld xtype /\ moderate xworld xtype.
Proof. unfold xtype, L, w, word. split; [plain | small]. Qed.
Lemma x_type_refused : build_type xworld 5 (L [w "List"; Sexp at0 five]) 0%N = Ret (1%N, Refused (NoMatch at0 (t_ "<type>"))).
Proof. vm_compute. reflexivity. Qed.
Definition xpattern : sexp := L [w ":"; L [w "let"; w "x"]; L [w "Pair"; w "_"; w "None"]].
Lemma x_pattern : build_pattern xworld 5 xpattern 0%N =
  Ret (8%N, Built (PDecon (Res 102) (Some [PVar (bd 1 "x") None; PDecon (Unres (sy "Pair")) (Some [PWildcard; PDecon (Unres (sy "None")) None])]))%N).
Proof. vm_compute. reflexivity. Qed.
Lemma x_pattern_fine : no_macros xworld xpattern /\ moderate xworld xpattern.
Proof. unfold xpattern, L, w, word. split; [plain | small]. Qed.
Lemma x_pattern_refused : build_pattern xworld 5 (L [w ":"; L [w "let"; w "x"; w "_"; w "_"]]) 0%N = Ret (0%N, Refused (NoMatch at0 (t_ "<(let <name>) or (let <name> <as-pattern>)>"))).
Proof. vm_compute. reflexivity. Qed.

(** A tuple of seventeen elements. *)
Definition xlarge : sexp := form at0 at0 (t_ ":") (repeat (Sexp at0 five) 17).
Definition xlarge_tree : expr := EApp (ECon 117) (repeat (EConst 7) 17).
Lemma x_large_reads : reads_expr xworld xlarge xlarge_tree.
Proof.
  assert (Five : reads_expr xworld (Sexp at0 five) (EConst 7)).
  { eapply read_expr; [apply exp_done; intros c M; inversion M|]. apply (ef_literal xworld at0 five). constructor. }
  eapply read_expr.
  - apply exp_done. intros c M. inversion M; subst. match goal with H : _ = Some _ |- _ => vm_compute in H; discriminate end.
  - apply ef_tuple; [discriminate|]. cbn [repeat]. repeat (apply Forall2_cons; [exact Five|]). apply Forall2_nil.
Qed.
Lemma x_large_panics n c : build_expr xworld (S (S n)) xlarge c = Panic.
Proof. reflexivity. Qed.
Lemma x_large : exists W s e, reads_expr W s e /\ forall n c, 2 <= n -> build_expr W n s c = Panic.
Proof.
  exists xworld, xlarge, xlarge_tree. split; [exact x_large_reads|]. intros n c H. destruct n as [|[|n]]; [lia|lia|]. apply x_large_panics.
Qed.
