From Verif.Base Require Import Base.
From Verif.Ir Require Import Model.
From Verif.Closure Require Import Model Spec ProofsDet.
From Verif.Inline Require Import Model Spec.

(** ** Cases in which the body is not as good as the call *)
Definition prim (o : strict) (h : heap) (vs : list value) : option (heap * res) :=
  match o, vs with
  | SConst (KInteger _ _ v), [] => Some (h, RsVal (VAtom (AInt v)))
  | SBinary BUAdd, [VAtom (AInt a); VAtom (AInt b)] => Some (h, RsVal (VAtom (AInt (a + b))))
  | SBinary BUSub, [VAtom (AInt a); VAtom (AInt b)] => Some (h, RsVal (VAtom (AInt (a - b))))
  | SBinary BIEq, [VAtom (AInt a); VAtom (AInt b)] => Some (h, RsVal (v_bool (N.eqb a b)))
  | SAlloc _, [v] => Some (h ++ [Some v], RsVal (VPtr (List.length h)))
  | SUnary UPanic, [VAtom (AInt _)] => Some (h, RsPanic (t_ "panic"))
  | _, _ => None
  end.
Definition equals (c : const) (v : value) : option bool :=
  match c, v with KInteger _ _ a, VAtom (AInt b) => Some (N.eqb a b) | _, _ => None end.
Lemma prim_plain : prims_plain prim.
Proof.
  intros o h vs h1 r E. destruct o as [c|o|o|o|o|l|l t|l|t i|t|m|l t|kd t| |k t|f t]; cbn in E; try discriminate E.
  - destruct c; try discriminate E. destruct vs; [injection E as <- <-; exact I|discriminate E].
  - destruct o; try discriminate E. destruct vs as [|[[]| | | | | | |] [|]]; try discriminate E. injection E as <- <-. exact I.
  - destruct o; try discriminate E; destruct vs as [|[[]| | | | | | |] [|[[]| | | | | | |] [|]]]; try discriminate E; injection E as <- <-; exact I.
  - destruct vs as [|v [|]]; try discriminate E. injection E as <- <-. exact I.
Qed.

Definition ty : ct := CtU 64.
Definition num (n : N) : expr := EOp (SConst (KInteger ty false n)) [].
Definition var (id : nat) : expr := EVar id ty.
Definition op (o : binary) (a b : expr) : expr := EOp (SBinary o) [a; b].
Definition one (f : function) (g : nat) : option function := if (g =? 0)%nat then Some f else None.

Ltac wf := split; [cbn; repeat constructor; auto with arith|split; [cbn; repeat constructor; cbn; intuition discriminate|cbn; repeat constructor]].

(** (transparent-function (f a) (begin a a)) *)
Definition twice : function := Function None [(0%nat, ty)] ty (ESeq [var 0] (var 0)).
Lemma argument_twice : exists prim equals funs n g f ty arg n' x h1 r h2 r',
  prims_plain prim /\ funs g = Some f /\ f_env f = None /\ well_formed n f /\ simple (f_body f) /\ simple arg /\ scoped [] [] arg /\ defs arg = [] /\
  call_transparent n f [arg] = Ret (n', x) /\
  ev prim equals funs [] [] (call_of g ty [arg]) h1 r /\ ev prim equals funs [] [] x h2 r' /\ List.length h1 = 1%nat /\ List.length h2 = 2%nat.
Proof.
  exists prim, equals, (one twice), 1%nat, 0%nat, twice, ty, (EOp (SAlloc LHeap) [num 5]). do 6 eexists.
  split; [exact prim_plain|]. split; [reflexivity|]. split; [reflexivity|]. split; [wf|]. split; [cbn; auto|]. split; [cbn; auto|]. split; [repeat constructor|]. split; [reflexivity|].
  split; [reflexivity|]. split; [|split; [|split]].
  - eapply ev_call; [eapply evs_cons; [eapply ev_op; [apply evs_nil|reflexivity]|eapply evs_cons; [eapply ev_op; [eapply evs_cons; [eapply ev_op; [apply evs_nil|reflexivity]|apply evs_nil]|reflexivity]|apply evs_nil]]
      |eapply entered_fun; reflexivity|eapply ev_seq; [eapply evs_cons; [constructor; reflexivity|apply evs_nil]|constructor; reflexivity]|reflexivity].
  - eapply ev_seq; [eapply evs_cons; [eapply ev_op; [eapply evs_cons; [eapply ev_op; [apply evs_nil|reflexivity]|apply evs_nil]|reflexivity]|apply evs_nil]|].
    eapply ev_op; [eapply evs_cons; [eapply ev_op; [apply evs_nil|reflexivity]|apply evs_nil]|reflexivity].
  - reflexivity.
  - reflexivity.
Qed.

(** (transparent-function (f a) 7) *)
Definition unused : function := Function None [(0%nat, ty)] ty (num 7).
Lemma argument_unused : exists prim equals funs n g f ty arg n' x s v,
  prims_plain prim /\ funs g = Some f /\ f_env f = None /\ well_formed n f /\ simple (f_body f) /\ simple arg /\ scoped [] [] arg /\ defs arg = [] /\
  call_transparent n f [arg] = Ret (n', x) /\
  ev prim equals funs [] [] (call_of g ty [arg]) [] (RsPanic s) /\ ev prim equals funs [] [] x [] (RsVal v).
Proof.
  exists prim, equals, (one unused), 1%nat, 0%nat, unused, ty, (EOp (SUnary UPanic) [num 5]). do 4 eexists.
  split; [exact prim_plain|]. split; [reflexivity|]. split; [reflexivity|]. split; [wf|]. split; [cbn; auto|]. split; [cbn; auto|]. split; [repeat constructor|]. split; [reflexivity|].
  split; [reflexivity|]. split.
  - eapply ev_call_stop. eapply evs_stop_later; [eapply ev_op; [apply evs_nil|reflexivity]|]. eapply evs_stop; [|exact I]. eapply ev_op; [eapply evs_cons; [eapply ev_op; [apply evs_nil|reflexivity]|apply evs_nil]|reflexivity].
  - eapply ev_op; [apply evs_nil|reflexivity].
Qed.

(** (transparent-function (f a) (return a)) *)
Definition returns : function := Function None [(0%nat, ty)] ty (EOp SReturn [var 0]).
Lemma return_leaves_caller : exists prim equals funs n g f vars e v n' x,
  prims_plain prim /\ funs g = Some f /\ f_env f = None /\ well_formed n f /\ List.length vars = List.length (f_params f) /\
  Forall (fun a => lookup e (fst a) = Some v) vars /\
  call_transparent n f (variables vars) = Ret (n', x) /\
  ev prim equals funs [] e (call_of g ty (variables vars)) [] (RsVal v) /\ ev prim equals funs [] e x [] (RsReturn v).
Proof.
  exists prim, equals, (one returns), 2%nat, 0%nat, returns, [(1%nat, ty)], [(1%nat, VAtom (AInt 3))]. do 3 eexists.
  split; [exact prim_plain|]. split; [reflexivity|]. split; [reflexivity|]. split; [wf|]. split; [reflexivity|]. split; [repeat constructor|]. split; [reflexivity|]. split.
  - eapply ev_call; [eapply evs_cons; [eapply ev_op; [apply evs_nil|reflexivity]|eapply evs_cons; [constructor; reflexivity|apply evs_nil]]|eapply entered_fun; reflexivity
      |eapply ev_op; [eapply evs_cons; [constructor; reflexivity|apply evs_nil]|reflexivity]|reflexivity].
  - eapply ev_op; [eapply evs_cons; [constructor; reflexivity|apply evs_nil]|reflexivity].
Qed.

(** (transparent-function (f a) (begin a a)), called as (f (let ([b 5]) b)) *)
Lemma definition_twice : exists n f arg,
  f_env f = None /\ well_formed n f /\ simple (f_body f) /\ simple arg /\ scoped [] [] arg /\ NoDup (bound f ++ defs (f_body f) ++ defs arg) /\ Forall (fun id => id < n)%nat (defs arg) /\
  List.length (f_params f) = 1%nat /\ call_transparent n f [arg] = Panic.
Proof.
  exists 2%nat, twice, (ELetVar [(1%nat, ty, num 5)] (var 1)). split; [reflexivity|]. split; [wf|]. split; [cbn; auto|]. split; [cbn; auto|]. split; [repeat constructor|].
  split; [cbn; repeat constructor; cbn; intuition discriminate|]. split; [repeat constructor|]. split; reflexivity.
Qed.

(** Two local functions that call each other *)
Definition mutual : function := Function None [(0%nat, ty)] ty
  (ELetLocal [(1%nat, [(2%nat, ty)], ty, ECall (ELocal 3 ty) [var 2]); (3%nat, [(4%nat, ty)], ty, ECall (ELocal 1 ty) [var 4])] (ECall (ELocal 1 ty) [var 0])).
Lemma local_functions_lost : exists n f vars n' x,
  f_env f = None /\ well_formed n f /\ List.length vars = List.length (f_params f) /\ Forall (fun a => fst a < n /\ ~ In (fst a) (bound f ++ defs (f_body f)))%nat vars /\
  call_transparent n f (variables vars) = Ret (n', x) /\ ~ scoped (map fst vars) [] x /\
  forall k fuel, (3 <= fuel)%nat -> normalize fuel fuel n' k [(0%nat, Function None vars ty x)] = Panic.
Proof.
  exists 6%nat, mutual, [(5%nat, ty)]. do 2 eexists. split; [reflexivity|]. split.
  { split; [|split; [cbn; repeat constructor; cbn; intuition discriminate|cbn; repeat constructor; lia]].
    cbn. repeat first [apply scoped_var; cbn; tauto|apply scoped_local; cbn; tauto|constructor]. }
  split; [reflexivity|]. split; [constructor; [split; [cbn; lia|cbn; intuition discriminate]|constructor]|]. split; [reflexivity|]. split.
  - intro S. inversion S as [| | | | | | | | | | | | |? ? ? ? F _|]; subst. apply Forall_inv in F. cbn in F. inversion F as [| | |? ? ? ? F1 _| | | | | | | | | | |]; subst. inversion F1 as [|? ? ? ? I| | | | | | | | | | | | |]; subst. cbn in I. intuition discriminate.
  - intros k fuel L. destruct fuel as [|[|[|fuel]]]; try lia. reflexivity.
Qed.

(** (transparent-function (f a) (if (= a 0) 0 (f (- a 1)))) *)
Definition countdown : function := Function None [(0%nat, ty)] ty
  (EIf (op BIEq (var 0) (num 0)) (num 0) (call_of 0 ty [op BUSub (var 0) (num 1)])).
Lemma countdown_goes_on : forall fuel n a, (forall s, given s = [] -> realloc s a = Ret (s, a)) -> inline (one countdown) fuel n (call_of 0 ty [a]) = OutOfFuel.
Proof.
  intro fuel. induction fuel as [fuel IH] using lt_wf_ind. intros n a H. destruct fuel as [|fuel]; [reflexivity|]. cbn [inline call_of one Nat.eqb]. unfold call_transparent. cbn -[inline].
  rewrite H by reflexivity. cbn -[inline]. rewrite H by reflexivity. cbn -[inline]. destruct fuel as [|fuel]; [reflexivity|]. cbn [inline]. destruct fuel as [|fuel]; [reflexivity|].
  cbn [inline bind]. fold (inline (one countdown)). 
  change (match inline (one countdown) (S fuel) n (call_of 0 ty [op BUSub a (num 1)]) with Ret (n0, c0) => Ret (n0, EIf (op BIEq a (num 0)) (num 0) c0) | Panic => Panic | OutOfFuel => OutOfFuel end = OutOfFuel).
  rewrite IH; [reflexivity|lia|]. intros s G. cbn. rewrite H by exact G. reflexivity.
Qed.
Lemma countdown_ends : forall k h e a, ev prim equals (one countdown) h e a h (RsVal (VAtom (AInt (N.of_nat k)))) ->
  ev prim equals (one countdown) h e (call_of 0 ty [a]) h (RsVal (VAtom (AInt 0))).
Proof.
  intro k. induction k as [|k IH]; intros h e a H.
  - eapply ev_call with (r := RsVal (VAtom (AInt 0))); [eapply evs_cons; [eapply ev_op; [apply evs_nil|reflexivity]|eapply evs_cons; [exact H|apply evs_nil]]|eapply entered_fun; reflexivity| |reflexivity].
    cbn [f_body countdown]. apply ev_if with (h1 := h) (b := true); [|eapply ev_op; [apply evs_nil|reflexivity]].
    eapply ev_op; [eapply evs_cons; [constructor; reflexivity|eapply evs_cons; [eapply ev_op; [apply evs_nil|reflexivity]|apply evs_nil]]|reflexivity].
  - eapply ev_call with (r := RsVal (VAtom (AInt 0))); [eapply evs_cons; [eapply ev_op; [apply evs_nil|reflexivity]|eapply evs_cons; [exact H|apply evs_nil]]|eapply entered_fun; reflexivity| |reflexivity].
    cbn [f_body countdown]. apply ev_if with (h1 := h) (b := false).
    + eapply ev_op; [eapply evs_cons; [constructor; reflexivity|eapply evs_cons; [eapply ev_op; [apply evs_nil|reflexivity]|apply evs_nil]]|reflexivity].
    + apply IH. eapply ev_op; [eapply evs_cons; [constructor; reflexivity|eapply evs_cons; [eapply ev_op; [apply evs_nil|reflexivity]|apply evs_nil]]|].
      cbn [perform]. cbn -[N.sub N.of_nat]. replace (N.of_nat (S k) - 1)%N with (N.of_nat k) by lia. reflexivity.
Qed.
Lemma inlining_goes_on : exists prim equals funs g f n vars, f_env f = None /\ funs g = Some f /\ well_formed n f /\ simple (f_body f) /\ List.length vars = List.length (f_params f) /\
  Forall (fun a => fst a < n /\ ~ In (fst a) (bound f ++ defs (f_body f)))%nat vars /\
  (forall v h, ev prim equals funs h (combine (map fst vars) [VAtom (AInt v)]) (call_of g ty (variables vars)) h (RsVal (VAtom (AInt 0)))) /\
  forall fuel, inline funs fuel n (call_of g ty (variables vars)) = OutOfFuel.
Proof.
  exists prim, equals, (one countdown), 0%nat, countdown, 2%nat, [(1%nat, ty)]. split; [reflexivity|]. split; [reflexivity|]. split; [wf|]. split; [cbn; tauto|]. split; [reflexivity|].
  split; [constructor; [split; [cbn; lia|cbn; intuition discriminate]|constructor]|]. split.
  - intros v h. apply (countdown_ends (N.to_nat v)). constructor. rewrite N2Nat.id. reflexivity.
  - intro fuel. apply countdown_goes_on. intros s G. cbn. unfold id_of. rewrite G. reflexivity.
Qed.
