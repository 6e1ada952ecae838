(** Concrete programs for the preprocessor. *)
From Verif.Base Require Import Base BaseFacts.
From Verif.Lexer Require Import Model.
From Verif.Sexp Require Import Model.
From Verif.Preproc Require Import Model Spec Proofs ProofsExpand.

Definition at0 : srcloc := (location_new, location_new).
Definition sym (s : string) : sexp := Sexp at0 (RSymbol (t_ s)).
Definition num (n : N) : sexp := Sexp at0 (RInteger false n).
Definition lst (l : list sexp) : sexp := Sexp at0 (RList l).

(** [($let ([$a 1]) ($let1 $a 2 (f $a)) (g $a))] *)
Definition nested : sexp :=
  lst [sym "$let"; lst [lst [sym "$a"; num 1]]; lst [sym "$let1"; sym "$a"; num 2; lst [sym "f"; sym "$a"]]; lst [sym "g"; sym "$a"]].

Lemma distinct_intro s : (forall c, child c s -> distinct_binders c) ->
  (forall l l0 d l1 binds body, s = Sexp l (RList (Sexp l0 (RSymbol d) :: Sexp l1 (RList binds) :: body)) -> d = t_ "$let" \/ d = t_ "$for" -> NoDup (flat_map bound_name binds)) ->
  distinct_binders s.
Proof.
  intros Hc Hs l l0 d l1 binds body H Hd. apply sub_child in H. destruct H as [H|(c & Hcc & H)]; [eapply Hs; eauto|]. eapply Hc; eassumption.
Qed.

Lemma distinct_leaf s : (forall c, ~ child c s) -> distinct_binders s.
Proof.
  intros H. apply distinct_intro; [intros c Hc; destruct (H c Hc)|]. intros l l0 d l1 binds body -> _. exfalso. eapply H. left. reflexivity.
Qed.

Lemma nested_distinct : distinct_binders nested.
Proof.
  assert (Hsym : forall x, distinct_binders (sym x)) by (intros x; apply distinct_leaf; intros c []).
  assert (Hnum : forall x, distinct_binders (num x)) by (intros x; apply distinct_leaf; intros c []).
  assert (Hin : forall (P : sexp -> Prop) ss, Forall P ss -> forall c, In c ss -> P c) by (intros P ss H; apply Forall_forall, H).
  assert (Hcall : forall x ss, t_ x <> t_ "$let" -> t_ x <> t_ "$for" -> Forall distinct_binders ss -> distinct_binders (lst (sym x :: ss))).
  { intros x ss H1 H2 H. apply distinct_intro; [apply Hin; constructor; [apply Hsym|exact H]|]. intros l l0 d l1 binds body E Hd. injection E as _ _ <- _. destruct Hd; contradiction. }
  apply distinct_intro; [apply Hin; repeat constructor; try apply Hsym|].
  - apply distinct_intro; [apply Hin; repeat constructor|intros ? ? ? ? ? ? E; discriminate]. apply Hcall; try discriminate. repeat constructor; apply Hnum.
  - apply Hcall; try discriminate. constructor; [apply Hsym|]. constructor; [apply Hnum|]. constructor; [|constructor]. apply Hcall; try discriminate. constructor; [apply Hsym|constructor].
  - apply Hcall; try discriminate. constructor; [apply Hsym|constructor].
  - intros l l0 d l1 binds body E _. injection E as _ _ _ _ <- _. cbn. constructor; [intros []|constructor].
Qed.

Lemma nested_case : distinct_binders nested /\ run [] [nested] = Ok [lst [sym "f"; num 2]; lst [sym "g"; num 1]] /\
  run [] [nested; sym "$a"] = Err (UndefinedMetaVariable at0 (t_ "$a")).
Proof. split; [apply nested_distinct|]. split; vm_compute; reflexivity. Qed.

(** [($let ([$a 1] [$a 2])) $a] *)
Definition twice : list sexp := [lst [sym "$let"; lst [lst [sym "$a"; num 1]; lst [sym "$a"; num 2]]]; sym "$a"].
Lemma leak_case : exists ss out, run [] ss = Ok out /\ ~ exists out', expands_seq [] no_binds ss out'.
Proof.
  exists twice, [num 1]. split; [vm_compute; reflexivity|]. intros (out & H). unfold twice in H. inversion H as [|? ? ? ? ? _ H2]; subst.
  inversion H2 as [|? ? ? ? ? H3 _]; subst. inversion H3 as [? ? Ha| | | | | | | | | | | | |]; subst; [|discriminate].
  apply Ha. exists (t_ "a"). reflexivity.
Qed.

Lemma for_case : run [t_ "x"] [lst [sym "$when"; lst [sym "$feature"; Sexp at0 (RString (t_ "x"))];
    lst [sym "$for"; lst [sym "$n"; sym "_"]; lst [lst [num 1; num 2]; lst [num 3; num 4]]; lst [lst [sym "$symbol"; sym "a"; Sexp at0 (RChar 98)]; sym "$n"]]]]
  = Ok [lst [sym "ab"; num 1]; lst [sym "ab"; num 3]].
Proof. vm_compute. reflexivity. Qed.
