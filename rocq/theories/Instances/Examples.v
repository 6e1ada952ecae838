(** Concrete programs. Type constructors: 0 [I32], 1 [List], 2 [Bool]. Classes: 0 [(Eq A)]; 1 [(Ord A)]
    with [(Eq A)] above it; 2 [(C A B D)]; 3 [(Loop A)] with itself above it. *)
From Verif.Base Require Import Base BaseFacts VecFacts.
From Verif.Types Require Import Model Spec Proofs.
From Verif.Instances Require Import Model Spec.

Ltac compute_conv :=
  exists 60%nat; let m := fresh "m" in let Hm := fresh "Hm" in
  intros m Hm; do 60 (destruct m as [|m]; [exfalso; lia|]); clear Hm; vm_compute; reflexivity.

Definition xenv : kind_env := {| con_kind := fun c => if (c =? 1)%N then AFun [AType] AType else AType; gen_kind := fun _ => AType |}.

Definition i32 := YCon 0%N.
Definition list_con := YCon 1%N.
Definition bool := YCon 2%N.
Definition gen_ (g : N) := YGen g top.
Definition list_of (st : context) (t : ty) : ty * context := new_app st list_con [t].

(** [(List A)] for the parameters 2, 3 of instances, for [I32], for [Bool], for the parameter 4 in
    scope and for its lists; two variables. *)
Definition x : ty := YGen 4%N 1%N.
Definition la := list_of new_context (gen_ 2%N).
Definition lb := list_of (snd la) (gen_ 3%N).
Definition li := list_of (snd lb) i32.
Definition lbool := list_of (snd li) bool.
Definition lx := list_of (snd lbool) x.
Definition llx := list_of (snd lx) (fst lx).
Definition v0 := new_var (snd llx) AType 1%N.
Definition v1 := new_var (snd v0) AType 1%N.
Definition xpool : context := Eval vm_compute in snd v1.
Definition xts : list ty :=
  [fst v1; fst v0; fst llx; fst lx; fst lbool; fst li; fst lb; fst la; x; bool; list_con; i32;
   gen_ 0%N; gen_ 1%N; gen_ 2%N; gen_ 3%N; gen_ 5%N; gen_ 6%N; gen_ 7%N; gen_ 8%N; gen_ 9%N].

Ltac app pool arg := eapply (r_app xenv pool _ list_con [arg] [AType] AType pool); [|cbn; tauto|intros ? [<-|[]]; cbn; tauto|right; compute_conv|reflexivity].
Lemma xreach : reachable xenv xpool xts.
Proof.
  unfold xts. eapply (r_var xenv (snd v0) _ AType 1%N); [|reflexivity]. eapply (r_var xenv (snd llx) _ AType 1%N); [|reflexivity].
  app (snd lx) (fst lx). app (snd lbool) x. app (snd li) bool. app (snd lb) i32. app (snd la) (gen_ 3%N). app new_context (gen_ 2%N).
  apply r_gen. do 3 apply r_con. do 9 apply r_gen. apply r_new.
Qed.

Definition con_ (id cl : N) (args : list ty) : constr := {| c_id := id; c_class := cl; c_args := args |}.

Definition xclasses (cl : N) : class_con :=
  match cl with
  | 0 => {| k_params := [0]; k_supers := [] |}
  | 1 => {| k_params := [1]; k_supers := [con_ 100 0 [gen_ 1]] |}
  | 2 => {| k_params := [5; 6; 7]; k_supers := [] |}
  | _ => {| k_params := []; k_supers := [] |}
  end%N.

(** 10 [(Eq I32)]; 11 [(Eq (List A))] from [(Eq A)]; 12 [(Ord I32)]; 13 [(Ord (List A))] from [(Ord A)];
    14 [(Eq (List I32))]; 20 [(C A A I32)]. *)
Definition xinstances (i : N) : inst_con :=
  match i with
  | 10 => {| i_params := []; i_s_params := []; i_target := con_ 110 0 [i32] |}
  | 11 => {| i_params := [2]; i_s_params := [con_ 211 0 [gen_ 2]]; i_target := con_ 111 0 [fst la] |}
  | 12 => {| i_params := []; i_s_params := []; i_target := con_ 112 1 [i32] |}
  | 13 => {| i_params := [3]; i_s_params := [con_ 213 1 [gen_ 3]]; i_target := con_ 113 1 [fst lb] |}
  | 14 => {| i_params := []; i_s_params := []; i_target := con_ 114 0 [fst li] |}
  | 20 => {| i_params := [8]; i_s_params := []; i_target := con_ 120 2 [gen_ 8; gen_ 8; i32] |}
  | _ => {| i_params := []; i_s_params := []; i_target := con_ 0 4 [] |}
  end%N.

Definition xdecls (eqs : list N) : decls := {|
  classes := xclasses;
  instances := xinstances;
  available := fun cl => match cl with 0 => eqs | 1 => [12; 13] | 2 => [20] | _ => [] end%N;
  module_of := fun _ => 0%N;
  here := 0%N |}.

Lemma bound s v t : equations xpool s -> nth_error xpool v = Some t -> s v = interp s t.
Proof. intros Hs H. exact (Hs v t H). Qed.

Ltac stand := let s := fresh "s" in let Hs := fresh "Hs" in intros s Hs; cbn;
  repeat (match goal with |- context [s ?v] => rewrite (bound s v _ Hs eq_refl); cbn end); try reflexivity.
Ltac kinded := repeat (first [constructor | (eexists; compute_conv)]).
Ltac okc := split; [intros ? H; cbn in H; decompose [or] H; subst; cbn; tauto|cbn; repeat (constructor; [eexists; compute_conv|]); constructor].
Ltac known_term := eexists; split; [|stand].
Ltac dc := split; [okc|cbn; repeat (constructor; [eexists; split; [|stand]; intros ? H; cbn in H; decompose [or] H; subst; cbn; tauto|]); constructor].
Ltac nodup := repeat (constructor; [cbn; intuition discriminate|]); constructor.

Lemma xdeclared eqs : (forall i, In i eqs -> c_class (i_target (xinstances i)) = 0%N) -> declared xenv xpool xts (xdecls eqs).
Proof.
  intros He. split; [|split].
  - intros cl. assert (C : cl = 0%N \/ cl = 1%N \/ cl = 2%N \/ xclasses cl = {| k_params := []; k_supers := [] |}).
    { destruct cl as [|[[]|[]|]]; cbn; auto. }
    destruct C as [->|[->|[->|E]]]; [| | |cbn [classes xdecls]; rewrite E]; (split; [nodup|]); cbn; repeat (constructor; [dc|]); constructor.
  - intros i. assert (C : In i [10; 11; 12; 13; 14; 20]%N \/ xinstances i = {| i_params := []; i_s_params := []; i_target := con_ 0 4 [] |}).
    { destruct i as [|p]; [right; reflexivity|]. do 5 (destruct p as [p|p|]; try (right; reflexivity); try (left; cbn; tauto)). }
    destruct C as [C|E]; [cbn in C; decompose [or] C; subst; try contradiction|cbn [instances xdecls]; rewrite E];
      (split; [nodup|]); (split; [dc|]); cbn; repeat (constructor; [dc|]); constructor.
  - intros cl i Hi. cbn in Hi. destruct cl as [|[[]|[]|]]; cbn in Hi; try contradiction; [apply He, Hi| |];
      decompose [or] Hi; subst; try contradiction; reflexivity.
Qed.

Lemma xwell_founded eqs : well_founded_classes (xdecls eqs).
Proof.
  exists (fun cl => match cl with 1%N => 1%nat | _ => 0%nat end). intros cl c Hc. cbn in Hc. destruct cl as [|[[]|[]|]]; cbn in Hc; try contradiction.
  destruct Hc as [<-|[]]. cbn. lia.
Qed.

Definition eqs : list N := [10; 11]%N.
Lemma eqs_ok : forall i, In i eqs -> c_class (i_target (xinstances i)) = 0%N.
Proof. intros i [<-|[<-|[]]]; reflexivity. Qed.

(** [(Ord x)] assumed. *)
Definition xassumed : list constr := [con_ 300 1 [x]]%N.
Lemma xassumed_ok l : Forall (constraint_ok xenv xpool xts (xdecls l)) xassumed.
Proof. constructor; [okc|constructor]. Qed.
Lemma xassumed_known : Forall (known xpool) xassumed.
Proof.
  constructor; [|constructor]. constructor; [|constructor]. eexists. split; [stand|]. split.
  - intros n k lv H. cbn in H. destruct H as [H|[]]; discriminate.
  - intros y [<-|[]]. vm_compute. discriminate.
Qed.

(** What is above it: [(Eq x)]. *)
Example premise_example : exists n, install_all (xdecls eqs) n (xpool, []) xassumed =
  Ret (xpool, [{| e_class := 0; e_id := 300; e_path := [100]; e_args := [x] |}; {| e_class := 1; e_id := 300; e_path := []; e_args := [x] |}])%N.
Proof. exists 10%nat. vm_compute. reflexivity. Qed.

(** [(Eq (List (List x)))] is had twice from the instance for lists and then from the class above what
    is assumed. *)
Example evidence_example :
  (reachable xenv xpool xts /\ declared xenv xpool xts (xdecls eqs) /\ well_founded_classes (xdecls eqs) /\
   Forall (constraint_ok xenv xpool xts (xdecls eqs)) xassumed /\ constraint_ok xenv xpool xts (xdecls eqs) (con_ 301 0 [fst llx])%N) /\
  exists n pr st t1 t2, install_all (xdecls eqs) n (xpool, []) xassumed = Ret (xpool, pr) /\
    build (xdecls eqs) xenv pr n (xpool, []) (con_ 301 0 [fst llx])%N 0 = Ret (st, Yes (ByInstance 11 [t1] [ByInstance 11 [t2] [ByPremise 300 [100]]]))%N.
Proof.
  split.
  - split; [exact xreach|]. split; [apply xdeclared, eqs_ok|]. split; [apply xwell_founded|]. split; [apply xassumed_ok|okc].
  - exists 40%nat. eexists _, _, _, _. split; [vm_compute; reflexivity|vm_compute; reflexivity].
Qed.

(** [(Eq (List Bool))] has no evidence. *)
Example no_evidence_example :
  (others_apart xenv xpool (xdecls eqs) /\ parameters_used xpool (xdecls eqs) /\ Forall (known xpool) xassumed /\ known xpool (con_ 302 0 [fst lbool])%N /\
   constraint_ok xenv xpool xts (xdecls eqs) (con_ 302 0 [fst lbool])%N) /\
  exists n pr st, install_all (xdecls eqs) n (xpool, []) xassumed = Ret (xpool, pr) /\
    build (xdecls eqs) xenv pr n (xpool, []) (con_ 302 0 [fst lbool])%N 0 = Ret (st, No NoMatchingInstances).
Proof.
  split.
  - split; [|split; [|split; [exact xassumed_known|split; [|okc]]]].
    + intros cl i j _ _ _ (_ & H). cbn in H. contradiction.
    + intros i g Hg. assert (C : In i [11; 13; 20]%N \/ i_params (xinstances i) = []).
      { destruct i as [|p]; [right; reflexivity|]. do 5 (destruct p as [p|p|]; try (right; reflexivity); try (left; cbn; tauto)). }
      destruct C as [C|E]; [|cbn [instances xdecls] in Hg; rewrite E in Hg; destruct Hg].
      cbn in C. destruct C as [<-|[<-|[<-|[]]]]; destruct Hg as [<-|[]]; (eexists; split; [left; reflexivity|]); intros s Hs; exists top;
        cbn; repeat (match goal with |- context [s ?v] => rewrite (bound s v _ Hs eq_refl); cbn end); tauto.
    + constructor; [|constructor]. eexists. split; [stand|]. split.
      * intros n k lv H. cbn in H. destruct H as [H|[H|[]]]; discriminate.
      * intros y [<-|[<-|[]]]; exact I.
  - exists 40%nat. eexists _, _. split; [vm_compute; reflexivity|vm_compute; reflexivity].
Qed.

(** With [(Eq (List I32))] too, the search for [(Eq I32)] finds the overlap. *)
Example overlap_example :
  (declared xenv xpool xts (xdecls [10; 11; 14]%N) /\ NoDup [10; 11; 14]%N) /\
  exists n st, build (xdecls [10; 11; 14]%N) xenv [] n (xpool, []) (con_ 303 0 [i32])%N 0 = Ret (st, No OverlappingInstances).
Proof.
  split; [split; [apply xdeclared; intros i [<-|[<-|[<-|[]]]]; reflexivity|nodup]|]. exists 40%nat. eexists. vm_compute. reflexivity.
Qed.

Example overlap_check_example : exists n st, ensure_overlap_checked (xdecls eqs) xenv n (xpool, []) 0%N = Ret (st, Ok).
Proof. exists 40%nat. eexists. vm_compute. reflexivity. Qed.

(** [(Ord (List A))] needs [(Eq (List A))], had from [(Ord A)]. *)
Example superclass_example : exists n st t,
  instance_satisfaction (xdecls eqs) xenv n (xpool, []) 13%N = Ret (st, Yes [ByInstance 11 [t] [ByPremise 213 [100]]])%N.
Proof. exists 40%nat. eexists _, _. vm_compute. reflexivity. Qed.

(** Three classes above each other in a circle, and three in a line. *)
Example hierarchy_example :
  verify_classes_hierarchy [(0, [1; 7]); (1, [2]); (2, [0]); (3, [0])]%N = Ret (Err [0; 1; 2]%N) /\
  verify_classes_hierarchy [(0, [1; 7]); (1, [2]); (2, []); (3, [0])]%N = Ret Ok.
Proof. split; vm_compute; reflexivity. Qed.

(** The classes of these programs, as one module. *)
Example well_founded_example : let cs := [(0, []); (1, [0]); (2, [])]%N in
  NoDup (map fst cs) /\ (forall c ss, In (c, ss) cs -> ss = map c_class (k_supers (classes (xdecls eqs) c))) /\
  verify_classes_hierarchy cs = Ret Ok /\ (forall c, ~ superclass cs c c) /\
  exists rank : N -> nat, forall cl c, ~ In cl (map fst cs) -> In c (k_supers (classes (xdecls eqs) cl)) ->
    ~ In (c_class c) (map fst cs) /\ (rank (c_class c) < rank cl)%nat.
Proof.
  cbv zeta. split; [nodup|]. split; [|split; [vm_compute; reflexivity|split]].
  - intros c ss [H|[H|[H|[]]]]; injection H as <- <-; reflexivity.
  - intros c (ss & [H|[H|[H|[]]]] & Hc); injection H as <- <-; cbn in Hc; intuition discriminate.
  - exists (fun _ => O). intros cl c Hcl Hc. exfalso. apply Hcl. destruct cl as [|[[]|[]|]]; cbn in *; tauto.
Qed.

(** No two instances overlap, and [(Eq (List (List x)))] follows by evidence nested 3 deep. *)
Example evidence_found_example :
  known xpool (con_ 301 0 [fst llx])%N /\ (forall cl, NoDup (available (xdecls eqs) cl)) /\
  (forall cl i j, In i (available (xdecls eqs) cl) -> In j (available (xdecls eqs) cl) -> i <> j -> apart xenv xpool (xdecls eqs) i j) /\
  forall s, equations xpool s -> holds_within xenv (xdecls eqs) s xassumed 3 0%N (map (interp s) [fst llx]).
Proof.
  assert (L : forall s, equations xpool s -> interp s (fst la) = TApp (TCon 1%N) [TGen 2%N top]) by stand.
  assert (LB : forall s, equations xpool s -> interp s (fst lb) = TApp (TCon 1%N) [TGen 3%N top]) by stand.
  split; [|split; [|split]].
  - constructor; [|constructor]. eexists. split; [stand|]. split.
    + intros n k lv H. cbn in H. destruct H as [H|[H|[H|[]]]]; discriminate.
    + intros y [<-|[<-|[<-|[]]]]; try exact I. vm_compute. discriminate.
  - intros cl. cbn. destruct cl as [|[[]|[]|]]; nodup.
  - intros cl i j Hi Hj Hne s Hs tys tys' K K' E.
    assert (C : (In i eqs /\ In j eqs) \/ (In i [12; 13]%N /\ In j [12; 13]%N)).
    { destruct cl as [|[[]|[]|]]; cbn in Hi, Hj; try contradiction; cbn; try tauto. exfalso. apply Hne. intuition congruence. }
    cbn in C. destruct C as [([<-|[<-|[]]] & [<-|[<-|[]]])|([<-|[<-|[]]] & [<-|[<-|[]]])]; try (exfalso; apply Hne; reflexivity);
      unfold gives in E; cbn [instances xdecls xinstances i_target i_params c_args con_ map] in E; rewrite ?(L s Hs), ?(LB s Hs) in E; discriminate.
  - intros s Hs. assert (E : interp s (fst llx) = TApp (TCon 1%N) [TApp (TCon 1%N) [TGen 4%N 1%N]]) by (revert s Hs; stand).
    cbn [map]. rewrite E. eapply (within_instance _ _ _ _ _ 11%N [TApp (TCon 1%N) [TGen 4%N 1%N]]).
    + right. left. reflexivity.
    + constructor; [reflexivity|constructor].
    + cbn [instances xdecls xinstances i_target i_params c_args con_ map]. rewrite (L s Hs). reflexivity.
    + constructor; [|constructor]. eapply (within_instance _ _ _ _ _ 11%N [TGen 4%N 1%N]).
      * right. left. reflexivity.
      * constructor; [reflexivity|constructor].
      * cbn [instances xdecls xinstances i_target i_params c_args con_ map]. rewrite (L s Hs). reflexivity.
      * constructor; [|constructor]. eapply within_premise; [left; reflexivity| |reflexivity]. eapply leads_up; [left; reflexivity|]. apply leads_here.
Qed.
