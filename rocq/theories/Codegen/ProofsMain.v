(** Whole programs. *)
From Coq Require Import ZArith Lia Permutation.
From Verif.Base Require Import Base.
From Verif.Ir Require Import Model RtInd.
From Verif.Layout Require Import Model Spec Proofs ProofsResolve.
From Verif.Frame Require Model.
From Verif.Frame Require Spec Proofs.
From Verif.Stack Require Import Machine Model Spec Facts Proofs ProofsValue ProofsMove.
From Verif.Codegen Require Import Model Machine Spec Facts ProofsGen ProofsFrame ProofsRun ProofsInv ProofsStatic ProofsEval ProofsSimple ProofsHeap ProofsAlloc ProofsEach ProofsEnv ProofsStruct ProofsJump ProofsCall ProofsCond ProofsLet ProofsCont ProofsFun Foreign ProofsCArgs ProofsForeign ProofsBinary ProofsBuiltin.
Local Open Scope Z_scope.


Scheme eval_mut := Minimality for eval Sort Prop with evals_mut := Minimality for evals Sort Prop with fill_mut := Minimality for fill Sort Prop
  with lets_mut := Minimality for lets Sort Prop with apply_mut := Minimality for apply Sort Prop.

Section Program.
Variable M : machine.
Variable r : resolver.
Variable known : nat -> bool.
Variable start : Z.
Variable functions : nat -> option Frame.Model.function.
Hypothesis layouts_ok : reached r.
Hypothesis alloc_ok : allocator M.
Hypothesis addresses_ok : addresses M.
Variable c_means : Z -> list (layout * val) -> layout -> world (memo M) -> world (memo M) -> val -> Prop.
Hypothesis foreign_ok : c_functions M start c_means.
Hypothesis start_ok : 0 <= start <= 2 ^ 64.
Hypothesis compiled : forall id f, functions id = Some f -> Frame.Model.f_kind f = Frame.Model.Standard ->
  function_code r known f = Ret (code_of M id) /\ NoDup (map fst (Frame.Spec.bound f)) /\ fine (balanced r) [] (Frame.Model.f_body f).

Lemma labels_insts is : labels (map I is) = [].
Proof. clear. induction is as [|i is IH]; [reflexivity | exact IH]. Qed.

Lemma setting_of id f b : functions id = Some f -> Frame.Model.f_kind f = Frame.Model.Standard -> b mod 16 = 0 -> b + 16 <= start -> setting M r start id b.
Proof.
  intros Hf Hk Hb Hs. destruct (compiled id f Hf Hk) as (Hc & _ & Fi). destruct (function_parts r known f _ Hc Hk) as (fr & ret & se & body & og & g' & de & Pt & Ec).
  pose proof (p_body _ _ _ _ _ _ _ _ _ _ Pt) as Hb'. pose proof (fun i => gen_sound r known (Frame.Model.offsets fr) (balanced r) (Frame.Model.f_body f) [] _ Fi i _ _ _ Hb') as St.
  specialize (St (incl_nil_l _)).
  assert (Nd : NoDup (labels (code_of M id))).
  { rewrite Ec, !labels_app, !labels_insts. cbn [app labels]. 
    assert (E : labels body ++ 0%nat :: [] = labels body ++ [0%nat]) by reflexivity.
    apply nodup_app; [exact (st_nodup _ _ _ St) | repeat constructor; intros [] |]. intros n H1 [<-|[]]. pose proof (st_labels _ _ _ St 0%nat H1) as B. cbn in B. lia. }
  split; try assumption.
  { rewrite Ec, !app_assoc. eexists. reflexivity. }
  pose proof (code_at_label M id (List.length (map I ([Push Rbp; Movq Rbp Rsp] ++ fst (extend_stack (reserve fr)) ++ save_ret ret ++ se) ++ body)) 0 (map I (de ++ [Movq Rsp Rbp; Pop Rbp]) ++ [Retq])) as L.
  eexists. apply L; [|exact Nd]. exists (map I ([Push Rbp; Movq Rbp Rsp] ++ fst (extend_stack (reserve fr)) ++ save_ret ret ++ se) ++ body), []. split; [|reflexivity].
  rewrite Ec, app_nil_r, <- app_assoc. reflexivity.
Qed.

Notation Peval := (fun G ks x w w' o => forall F b offs, setting M r start F b -> Peval M r start F b offs known G ks x w w' o).
Notation Pevals := (fun G ks es w w' vs o => forall F b offs, setting M r start F b -> Evs M r known start F b offs G ks es w w' vs o).
Notation Pfill := (fun G ks p es w w' o => forall F b offs, setting M r start F b -> Fill M r known start F b offs G ks p es w w' o).
Notation Plets := (fun G ks vs w w' x => forall F b offs, setting M r start F b -> Lets M r known start F b offs G ks vs w w' x).

Lemma applied id f ev ls vs G (w w' : world (memo M)) l v o : functions id = Some f -> Frame.Model.f_kind f = Frame.Model.Standard ->
  Forall2 (fun p l => get r (snd p) = Ret l) (Frame.Model.f_params f) ls -> Forall2 (fun l (v : val) => List.length v = size_nat l) ls vs ->
  environment M r f w ev G -> get r (Frame.Model.f_ret f) = Ret l ->
  Peval (G ++ combine (map fst (Frame.Model.f_params f)) vs) [] (Frame.Model.f_body f) w w' o -> o = OVal l v \/ o = ORet l v ->
  Papply M start id ev ls vs w w' l v.
Proof.
  intros Hf Hk Ht Hn He Hl Pe Ho. split; [exact (reached_good _ layouts_ok _ _ Hl)|].
  destruct (compiled id f Hf Hk) as (Hc & Nd & Fi). destruct (function_parts r known f _ Hc Hk) as (fr & ret & se & body & og & g' & de & Pt & Ec).
  split; [apply addresses_ok; rewrite Ec; cbn; lia|].
  intros f0 p0 s top Al Ra Ap Ha -> Be No Hh Hb Hi Hd.
  pose proof (args_room_nonneg (combine ls vs)) as An.
  assert (X : setting M r start id (gp s Rsp - 8)). { apply (setting_of id f); [exact Hf | exact Hk | Z.to_euclidean_division_equations; lia | lia]. }
  destruct (frame_is r known id (Frame.Model.offsets fr) f fr ret (p_frame _ _ _ _ _ _ _ _ _ _ Pt) Hk eq_refl Nd) as (n & Fr).
  eapply (run_function M r known start id (gp s Rsp - 8) (Frame.Model.offsets fr) X f fr ret (p_frame _ _ _ _ _ _ _ _ _ _ Pt) eq_refl Nd n Fr); try eassumption.
  - apply Pe, X.
  - reflexivity.
  - intros Em. destruct (Hd Em) as (H1 & H2 & H3). split; [lia|]. split; assumption.
Qed.

Lemma applies id ev ls vs w w' l v : apply r functions (fun f => address M f 0) start (memo M) (alloc M) (symbol M) c_means id ev ls vs w w' l v -> Papply M start id ev ls vs w w' l v.
Proof.
  apply (apply_mut r functions (fun f => address M f 0) start (memo M) (alloc M) (symbol M) c_means Peval Pevals Pfill Plets (Papply M start)); intros; cbn beta in *.
  - eapply ev_first; eauto.
  - destruct x; cbn in H; try discriminate; injection H as <-; [eapply ev_call_stop | eapply ev_seq_stop]; eauto.
  - eapply ev_var; eauto.
  - eapply ev_fun; eauto.
  - eapply ev_fun_env; eauto.
  - eapply ev_const; eauto.
  - eapply ev_call; eauto.
  - eapply ev_call_c; eauto.
  - eapply ev_call_c_abrupt; eauto.
  - eapply ev_call_c_never; eauto.
  - eapply ev_call_addr; eauto.
  - eapply ev_call_addr_abrupt; eauto.
  - eapply ev_call_addr_never; eauto.
  - eapply ev_jump; eauto.
  - eapply ev_jump_abrupt; eauto.
  - eapply ev_nullary; eauto.
  - eapply ev_unary; eauto.
  - eapply ev_binary; eauto.
  - eapply ev_binary_second; eauto.
  - eapply ev_genid; eauto.
  - eapply ev_unary_c; eauto.
  - eapply ev_binary_c; eauto.
  - eapply ev_string; eauto.
  - eapply ev_array_store; eauto.
  - eapply ev_copy; eauto.
  - eapply ev_ternary_second; eauto.
  - eapply ev_ternary_third; eauto.
  - eapply ev_alloc_array; eauto.
  - eapply ev_alloc; eauto.
  - eapply ev_alloc_abrupt; eauto.
  - eapply ev_alloc_never; eauto.
  - eapply ev_env; eauto.
  - eapply ev_env_abrupt; eauto.
  - eapply ev_env_never; eauto.
  - eapply ev_struct; eauto.
  - eapply ev_struct_abrupt; eauto.
  - eapply ev_seq; eauto.
  - eapply ev_if; eauto.
  - eapply ev_while_cond; eauto.
  - eapply ev_while_end; eauto.
  - eapply ev_while_body; eauto.
  - eapply ev_while_again; eauto.
  - eapply ev_return; eauto.
  - eapply ev_let; eauto.
  - eapply ev_let_abrupt; eauto.
  - eapply ev_scope; eauto.
  - eapply ev_cont; eauto.
  - apply Evs_nil.
  - apply Evs_stop; auto.
  - eapply Evs_cons; eauto.
  - apply Fill_nil.
  - apply Fill_stop; auto.
  - eapply Fill_cons; eauto.
  - apply Lets_nil.
  - apply Lets_stop; auto.
  - eapply Lets_cons; eauto.
  - eapply applied; eauto.
Qed.
End Program.
