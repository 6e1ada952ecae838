(** The statement of Properties.v follows from that of ProofsMain.v. *)
From Coq Require Import ZArith Lia Permutation.
From Verif.Base Require Import Base.
From Verif.Ir Require Import Model RtInd.
From Verif.Layout Require Import Model Spec Proofs ProofsResolve.
From Verif.Frame Require Model.
From Verif.Frame Require Spec Proofs.
From Verif.Stack Require Import Machine Model Spec Facts Proofs ProofsValue ProofsMove.
From Verif.Codegen Require Import Model Machine Spec Facts ProofsGen ProofsFrame ProofsRun ProofsInv ProofsStatic ProofsEval ProofsCall ProofsFun ProofsMain. From Verif.Codegen Require Convention Foreign.
Local Open Scope Z_scope.


Lemma rooms_args ls : forall vs, List.length vs = List.length ls -> args_room (combine ls vs) = Foreign.rooms ls.
Proof. induction ls as [|l ls IH]; intros [|v vs] L; try discriminate L; cbn; [reflexivity|]. rewrite IH by (cbn in L; lia). reflexivity. Qed.
Lemma args_of mm ls : forall vs a, List.length vs = List.length ls ->
  (forall i l v, nth_error ls i = Some l -> nth_error vs i = Some v -> Foreign.bytes_at mm (a + Foreign.rooms (skipn (Datatypes.S i) ls)) v) ->
  args_hold mm a (rev (combine ls vs)).
Proof.
  induction ls as [|l ls IH]; intros [|v vs] a L H; try discriminate L; cbn [combine rev]; [exact Logic.I|]. apply args_hold_app. split.
  - apply IH; [cbn in L; lia|]. intros i l0 v0 Hl Hv. exact (H (Datatypes.S i) l0 v0 Hl Hv).
  - rewrite args_room_rev, rooms_args by (cbn in L; lia). cbn [args_hold]. split; [|exact Logic.I]. exact (H 0%nat l v eq_refl eq_refl).
Qed.

Lemma compiled_call M r known start functions c_means : Convention.compiled M r known start functions c_means ->
  forall id ev ls vs w w' l v, apply r functions (fun f => address M f 0) start (memo M) (alloc M) (symbol M) c_means id ev ls vs w w' l v ->
  forall f0 p0 s, Convention.called M start ev ls vs l (snd w) f0 p0 s ->
  leads M (fun c => al c = fst w' /\ Convention.returned M start l v (snd w') f0 p0 s c) (Config id 0 s (fst w)).
Proof.
  intros [[K1 K2 K3 Kf K4 K5'] Kn] id ev ls vs w w' l v A f0 p0 s [N1 [N2 N2'] N3 N4 N5 N6 N7 N8].
  assert (K5 : forall id f, functions id = Some f -> Frame.Model.f_kind f = Frame.Model.Standard ->
    function_code r known f = Ret (code_of M id) /\ NoDup (map fst (Frame.Spec.bound f)) /\ fine (balanced r) [] (Frame.Model.f_body f)).
  { intros id0 f Hf Hk. destruct (K5' id0 f Hf Hk) as [H1 H2]. split; [exact H1|]. split; [exact H2|]. exact (Kn id0 f Hf Hk). }
  assert (Lv : List.length vs = List.length ls).
  { destruct A as [? ? ? ls vs ? ? ? ? ? ? _ _ _ Hn _ _ _ _]. clear -Hn. induction Hn; cbn; lia. }
  destruct (applies M r known start functions K1 K2 K3 c_means Kf K4 K5 _ _ _ _ _ _ _ _ A) as (Gl & _ & P).
  eapply leads_trans; [apply (P f0 p0 s (gp s Rsp + 8 + Foreign.rooms ls))|].
  12: { intros c (s' & -> & Rs & Re & _ & Hh & Gv & Mk). apply leads_here. split; [reflexivity|]. split; cbn [fn pc st]; try assumption.
    + split; reflexivity.
    + unfold gives, Foreign.delivered in *. destruct (cls l) eqn:E; try exact Gv; destruct Gv as (bs & (Lb & Vb) & Hv); (split; [|exists bs; split; [exact Vb | exact Hv]]);
        destruct Hv as [Hl _]; unfold length_of in *; congruence.
    + intros a Ha Na. apply Mk; [exact Ha|]. unfold into. destruct (cls l); tauto. }
  - Z.to_euclidean_division_equations; lia.
  - exact N2.
  - exact N2'.
  - apply args_of; assumption.
  - rewrite rooms_args by exact Lv. reflexivity.
  - exact N6.
  - intros x Nx. apply N8. destruct x; discriminate.
  - exact N7.
  - apply N8. discriminate.
  - exact N4.
  - intros Em. destruct (N5 Em) as [B1 B2]. split; [exact B1|]. split; [apply N8; discriminate | exact B2].
Qed.
