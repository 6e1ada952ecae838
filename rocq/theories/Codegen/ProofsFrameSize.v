(** The room a call takes on the stack. *)
From Coq Require Import ZArith Lia Permutation.
From Verif.Base Require Import Base.
From Verif.Ir Require Import Model RtInd.
From Verif.Layout Require Import Model Spec Proofs ProofsResolve.
From Verif.Frame Require Model.
From Verif.Frame Require Spec Proofs ProofsFun.
From Verif.Stack Require Import Machine Model Spec Facts Proofs ProofsValue ProofsMove.
From Verif.Codegen Require Import Model Machine Spec Facts ProofsGen ProofsFrame ProofsRun ProofsInv ProofsStatic ProofsEval ProofsCall ProofsTop ProofsCArgs ProofsForeign Foreign.
Local Open Scope Z_scope.


Lemma frame_sizes ls l d : good l -> let fr := new_frame ls l d in
  8 * stack_args fr = Foreign.rooms ls /\ 8 * ret_words fr = taken l /\ 0 <= padding fr <= 1 /\
  room (padding_before_stack_args fr) = taken l + 8 * padding fr /\ room (remnants_after_call fr) = Foreign.rooms ls + 8 * padding fr /\
  (d + ret_words fr + stack_args fr + padding fr) mod 2 = 0.
Proof.
  intros Gl fr. assert (L : List.length (map (fun _ : layout => [] : val) ls) = List.length ls) by apply map_length.
  pose proof (frame_room ls _ l d L Gl) as H. cbv zeta in H. fold fr in H. rewrite (rooms_args ls _ L) in H. exact H.
Qed.

Lemma call_aligned r ts t ls l base d : reached r -> Forall2 (fun t l => get r t = Ret l) ts ls -> get r t = Ret l ->
  base mod 16 = 0 -> (base - 8 * d - room (padding_before_stack_args (new_frame ls l d)) - Foreign.rooms ls) mod 16 = 0.
Proof.
  intros R _ Hl Hb. destruct (frame_sizes ls l d (reached_good _ R _ _ Hl)) as (A & W & P & Pb & _ & E). cbv zeta in *.
  set (fr := new_frame ls l d) in *. rewrite Pb. clearbody fr. Z.to_euclidean_division_equations; lia.
Qed.
Lemma call_result r t ls l d : reached r -> get r t = Ret l ->
  let fr := new_frame ls l d in
  match offset_to_ret_destination fr with
  | Some o => cls l = Memory /\ Foreign.rooms ls <= o /\ o + room l = Foreign.rooms ls + room (padding_before_stack_args fr)
  | None => cls l <> Memory
  end.
Proof.
  intros R Hl fr. pose proof (reached_good _ R _ _ Hl) as Gl. destruct (frame_sizes ls l d Gl) as (A & W & P & Pb & _ & E). fold fr in A, W, P, Pb, E.
  unfold offset_to_ret_destination, taken in *. destruct (Z.eqb_spec (ret_words fr) 0) as [Z0|Z0].
  - intros Em. rewrite Em in W. pose proof (memory_room l Gl Em). lia.
  - destruct (cls l); try lia. split; [reflexivity|]. lia.
Qed.
Lemma call_left r t ls l d : reached r -> get r t = Ret l ->
  let fr := new_frame ls l d in
  room (remnants_after_call fr) = Foreign.rooms ls + room (padding_before_stack_args fr) - match cls l with Memory => room l | _ => 0 end.
Proof.
  intros R Hl fr. destruct (frame_sizes ls l d (reached_good _ R _ _ Hl)) as (A & W & P & Pb & Q & E). fold fr in A, W, P, Pb, Q, E. unfold taken in *. lia.
Qed.

(** ** C functions *)
Lemma layouts_good r ts ls : reached r -> Forall2 (fun t l => get r t = Ret l) ts ls -> Forall good ls.
Proof. intros R. induction 1 as [|t l ts ls H _ IH]; constructor; [exact (reached_good _ R _ _ H) | exact IH]. Qed.
Lemma c_aligned r ts t ls l base d : reached r -> Forall2 (fun t l => get r t = Ret l) ts ls -> get r t = Ret l ->
  base mod 16 = 0 -> (base - 8 * d - room (padding_before_stack_args (c_frame (c_args ls l) l d)) - on_stack l ls) mod 16 = 0.
Proof.
  intros R Ht Hl Hb. destruct (c_frame_room ls l d (layouts_good _ _ _ R Ht) (reached_good _ R _ _ Hl)) as (A & W & P & Pb & _ & E). cbv zeta in *.
  set (fr := c_frame (c_args ls l) l d) in *. rewrite Pb. clearbody fr. Z.to_euclidean_division_equations; lia.
Qed.
Lemma c_result r ts t ls l d : reached r -> Forall2 (fun t l => get r t = Ret l) ts ls -> get r t = Ret l ->
  let fr := c_frame (c_args ls l) l d in
  match offset_to_ret_destination fr with
  | Some o => cls l = Memory /\ on_stack l ls <= o /\ o + room l = on_stack l ls + room (padding_before_stack_args fr)
  | None => cls l <> Memory
  end.
Proof.
  intros R Ht Hl fr. pose proof (reached_good _ R _ _ Hl) as Gl. destruct (c_frame_room ls l d (layouts_good _ _ _ R Ht) Gl) as (A & W & P & Pb & _ & E). fold fr in A, W, P, Pb, E.
  unfold offset_to_ret_destination, taken in *. destruct (Z.eqb_spec (ret_words fr) 0) as [Z0|Z0].
  - intros Em. rewrite Em in W. pose proof (memory_room l Gl Em). lia.
  - destruct (cls l); try lia. split; [reflexivity|]. lia.
Qed.
Lemma c_left r ts t ls l d : reached r -> Forall2 (fun t l => get r t = Ret l) ts ls -> get r t = Ret l ->
  let fr := c_frame (c_args ls l) l d in
  room (remnants_after_call fr) = on_stack l ls + room (padding_before_stack_args fr) - match cls l with Memory => room l | _ => 0 end.
Proof.
  intros R Ht Hl fr. destruct (c_frame_room ls l d (layouts_good _ _ _ R Ht) (reached_good _ R _ _ Hl)) as (A & W & P & Pb & Q & E). fold fr in A, W, P, Pb, Q, E. unfold taken in *. lia.
Qed.
Lemma c_passed r ts t ls l (args : list (layout * val)) s : reached r -> Forall2 (fun t l => get r t = Ret l) ts ls -> get r t = Ret l ->
  map fst args = ls -> Forall (fun x => List.length (snd x) = length_of (fst x)) args -> stacked (mem s) (gp s Rsp) (rev (push_order (c_args ls l) args)) ->
  let s' := run (fst (all (map pop_arg (c_args ls l)))) s in
  passed (gprs l) xmms (gp s' Rsp) args s' /\ mem s' = mem s /\ gp s' Rsp + on_stack l ls = gp s Rsp + rooms ls /\
  forall x, saved x = true -> x <> Rsp -> gp s' x = gp s x.
Proof.
  intros R Ht Hl Ea Ln Ho. pose proof (layouts_good _ _ _ R Ht) as Gs. rewrite push_order_c in Ho by exact Gs. rewrite rev_c_order in Ho.
  assert (Ho' : args_hold (mem s) (gp s Rsp) (select true (in_registers l ls) args ++ select false (in_registers l ls) args)) by exact Ho. apply args_hold_app in Ho'. destruct Ho' as [H1 H2].
  destruct (gprs_ok l) as (Ar & _ & _ & Nsv).
  assert (Eb : by_registers (map fst args) (List.length (gprs l)) (List.length xmms) = in_registers l ls) by (rewrite Ea, free_length; reflexivity). rewrite <- Eb in H1, H2.
  assert (Ga : Forall (fun x => good (fst x)) args) by (rewrite <- Forall_map, Ea; exact Gs).
  destruct (pops_ok args (gprs l) xmms s _ Ga Ln Ar xmms_ok H1 H2) as (P1 & P2 & P3 & _ & P5 & _). cbv zeta in *. rewrite Eb in P1, P3. rewrite Ea in P1, P2, P3, P5.
  assert (Ec : c_args_from (gprs l) xmms ls = c_args ls l) by (unfold c_args; now rewrite gprs_c). rewrite Ec in *. rewrite P3. split; [exact P1|]. split; [exact P2|]. split.
  - rewrite select_room, Ea. unfold on_stack. enough (S : forall bs, List.length bs = List.length ls -> rooms (select true bs ls) + rooms (select false bs ls) = rooms ls) by (rewrite <- (S (in_registers l ls)) by apply in_registers_length; lia).
    clear. induction ls as [|y ys IH]; intros [|q bs] L; try discriminate L; [reflexivity|]. change (rooms (y :: ys)) with (room y + rooms ys). rewrite <- (IH bs) by (cbn in L; lia).
    destruct q; cbn [select Bool.eqb]; match goal with |- context [rooms (y :: ?t)] => change (rooms (y :: t)) with (room y + rooms t) end; lia.
  - intros x Sx Nx. apply P5; [exact (Nsv x Sx) | intros ->; discriminate | exact Nx].
Qed.

(** What is pushed from left to right is where the frame of the function that is called has it. *)
Lemma stacked_split m xs ys : forall a, stacked m a (xs ++ ys) -> stacked m (a + Foreign.rooms (map fst xs)) ys.
Proof.
  induction xs as [|[l v] xs IH]; intros a H; cbn [app map fst] in *; [now rewrite Z.add_0_r|].
  change (Foreign.rooms (l :: map fst xs)) with (room l + Foreign.rooms (map fst xs)). rewrite Z.add_assoc. apply IH, H.
Qed.
Lemma rooms_rev ls : Foreign.rooms (rev ls) = Foreign.rooms ls.
Proof.
  assert (A : forall xs ys, Foreign.rooms (xs ++ ys) = Foreign.rooms xs + Foreign.rooms ys).
  { induction xs as [|x xs IH]; intros ys; [reflexivity|]. cbn [app]. change (room x + Foreign.rooms (xs ++ ys) = room x + Foreign.rooms xs + Foreign.rooms ys). rewrite IH. lia. }
  induction ls as [|l ls IH]; [reflexivity|]. cbn [rev]. rewrite A, IH. change (Foreign.rooms (l :: ls)) with (room l + Foreign.rooms ls). change (Foreign.rooms [l]) with (room l + 0). lia.
Qed.
Lemma call_found words in_memory f s ret args m rsp :
  NoDup (map fst (Frame.Spec.bound f)) -> Frame.Model.new words in_memory f = Ret (s, ret) ->
  Forall2 (fun v a => Z.of_nat (words (snd v)) * 8 = room (fst a)) (Frame.Spec.passed f) args ->
  stacked m rsp (rev args) ->
  forall i v a, nth_error (Frame.Spec.passed f) i = Some v -> nth_error args i = Some a ->
  exists p, Frame.Spec.place words s v p /\ bytes_at m (rsp - 16 + fst p) (snd a).
Proof.
  intros Nd Hn Hs Hst i v a Hv Ha. apply nth_error_split in Hv as (ps & qs & Hp & Hl). apply nth_error_split in Ha as (xs & ys & -> & Hx).
  destruct (Frame.ProofsFun.frame_passed _ _ _ _ _ Nd Hn ps v qs Hp) as (p & Pp & Fp). exists p. split; [exact Pp|].
  rewrite Hp in Hs. assert (Q : Forall2 (fun v a => Z.of_nat (words (snd v)) * 8 = room (fst a)) qs ys).
  { clear - Hs Hl Hx. revert xs i Hl Hx Hs. induction ps as [|q ps IH]; intros [|x xs] i Hl Hx Hs; cbn in *; try lia; inversion Hs; subst; [assumption|]. apply (IH xs (List.length ps)); [reflexivity | lia | assumption]. }
  rewrite rev_app_distr in Hst. cbn [rev] in Hst. rewrite <- app_assoc in Hst. apply stacked_split in Hst. rewrite map_rev, rooms_rev in Hst. cbn [app] in Hst. destruct a as [l b]. destruct Hst as [Hb _]. cbn [snd].
  replace (rsp - 16 + fst p) with (rsp + Foreign.rooms (map fst ys)); [exact Hb|]. rewrite Fp.
  enough (E : Z.of_nat (Frame.Spec.sum (map (fun v => words (snd v)) qs)) * 8 = Foreign.rooms (map fst ys)) by lia.
  clear - Q. induction Q as [|q y qs ys E Q IH]; [reflexivity|]. cbn [map]. change (Foreign.rooms (fst y :: map fst ys)) with (room (fst y) + Foreign.rooms (map fst ys)). cbn [Frame.Spec.sum]. lia.
Qed.
