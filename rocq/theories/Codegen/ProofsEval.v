(** Generated code does what expressions mean. *)
From Coq Require Import ZArith Lia.
From Verif.Base Require Import Base.
From Verif.Ir Require Import Model RtInd.
From Verif.Layout Require Import Model Spec Proofs ProofsResolve.
From Verif.Frame Require Model.
From Verif.Frame Require Spec Proofs.
From Verif.Stack Require Import Machine Model Spec Facts Proofs ProofsValue ProofsMove.
From Verif.Codegen Require Import Model Machine Spec Facts ProofsGen ProofsFrame ProofsRun ProofsInv.
Local Open Scope Z_scope.

(** The code of the expression ends, and once the value is dropped at the depth it starts with. *)
Definition balanced (r : resolver) (x : rt) : Prop :=
  forall known offs g c o g', gen r known offs x g = Ret (c, o, g') -> exists l, o = Some l /\ depth g' + snd (discard l) = depth g.

Lemma emit_then {A} c g (k : unit -> gstate -> res A) cc o g' : andthen (emit c g) k = Ret (cc, o, g') ->
  exists c2, k tt (set_depth (depth g + snd c) g) = Ret (c2, o, g') /\ cc = map I (fst c) ++ c2.
Proof. intros H. eapply andthen_some in H; [exact H | reflexivity]. Qed.
Lemma out_then {A} is g (k : unit -> gstate -> res A) cc o g' : andthen (out is g) k = Ret (cc, o, g') ->
  exists c2, k tt g = Ret (c2, o, g') /\ cc = is ++ c2.
Proof. intros H. eapply andthen_some in H; [exact H | reflexivity]. Qed.
Lemma need_then {A B} (a : outcome B) g (k : B -> gstate -> res A) cc o g' : andthen (need a g) k = Ret (cc, o, g') ->
  exists x, a = Ret x /\ k x g = Ret (cc, o, g').
Proof.
  intros H. apply andthen_inv in H. destruct H as (c1 & o1 & g1 & E & H). apply need_inv in E. destruct E as (x & -> & -> & -> & ->).
  destruct H as (c2 & E & ->). exists x. auto.
Qed.
Lemma ret_inv {A} (a : A) g c o g' : ret a g = Ret (c, o, g') -> c = [] /\ o = Some a /\ g' = g.
Proof. intros H. injection H as <- <- <-. auto. Qed.
Lemma emit_inv c g cc o g' : emit c g = Ret (cc, o, g') -> cc = map I (fst c) /\ o = Some tt /\ g' = set_depth (depth g + snd c) g.
Proof. intros H. injection H as <- <- <-. auto. Qed.

Lemma jumpless_child x y : jumpless x -> In y (children x) -> jumpless y.
Proof. intros [? _ F] I. rewrite Forall_forall in F. auto. Qed.

Lemma good_pointer : good l_pointer. Proof. eapply (base_good (CtPtr CtUnit)). constructor. Qed.

Definition is_jump (o : result) : Prop := match o with OJump _ _ => True | _ => False end.

(** The setting of the code of a function: [start] is the top of the stack, [b] the frame pointer. *)
Record setting (M : machine) (r : resolver) (start : Z) (F : nat) (b : Z) : Prop := {
  x_layouts : reached r;
  x_alloc : allocator M;
  x_addresses : addresses M;
  x_last : exists is, code_of M F = is ++ [Retq];
  x_start : 0 <= start <= 2 ^ 64;
  x_labels : NoDup (labels (code_of M F));
  x_aligned : b mod 16 = 0;
  x_below : b + 16 <= start;
  x_epilogue : exists q, find_label 0 (code_of M F) = Some q }.
Arguments x_layouts {M r start F b}. Arguments x_last {M r start F b}. Arguments x_alloc {M r start F b}. Arguments x_addresses {M r start F b}.
Arguments x_start {M r start F b}. Arguments x_labels {M r start F b}. Arguments x_aligned {M r start F b}.
Arguments x_below {M r start F b}. Arguments x_epilogue {M r start F b}.

Section Steps.
Variable M : machine.
Variable r : resolver.
Variable start : Z.
Variable F : nat.
Variable b : Z.
Variable offs : list (nat * Z).
Hypothesis X : setting M r start F b.

Notation heap_ok := (heap_ok start).
Notation leads := (leads M).
Notation code_at := (code_at M F).
Notation chain := (chain (type_words r) offs).
Notation placed := (placed (type_words r) offs).
Notation placed_lets := (placed_lets (type_words r) offs).
Notation kept := (kept start b).
Notation lev := (lev b).
Notation vars_ok := (vars_ok start b offs).
Notation konts_ok := (konts_ok M r F offs).
Notation Inv := (Inv M r start F b offs).
Notation At := (At M r start F b offs).
Notation leaves := (leaves M start F b offs).
Notation world := (world (memo M)).
Notation fun_address := (fun f => address M f 0).

(** ** Instructions of stack_inst.rs *)
Section Step.
Variables (K : konts) (G : env) (ks : Frame.Spec.conts) (n m : nat) (g0 : gstate) (s0 : state).
Notation At := (At K G ks n m g0 s0).

Lemma top g (w : world) s : At g w s -> gp s Rsp = b - 8 * depth g /\ gp s Rsp <= b - 8 * depth g0 /\ b - 8 * depth g0 <= start /\
  b - 8 * depth g0 <= lev m /\ lev m <= lev n /\ lev n <= b.
Proof.
  intros A. pose proof (a_depth A). pose proof (a_levels A).
  pose proof (i_levels (a_inv A)). pose proof (i_rsp (a_inv A)).
  pose proof (x_below X). unfold ProofsInv.lev. lia.
Qed.
Lemma at_norm g (w : world) s : At g w s -> norm s. Proof. intros A. apply A. Qed.
Lemma at_heap g (w : world) s : At g w s -> heap_ok (snd w) s. Proof. intros A. apply A. Qed.
Lemma at_rbp_ g (w : world) s : At g w s -> gp s Rbp = b. Proof. intros A. apply A. Qed.
Lemma at_conts g (w : world) s : At g w s -> conts g = conts g0. Proof. intros A. apply A. Qed.

Lemma same_next g g' (w : world) s : At g w s -> depth g' = depth g -> conts g' = conts g -> At g' w s.
Proof.
  intros A D C. eapply at_later; [exact A | apply kept_refl | apply rest_refl | apply A | apply A | | |exact C].
  - rewrite D. apply A.
  - rewrite D. apply A.
Qed.

(** Writing below [b - 8 * depth g0] only. *)
Lemma at_run c lo hi g (w : world) s : At g w s -> Forall clean (fst c) -> let s' := run (fst c) s in
  same_outside lo hi s s' -> hi <= b - 8 * depth g0 -> rest s s' -> gp s' Rsp = gp s Rsp - 8 * snd c -> depth g0 <= depth g + snd c ->
  At (set_depth (depth g + snd c) g) w s'.
Proof.
  intros A Cl s' So Hi Re Rs De. destruct (top _ _ _ A) as (T1 & _). eapply at_stack; [pose proof (x_below X); lia | exact A | exact So | exact Hi | exact Re | | | exact De | reflexivity].
  - apply run_norm; [exact Cl | apply A].
  - cbn [set_depth depth]. lia.
Qed.

Lemma at_push l v d g (w : world) s : At g w s -> good l -> has l v s -> 8 * depth g = 8 * d + taken l -> depth g0 <= d ->
  let s' := run (fst (push l)) s in
  At (set_depth (depth g + snd (push l)) g) w s' /\ 8 * (depth g + snd (push l)) = 8 * d + room l /\
  holds (mem s') (b - 8 * (depth g + snd (push l))) v /\ same_outside (b - 8 * (depth g + snd (push l))) (b - 8 * d) s s'.
Proof.
  intros A Gl V E D s'. destruct (push_has l v s (good_usable l Gl) V) as (H1 & H2 & H3 & H4 & H5). destruct (top _ _ _ A) as (T1 & T2 & _).
  assert (T : 0 <= taken l <= room l) by apply taken_bounds. fold s' in H1, H2, H4, H5.
  assert (Es : gp s' Rsp = b - 8 * (depth g + snd (push l))) by lia. rewrite <- Es. split; [|split; [|split]].
  - eapply at_run; [exact A | apply clean_push | exact H4 | lia | now apply rest_same | fold s'; lia | lia].
  - lia.
  - exact H1.
  - intros a Ha. apply H4. lia.
Qed.
Lemma at_pop l v g (w : world) s : At g w s -> good l -> List.length v = length_of l -> holds (mem s) (b - 8 * depth g) v ->
  8 * depth g0 + room l <= 8 * depth g + taken l ->
  let s' := run (fst (pop l)) s in
  At (set_depth (depth g + snd (pop l)) g) w s' /\ 8 * (depth g + snd (pop l)) = 8 * depth g + taken l - room l /\ has l v s' /\ mem s' = mem s /\ same_regs s s'.
Proof.
  intros A Gl Ln V D s'. destruct (top _ _ _ A) as (T1 & T2 & _). rewrite <- T1 in V.
  destruct (pop_has l v s (good_usable l Gl) Ln V) as (H1 & H2 & H3 & H4 & H5). fold s' in H1, H2, H4, H5.
  split; [|split; [lia | auto]].
  eapply at_run with (lo := 0) (hi := b - 8 * depth g0); [exact A | apply clean_pop | | | | |].
  - intros a _. fold s'. now rewrite H4.
  - lia.
  - now apply rest_same.
  - fold s'. lia.
  - lia.
Qed.
Lemma at_discard l d g (w : world) s : At g w s -> good l -> 8 * depth g = 8 * d + taken l -> depth g0 <= d ->
  let s' := run (fst (discard l)) s in
  At (set_depth (depth g + snd (discard l)) g) w s' /\ depth g + snd (discard l) = d /\ mem s' = mem s.
Proof.
  intros A Gl E D s'. destruct (discard_ok l s (good_usable l Gl)) as (H1 & H2 & H3 & H4). fold s' in H1, H3, H4. split; [|split; [lia | exact H3]].
  eapply at_run with (lo := 0) (hi := b - 8 * depth g0); [exact A | apply clean_discard | | | | |].
  - intros a _. fold s'. now rewrite H3.
  - lia.
  - now apply rest_gp.
  - fold s'. lia.
  - lia.
Qed.
Lemma at_extend l g (w : world) s : At g w s ->
  let s' := run (fst (extend_stack l)) s in
  At (set_depth (depth g + snd (extend_stack l)) g) w s' /\ 8 * (depth g + snd (extend_stack l)) = 8 * depth g + room l /\
  mem s' = mem s /\ (forall x, x <> Rsp -> gp s' x = gp s x).
Proof.
  intros A s'. destruct (extend_ok l s) as (H1 & H2 & H3 & _ & H4). fold s' in H1, H3, H4. split; [|split; [lia | auto]].
  destruct (top _ _ _ A) as (T1 & T2 & _). pose proof (a_depth A). pose proof (room_size l).
  eapply at_run with (lo := 0) (hi := b - 8 * depth g0); [exact A | apply clean_extend | | | | |].
  - intros a _. fold s'. now rewrite H3.
  - lia.
  - now apply rest_gp.
  - fold s'. lia.
  - lia.
Qed.
Lemma at_shrink l g (w : world) s : At g w s -> 8 * depth g0 + room l <= 8 * depth g ->
  let s' := run (fst (shrink_stack l)) s in
  At (set_depth (depth g + snd (shrink_stack l)) g) w s' /\ 8 * (depth g + snd (shrink_stack l)) = 8 * depth g - room l /\
  mem s' = mem s /\ (forall x, x <> Rsp -> gp s' x = gp s x) /\ xm s' = xm s.
Proof.
  intros A D s'. destruct (shrink_ok l s) as (H1 & H2 & H3 & H5 & H4). fold s' in H1, H3, H4, H5. split; [|split; [lia | auto]].
  eapply at_run with (lo := 0) (hi := b - 8 * depth g0); [exact A | apply clean_shrink | | | | |].
  - intros a _. fold s'. now rewrite H3.
  - lia.
  - now apply rest_gp.
  - fold s'. lia.
  - lia.
Qed.
(** Setting a register. *)
Lemma at_set x z g (w : world) s : At g w s -> saved x = false -> (narrow x = true -> 0 <= z < 2 ^ 64) -> At g w (set_gp x z s).
Proof.
  intros A Sv Nr. eapply at_regs; [pose proof (x_below X); lia | exact A | reflexivity | | now apply rest_set |].
  - rewrite gp_set, gpr_eqb_neq; [reflexivity | intros <-; discriminate].
  - apply norm_set; [apply A | exact Nr].
Qed.
Lemma holds_kept d s s' a v : kept n d m s s' -> holds (mem s) a v -> b - 8 * d <= a -> a + Z.of_nat (List.length v) <= lev m -> (n <= m)%nat -> holds (mem s') a v.
Proof.
  intros Kp H L U Nm. eapply holds_ext; [exact H|]. intros i Hi. pose proof (x_below X). apply Kp; unfold ProofsInv.lev in *; lia.
Qed.
End Step.
End Steps.
Arguments top {M r start F b offs} X {K G ks n m g0 s0 g w s}.
Arguments at_run {M r start F b offs} X {K G ks n m g0 s0} c lo hi {g w s}.
Arguments at_push {M r start F b offs} X {K G ks n m g0 s0} l v d {g w s}.
Arguments at_pop {M r start F b offs} X {K G ks n m g0 s0} l v {g w s}.
Arguments at_discard {M r start F b offs} X {K G ks n m g0 s0} l d {g w s}.
Arguments at_extend {M r start F b offs} X {K G ks n m g0 s0} l {g w s}.
Arguments at_shrink {M r start F b offs} X {K G ks n m g0 s0} l {g w s}.
Arguments at_set {M r start F b offs} X {K G ks n m g0 s0} x z {g w s}.
Arguments holds_kept {M r start F b} X {n m} d {s s' a v}.

Section Eval.
Variable M : machine.
Variable r : resolver.
Variable start : Z.
Variable F : nat.
Variable b : Z.
Variable offs : list (nat * Z).
Hypothesis X : setting M r start F b.

Notation heap_ok := (heap_ok start).
Notation leads := (leads M).
Notation code_at := (code_at M F).
Notation chain := (chain (type_words r) offs).
Notation placed := (placed (type_words r) offs).
Notation placed_lets := (placed_lets (type_words r) offs).
Notation kept := (kept start b).
Notation lev := (lev b).
Notation vars_ok := (vars_ok start b offs).
Notation konts_ok := (konts_ok M r F offs).
Notation Inv := (Inv M r start F b offs).
Notation At := (At M r start F b offs).
Notation leaves := (leaves M start F b offs).
Notation fine := (fine (balanced r)).
Notation world := (world (memo M)).
Notation fun_address := (fun f => address M f 0).

(** ** Meeting the code *)
Definition ending (K : konts) G ks n m g s g' p' (o : result) (w' : world) (cf : config (memo M)) : Prop :=
  match o with
  | OVal l v => exists s', cf = Config F p' s' (fst w') /\ At K G ks n m g s g' w' s' /\ has l v s'
  | _ => leaves K n o w' s cf
  end.
Definition Dyn G ks x (w w' : world) o g c g' : Prop :=
  forall K n m p s, code_at p c -> placed n m x -> Inv K G ks n m g w s ->
  leads (ending K G ks n m g s g' (p + List.length c) o w') (Config F p s (fst w)).
Definition stat x o g (og : option layout) g' : Prop :=
  match o with
  | OVal l v => og = Some l /\ good l /\ 8 * depth g' = 8 * depth g + taken l
  | _ => is_jump o -> ~ jumpless x
  end.
Lemma leads_pos P p p' s (a : memo M) : p = p' -> leads P (Config F p s a) -> leads P (Config F p' s a).
Proof. now intros ->. Qed.

Lemma use_val G ks x w w' l v g c g' K n m g0 s0 p s Q : Dyn G ks x w w' (OVal l v) g c g' -> code_at p c -> placed n m x ->
  At K G ks n m g0 s0 g w s ->
  (forall s', At K G ks n m g0 s0 g' w' s' -> kept n (depth g) m s s' -> depth g <= depth g' -> has l v s' -> leads Q (Config F (p + List.length c) s' (fst w'))) ->
  leads Q (Config F p s (fst w)).
Proof.
  intros D C P A H. eapply leads_trans; [apply (D K n m p s C P), A|]. intros cf (s' & -> & A' & V).
  apply H; [|apply A' | apply A' | exact V].
  eapply at_later; [exact A | | apply A' | apply A' | apply A' | apply A' | | apply A'].
  - eapply kept_mono; [apply (a_kept A') | lia | lia | apply A].
  - pose proof (a_depth A). pose proof (a_depth A'). lia.
Qed.
Lemma use_abrupt G ks x w w' o g c g' K n m g0 s0 p s : Dyn G ks x w w' o g c g' -> abrupt o -> code_at p c -> placed n m x ->
  At K G ks n m g0 s0 g w s -> leads (leaves K n o w' s0) (Config F p s (fst w)).
Proof.
  intros D Ab C P A. eapply leads_trans; [apply (D K n m p s C P), A|]. intros cf H. apply leads_here.
  eapply leaves_from; [exact A|]. destruct o; [destruct Ab | exact H | exact H].
Qed.

(** What is left to show of an expression. *)
Lemma stat_abrupt x o g og g' : abrupt o -> (is_jump o -> ~ jumpless x) -> stat x o g og g'.
Proof. intros Ab H. destruct o; [destruct Ab | exact H | exact H]. Qed.
Lemma ending_abrupt K G ks n m g s g' p' o w' cf : abrupt o -> leaves K n o w' s cf -> ending K G ks n m g s g' p' o w' cf.
Proof. intros Ab H. destruct o; [destruct Ab | exact H | exact H]. Qed.
Lemma by_abrupt G ks x w w' o g c g' : abrupt o ->
  (forall K n m p s, code_at p c -> placed n m x -> At K G ks n m g s g w s -> leads (leaves K n o w' s) (Config F p s (fst w))) ->
  Dyn G ks x w w' o g c g'.
Proof.
  intros Ab H K n m p s C P Iv. eapply leads_trans; [apply (H K n m p s C P (at_refl Iv))|].
  intros cf L. apply leads_here. now apply ending_abrupt.
Qed.
Lemma by_value G ks x w w' l v g c g' :
  (forall K n m p s Q, code_at p c -> placed n m x -> At K G ks n m g s g w s ->
    (forall s', At K G ks n m g s g' w' s' -> has l v s' -> leads Q (Config F (p + List.length c) s' (fst w'))) -> leads Q (Config F p s (fst w))) ->
  Dyn G ks x w w' (OVal l v) g c g'.
Proof.
  intros H K n m p s C P Iv. apply (H K n m p s _ C P (at_refl Iv)).
  intros s' A V. apply leads_here. exists s'. auto.
Qed.


Variable known : nat -> bool.
Notation gen := (gen r known offs).
Definition Peval G ks x (w w' : world) o : Prop :=
  forall used g c og g', gen x g = Ret (c, og, g') -> fine used x -> incl (map fst (conts g)) used ->
  stat x o g og g' /\ Dyn G ks x w w' o g c g'.

Lemma sub_val G ks y w w' l v {A} (k : layout -> gstate -> res A) used g c og g' : Peval G ks y w w' (OVal l v) ->
  andthen (gen y g) k = Ret (c, og, g') -> fine used y -> incl (map fst (conts g)) used ->
  exists c1 g1 c2, k l g1 = Ret (c2, og, g') /\ c = c1 ++ c2 /\ good l /\ 8 * depth g1 = 8 * depth g + taken l /\ conts g1 = conts g /\
  Dyn G ks y w w' (OVal l v) g c1 g1.
Proof.
  intros P H Fi I. apply andthen_inv in H. destruct H as (c1 & o1 & g1 & E & H). destruct (P used g c1 o1 g1 E Fi I) as [(-> & Gl & De) Dy].
  destruct H as (c2 & Hk & ->). exists c1, g1, c2. repeat (split; [assumption || reflexivity|]). split; [|exact Dy].
  apply (st_conts _ _ _ (gen_sound r known offs (balanced r) y used g Fi I c1 (Some l) g1 E)).
Qed.
Lemma sub_abrupt G ks y w w' o {A} (k : layout -> gstate -> res A) used g c og g' : Peval G ks y w w' o -> abrupt o ->
  andthen (gen y g) k = Ret (c, og, g') -> fine used y -> incl (map fst (conts g)) used ->
  exists c1 g1 c2, c = c1 ++ c2 /\ (is_jump o -> ~ jumpless y) /\ Dyn G ks y w w' o g c1 g1.
Proof.
  intros P Ab H Fi I. apply andthen_inv in H. destruct H as (c1 & o1 & g1 & E & H). destruct (P used g c1 o1 g1 E Fi I) as [S Dy].
  exists c1, g1. destruct o1 as [l|].
  - destruct H as (c2 & _ & ->). exists c2. split; [reflexivity|]. split; [|exact Dy]. destruct o; [destruct Ab | exact S | exact S].
  - exists []. rewrite app_nil_r. split; [apply H|]. split; [|exact Dy]. destruct o; [destruct Ab | exact S | exact S].
Qed.

End Eval.
Arguments sub_val {M r start F b offs known G ks y w w' l v A k used g c og g'}.
Arguments sub_abrupt {M r start F b offs known G ks y w w' o A k used g c og g'}.
