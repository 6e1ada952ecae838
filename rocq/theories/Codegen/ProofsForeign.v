(** Calls of C functions. *)
From Coq Require Import ZArith Lia.
From Verif.Base Require Import Base.
From Verif.Ir Require Import Model RtInd.
From Verif.Layout Require Import Model Spec Proofs ProofsResolve.
From Verif.Frame Require Model.
From Verif.Frame Require Spec Proofs.
From Verif.Stack Require Import Machine Model Spec Facts Proofs ProofsValue ProofsMove.
From Verif.Codegen Require Import Model Machine Spec Facts ProofsGen ProofsFrame ProofsRun ProofsInv ProofsStatic ProofsEval ProofsSimple ProofsHeap ProofsAlloc ProofsEach ProofsStruct ProofsCall Foreign ProofsCArgs.
Local Open Scope Z_scope.

(** ** All arguments are popped *)
Lemma arg_regs_skip n gps : arg_regs gps -> arg_regs (skipn n gps).
Proof.
  intros [N Fo]. rewrite <- (firstn_skipn n gps) in N, Fo. apply Forall_app in Fo. destruct Fo as [_ Fo]. split; [|exact Fo].
  clear Fo. induction (firstn n gps) as [|y ys IH]; [exact N|]. apply IH. now inversion N.
Qed.
Lemma nodup_skip {A} n (xs : list A) : NoDup xs -> NoDup (skipn n xs).
Proof. intros N. rewrite <- (firstn_skipn n xs) in N. induction (firstn n xs) as [|y ys IH]; [exact N|]. apply IH. now inversion N. Qed.
Lemma nodup_apart {A} n (xs : list A) x : NoDup xs -> In x (firstn n xs) -> ~ In x (skipn n xs).
Proof.
  intros N. rewrite <- (firstn_skipn n xs) in N. induction (firstn n xs) as [|y ys IH]; [intros []|]. intros [->|H].
  - inversion N as [|? ? N1 _]; subst. intros H. apply N1, in_app_iff. now right.
  - apply IH; [now inversion N | exact H].
Qed.
Lemma in_first {A} n (xs : list A) x : In x (firstn n xs) -> In x xs.
Proof. intros H. rewrite <- (firstn_skipn n xs). apply in_app_iff. now left. Qed.
Lemma in_skip {A} n (xs : list A) x : In x (skipn n xs) -> In x xs.
Proof. intros H. rewrite <- (firstn_skipn n xs). apply in_app_iff. now right. Qed.

Lemma pops_ok : forall (args : list (layout * val)) gps fps s a, Forall (fun x => good (fst x)) args -> Forall (fun x => List.length (snd x) = length_of (fst x)) args ->
  arg_regs gps -> NoDup fps -> let bs := by_registers (map fst args) (List.length gps) (List.length fps) in
  args_hold (mem s) (gp s Rsp) (select true bs args) -> args_hold (mem s) a (select false bs args) ->
  let cs := all (map pop_arg (c_args_from gps fps (map fst args))) in let s' := run (fst cs) s in
  passed gps fps a args s' /\ mem s' = mem s /\ gp s' Rsp = gp s Rsp + args_room (select true bs args) /\ 8 * snd cs = - args_room (select true bs args) /\
  (forall g, ~ In g gps -> g <> R11 -> g <> Rsp -> gp s' g = gp s g) /\ (forall x, ~ In x fps -> xm s' x = xm s x).
Proof.
  induction args as [|[l v] args IH]; intros gps fps s a Gd Ln Ar Nx bs Ht Hf; cbv zeta.
  - cbn. repeat split; auto. lia.
  - inversion Gd as [|? ? G1 G2]; subst. inversion Ln as [|? ? L1 L2]; subst. cbn [fst snd] in G1, L1. unfold bs in *. clear bs.
    cbn [map fst by_registers c_args_from passed] in *. pose proof (build_spec l gps fps G1) as B. destruct (build l gps fps) as [[[rs gps'] fps']|] eqn:Eb.
    + destruct B as (Hr & Eg & Ef). rewrite Hr in *. cbn [select Bool.eqb args_hold] in Ht, Hf. destruct Ht as [Ht1 Ht2]. cbn [map all Stack.Model.andthen fst snd select Bool.eqb args_room]. rewrite run_app.
      destruct (pop_arg_ok l gps fps rs gps' fps' (bytes_of (mem s) (gp s Rsp) (List.length v)) s G1 Eb Ar Nx) as (A1 & A2 & A3 & A4 & A5 & A6).
      { rewrite bytes_of_length. exact L1. }
      { intros i z Hi. pose proof (nth_bound _ _ _ Hi) as Bd. rewrite bytes_of_length in Bd. rewrite nth_bytes_of in Hi by exact Bd. congruence. }
      set (s1 := run (fst (pop_arg (InReg rs))) s) in *. rewrite <- !skipn_length in *. rewrite <- Eg, <- Ef in *.
      destruct (IH gps' fps' s1 a G2 L2) as (B1 & B2 & B3 & B4 & B5 & B6).
      { rewrite Eg. now apply arg_regs_skip. } { rewrite Ef. now apply nodup_skip. }
      { rewrite A2, A3. exact Ht2. } { rewrite A2. exact Hf. }
      cbv zeta in *. set (s2 := run _ s1) in *. split; [split; [|exact B1]|].
      * exists (bytes_of (mem s) (gp s Rsp) (List.length v)). split; [rewrite bytes_of_length; exact L1|]. split; [exact (proj2 (match_bytes _ _ _ Ht1))|].
        eapply in_regs_ext; [exact A1| |].
        -- intros g Hg. change (filter _ _) with (filter (fun e => class_eqb (e_class e) Integer) (eightbytes l)) in Hg. fold (count Integer l) in Hg. destruct Ar as [Nd Fo].
           rewrite Forall_forall in Fo. destruct (Fo g (in_first _ _ _ Hg)) as (_ & F1 & F2). apply B5; [|exact F1 | exact F2]. rewrite Eg. now apply nodup_apart.
        -- intros x Hx. fold (count FloatingPoint l) in Hx. apply B6. rewrite Ef. now apply nodup_apart.
      * split; [congruence|]. split; [lia|]. split; [lia|]. split.
        -- intros g Ng N1 N2. rewrite B5, A5; auto. ++ intros H. apply Ng. eapply in_first, H. ++ rewrite Eg. intros H. apply Ng. eapply in_skip, H.
        -- intros x Ng. rewrite B6, A6; auto. ++ intros H. apply Ng. eapply in_first, H. ++ rewrite Ef. intros H. apply Ng. eapply in_skip, H.
    + rewrite B in *. cbn [select Bool.eqb args_hold] in Ht, Hf. destruct Hf as [Hf1 Hf2]. cbn [map all Stack.Model.andthen nothing fst snd select Bool.eqb pop_arg app].
      destruct (IH gps fps s (a + room l) G2 L2 Ar Nx Ht Hf2) as (B1 & B2 & B3 & B4 & B5 & B6). cbv zeta in *. split; [split; [|exact B1]|].
      * intros i z Hi. rewrite B2. apply Hf1, Hi.
      * repeat split; auto; lia.
Qed.

Lemma passed_ext s s' : mem s' = mem s -> xm s' = xm s -> forall args gs xs a, (forall g, In g gs -> gp s' g = gp s g) -> passed gs xs a args s -> passed gs xs a args s'.
Proof.
  intros Em Ex. induction args as [|[l v] args IH]; intros gs xs a Hg H; [exact Logic.I|]. cbn [passed] in *. destruct (by_register l (List.length gs) (List.length xs)).
  - destruct H as [(bs & L & V & H) H2]. split; [exists bs; split; [exact L|]; split; [exact V|]; eapply in_regs_ext; [exact H| |]|].
    + intros g Hi. apply Hg. eapply in_first, Hi. + intros x _. now rewrite Ex.
    + apply IH; [|exact H2]. intros g Hi. apply Hg. eapply in_skip, Hi.
  - destruct H as [H1 H2]. split; [now rewrite Em | now apply IH].
Qed.
Lemma select_map {A B} (f : A -> B) q bs (xs : list A) : select q bs (map f xs) = map f (select q bs xs).
Proof. revert xs. induction bs as [|q' bs IH]; intros [|x xs]; try reflexivity. cbn. destruct (Bool.eqb q' q); cbn; now rewrite IH. Qed.
Lemma select_all {A} (P : A -> Prop) bs : forall xs, List.length bs = List.length xs -> Forall P (select true bs xs) -> Forall P (select false bs xs) -> Forall P xs.
Proof.
  induction bs as [|q bs IH]; intros [|x xs] L Ht Hf; try discriminate L; [constructor|]. destruct q; cbn [select Bool.eqb] in *; [inversion Ht | inversion Hf]; subst; (constructor; [assumption|]; apply IH; [cbn in L; lia | assumption | assumption]).
Qed.
Lemma frame_args ls : forall gps fps z, Forall good ls ->
  8 * fold_left (fun sum c => match c with StackRev n => sum + n | InReg _ => sum end) (c_args_from gps fps ls) z = 8 * z + rooms (select false (by_registers ls (List.length gps) (List.length fps)) ls).
Proof.
  induction ls as [|l ls IH]; intros gps fps z G; cbn [c_args_from fold_left by_registers select]; [unfold rooms; cbn [fold_right]; lia|]. inversion G as [|? ? G1 G2]; subst.
  pose proof (build_spec l gps fps G1) as B. destruct (build l gps fps) as [[[rs gps'] fps']|].
  - destruct B as (-> & -> & ->). cbn [fold_left select Bool.eqb]. rewrite IH by exact G2. now rewrite !skipn_length.
  - rewrite B. cbn [fold_left select Bool.eqb]. rewrite IH by exact G2. match goal with |- _ = _ + rooms (_ :: ?t) => change (rooms (l :: t)) with (room l + rooms t) end. rewrite room_words. lia.
Qed.
Lemma pops_static ls : forall gps fps, Forall good ls -> arg_regs gps -> NoDup fps ->
  8 * snd (all (map pop_arg (c_args_from gps fps ls))) = - rooms (select true (by_registers ls (List.length gps) (List.length fps)) ls).
Proof.
  induction ls as [|l ls IH]; intros gps fps G Ar Nx; [reflexivity|]. inversion G as [|? ? G1 G2]; subst. cbn [c_args_from by_registers].
  pose proof (build_spec l gps fps G1) as B. destruct (build l gps fps) as [[[rs gps'] fps']|] eqn:Eb.
  - destruct B as (-> & Eg & Ef). cbn [map all Stack.Model.andthen snd select Bool.eqb]. rewrite <- !skipn_length. rewrite <- Eg, <- Ef.
    specialize (IH gps' fps' G2 ltac:(rewrite Eg; now apply arg_regs_skip) ltac:(rewrite Ef; now apply nodup_skip)).
    destruct (pop_arg_ok l gps fps rs gps' fps' (bytes_of (fun _ => 0) 0 (length_of l)) (State (fun _ => 0) (fun _ => 0) (fun _ => 0)) G1 Eb Ar Nx) as (_ & _ & _ & A4 & _).
    { apply bytes_of_length. }
    { intros i z Hi. pose proof (nth_bound _ _ _ Hi) as Bd. rewrite bytes_of_length in Bd. rewrite nth_bytes_of in Hi by exact Bd. cbn [mem gp]. congruence. }
    match goal with |- _ = - rooms (_ :: ?t) => change (rooms (l :: t)) with (room l + rooms t) end. lia.
  - rewrite B. cbn [map all Stack.Model.andthen nothing snd select Bool.eqb pop_arg]. rewrite <- IH by assumption. lia.
Qed.
Lemma rooms_nonneg ls : 0 <= rooms ls.
Proof. induction ls as [|l ls IH]; [unfold rooms; cbn [fold_right]; lia|]. change (rooms (l :: ls)) with (room l + rooms ls). pose proof (room_nonneg l). lia. Qed.
Lemma c_frame_room ls l d : Forall good ls -> good l -> let fr := c_frame (c_args ls l) l d in
  8 * stack_args fr = on_stack l ls /\ 8 * ret_words fr = taken l /\ 0 <= padding fr <= 1 /\
  room (padding_before_stack_args fr) = taken l + 8 * padding fr /\ room (remnants_after_call fr) = on_stack l ls + 8 * padding fr /\
  (d + ret_words fr + stack_args fr + padding fr) mod 2 = 0.
Proof.
  intros Gs Gl fr. assert (Ea : 8 * stack_args fr = on_stack l ls).
  { unfold fr, c_frame, on_stack, in_registers, c_args. cbn [stack_args]. rewrite gprs_c, frame_args by exact Gs. rewrite free_length. change (List.length c_fps) with 8%nat. lia. }
  assert (Er : 8 * ret_words fr = taken l) by (unfold fr, c_frame; cbn [ret_words]; apply ret_taken, Gl).
  assert (Ep : padding fr = (d + ret_words fr + stack_args fr) mod 2) by reflexivity.
  pose proof (Z.mod_pos_bound (d + ret_words fr + stack_args fr) 2 eq_refl) as Mb. pose proof (taken_bounds l) as Tb.
  pose proof (rooms_nonneg (select false (in_registers l ls) ls)) as Rn. fold (on_stack l ls) in Rn.
  split; [exact Ea|]. split; [exact Er|]. split; [lia|].
  unfold padding_before_stack_args, remnants_after_call, memory. rewrite !room_memory. split; [lia|]. split; [lia|].
  rewrite Ep. Z.to_euclidean_division_equations. lia.
Qed.
Lemma gprs_ok l : arg_regs (gprs l) /\ (cls l = Memory -> ~ In Rdi (gprs l)) /\ ~ In Rax (gprs l) /\ forall x, saved x = true -> ~ In x (gprs l).
Proof.
  unfold gprs. split; [|split; [|split]].
  - destruct (cls l); (split; [repeat constructor; cbn; intuition discriminate | repeat constructor; discriminate]).
  - intros ->. cbn. intuition discriminate.
  - destruct (cls l); cbn; intuition discriminate.
  - intros x Hx H. destruct (cls l); cbn in H; repeat (destruct H as [<-|H]; [discriminate|]); exact H.
Qed.
Lemma c_pops ls l : Forall good ls -> 8 * snd (all (map pop_arg (c_args ls l))) = - rooms (select true (in_registers l ls) ls).
Proof.
  intros G. unfold c_args. rewrite gprs_c, pops_static; [| exact G | apply gprs_ok | repeat constructor; cbn; intuition discriminate]. now rewrite free_length.
Qed.
Lemma xmms_ok : NoDup xmms. Proof. repeat constructor; cbn; intuition discriminate. Qed.

Section Cases.
Variable M : machine.
Variable r : resolver.
Variable known : nat -> bool.
Variable start : Z.
Variable F : nat.
Variable b : Z.
Variable offs : list (nat * Z).
Hypothesis X : setting M r start F b.
Variable c_means : Z -> list (layout * val) -> layout -> world (memo M) -> world (memo M) -> val -> Prop.
Hypothesis C_ok : c_functions M start c_means.

Notation heap_ok := (heap_ok start).
Notation leads := (leads M).
Notation code_at := (code_at M F).
Notation placed := (placed (type_words r) offs).
Notation kept := (kept start b).
Notation Inv := (Inv M r start F b offs).
Notation At := (At M r start F b offs).
Notation leaves := (leaves M start F b offs).
Notation gen := (gen r known offs).
Notation fine := (fine (balanced r)).
Notation world := (world (memo M)).
Notation Evs := (Evs M r known start F b offs).
Notation Peval := (Peval M r start F b offs known).
Ltac setting := let a := fresh "Xb" in let c := fresh "Xs" in pose proof (x_below X) as a; pose proof (x_start X) as c.
Ltac pos := repeat rewrite app_length; cbn [fst keep map List.length]; unfold at_rdi; lia.

Lemma typed_layouts es ls : typed r es ls -> arg_layouts r es = Ret (Some ls).
Proof.
  clear. induction 1 as [|e l es ls (t & Ht & Hg) _ IH]; [reflexivity|]. cbn [arg_layouts]. rewrite Ht. cbn [bind]. rewrite Hg. cbn [bind]. rewrite IH. reflexivity.
Qed.
Lemma typed_good es ls : reached r -> typed r es ls -> Forall good ls.
Proof. clear. intros R. induction 1 as [|e l es ls (t & Ht & Hg) _ IH]; constructor; [exact (reached_good _ R _ _ Hg) | exact IH]. Qed.
Lemma never_layouts es o : Exists (fun e => rt_ty e = Ret None) es -> arg_layouts r es = Ret o -> o = None.
Proof.
  clear. intros H. revert o. induction H as [e es Ht | e es H IH]; intros o E; cbn [arg_layouts] in E.
  - rewrite Ht in E. cbn [bind] in E. congruence.
  - destruct (rt_ty e) as [[t|]| |]; cbn [bind] in E; try congruence. destruct (get r t); cbn [bind] in E; try discriminate.
    destruct (arg_layouts r es) as [o'| |]; cbn [bind] in E; try discriminate. rewrite (IH o' eq_refl) in E. congruence.
Qed.

Section Code.
Variables (t : ct) (ls : list layout) (es : list rt) (l : layout) (callee : gstate -> res item).
Hypothesis Hg : get r t = Ret l.
Hypothesis Gs : Forall good ls.
Let cs := c_args ls l.
Let order := c_order l ls es.

Lemma c_call_code g c og g' : gen_c_call r t ls (map gen es) callee g = Ret (c, og, g') ->
  let fr := c_frame cs l (depth g) in
  let g1 := set_depth (depth g + snd (extend_stack (padding_before_stack_args fr))) g in
  exists ca oa ga c1, gen_each gen (map (fun _ l => Ret (push l)) order) order g1 = Ret (ca, oa, ga) /\ c = map I (fst (extend_stack (padding_before_stack_args fr))) ++ ca ++ c1 /\
  (oa = Some tt -> exists cf of gf c2, callee ga = Ret (cf, of, gf) /\ c1 = cf ++ c2 /\
    (forall call, of = Some call -> og = Some l /\ depth g' = depth gf + snd (all (map pop_arg cs)) + snd (shrink_stack (remnants_after_call fr)) /\ conts g' = conts gf /\
      c2 = map I (fst (all (map pop_arg cs))) ++ map I (match offset_to_ret_destination fr with Some o => [Leaq Rdi (at_rsp o)] | None => [] end) ++ [call] ++ map I (fst (shrink_stack (remnants_after_call fr))))).
Proof.
  intros H. unfold gen_c_call in H. apply need_then in H. destruct H as (l' & El & H). rewrite Hg in El. injection El as <-. cbv zeta in H |- *. fold cs in H.
  assert (Eo : push_order cs es = order) by (apply push_order_c, Gs).
  apply emit_then in H. destruct H as (c1 & H & ->). rewrite push_order_map, pushes_each, Eo in H.
  apply andthen_inv in H. destruct H as (ca & oa & ga & Ha & H). exists ca, oa, ga. destruct oa as [[]|].
  - destruct H as (c2 & H & ->). exists c2. split; [exact Ha|]. split; [reflexivity|]. intros _. apply andthen_inv in H. destruct H as (cf & of & gf & Hfe & H). exists cf, of, gf.
    destruct of as [call|].
    + destruct H as (c3 & H & ->). exists c3. split; [exact Hfe|]. split; [reflexivity|]. intros call' Hcall. injection Hcall as <-.
      apply emit_then in H. destruct H as (c4 & H & ->). apply emit_then in H. destruct H as (c5 & H & ->). apply out_then in H. destruct H as (c6 & H & ->).
      apply emit_then in H. destruct H as (c7 & H & ->). apply ret_inv in H. destruct H as (-> & -> & ->). rewrite app_nil_r. split; [reflexivity|].
      cbn [set_depth depth conts keep snd fst]. split; [lia|]. split; reflexivity.
    + destruct H as (-> & _). exists []. rewrite app_nil_r. split; [exact Hfe|]. split; [reflexivity | discriminate].
  - destruct H as (-> & _). exists []. rewrite app_nil_r. split; [exact Ha|]. split; [reflexivity | discriminate].
Qed.

(** From where the arguments are on the stack, and what is to be called is known. *)
Variables (vs : list val) (call : item) (a : Z) (w w2 : world) (v : val).
Hypothesis Lv : List.length vs = List.length ls.
Hypothesis Gl : good l.
Hypothesis Cm : c_means a (combine ls vs) l w w2 v.
Let args := combine ls vs.

Lemma args_fst : map fst args = ls.
Proof. unfold args. clear -Lv. revert vs Lv. induction ls as [|y ys IH]; intros [|x xs] L; try discriminate L; [reflexivity|]. cbn. rewrite IH; [reflexivity | cbn in L; lia]. Qed.

Lemma c_call_ok K G ks n m g s gf s3 q : 
  let fr := c_frame cs l (depth g) in let g5 := set_depth (depth gf + snd (all (map pop_arg cs)) + snd (shrink_stack (remnants_after_call fr))) gf in
  8 * depth gf = 8 * depth g + taken l + 8 * padding fr + args_room (c_order l ls args) ->
  At K G ks n m g s gf w s3 -> args_hold (mem s3) (b - 8 * depth gf) (rev (c_order l ls args)) -> Forall (fun v => List.length (snd v) = length_of (fst v)) (rev (c_order l ls args)) ->
  (forall p s4, nth_error (code_of M F) p = Some call -> gp s4 Rax = gp s3 Rax -> next_step M (Config F p s4 (fst w)) = Machine.call M (Config F p s4 (fst w)) a) ->
  code_at q (map I (fst (all (map pop_arg cs))) ++ map I (match offset_to_ret_destination fr with Some o => [Leaq Rdi (at_rsp o)] | None => [] end) ++ [call] ++ map I (fst (shrink_stack (remnants_after_call fr)))) ->
  8 * depth g5 = 8 * depth g + taken l /\
  leads (fun cf => exists s', cf = Config F (q + List.length (map I (fst (all (map pop_arg cs))) ++ map I (match offset_to_ret_destination fr with Some o => [Leaq Rdi (at_rsp o)] | None => [] end) ++ [call] ++ map I (fst (shrink_stack (remnants_after_call fr))))) s' (fst w2) /\
    At K G ks n m g s g5 w2 s' /\ has l v s') (Config F q s3 (fst w)).
Proof.
  clear order es callee. intros fr g5 Df A3 Ho Fo Hcall C. setting. destruct (C_ok _ _ _ _ _ _ Cm) as [Pn Cf].
  destruct (c_frame_room ls l (depth g) Gs Gl) as (Fa & Frw & Fp & Fpb & Frm & Fal). fold cs in Fa, Frw, Fp, Fpb, Frm, Fal. fold fr in Fa, Frw, Fp, Fpb, Frm, Fal.
  pose proof (shrink_static (remnants_after_call fr)) as Ss. pose proof (taken_bounds l) as Tb.
  rewrite rev_c_order in Ho, Fo. apply args_hold_app in Ho. destruct Ho as [Ht Hf]. apply Forall_app in Fo. destruct Fo as [Lt Lf].
  assert (La : List.length (in_registers l ls) = List.length args). { rewrite in_registers_length. unfold args. rewrite combine_length. lia. }
  assert (Ga : Forall (fun x => good (fst x)) args) by (rewrite <- Forall_map, args_fst; exact Gs).
  assert (Ln : Forall (fun x => List.length (snd x) = length_of (fst x)) args) by (eapply select_all; eassumption).
  assert (Eo : args_room (c_order l ls args) = args_room (select true (in_registers l ls) args) + on_stack l ls).
  { rewrite <- args_room_rev, rev_c_order, args_room_app. f_equal. rewrite select_room, args_fst. reflexivity. }
  destruct (gprs_ok l) as (Ar & Nrdi & Nrax & Nsv).
  assert (Eb : by_registers (map fst args) (List.length (gprs l)) (List.length xmms) = in_registers l ls) by (rewrite args_fst, free_length; reflexivity).
  rewrite <- (i_rsp (a_inv A3)) in Ht. rewrite <- Eb in Ht, Hf.
  destruct (pops_ok args (gprs l) xmms s3 _ Ga Ln Ar xmms_ok Ht Hf) as (P1 & P2 & P3 & P4 & P5 & _). cbv zeta in P1, P2, P3, P4, P5. rewrite Eb in P1, P3, P4. rewrite args_fst in P1, P2, P3, P4, P5.
  assert (Ec : c_args_from (gprs l) xmms ls = cs) by (unfold cs, c_args; now rewrite gprs_c). rewrite Ec in P1, P2, P3, P4, P5.
  pose proof (args_room_nonneg (select true (in_registers l ls) args)) as An. pose proof (rooms_nonneg (select false (in_registers l ls) ls)) as Rn. fold (on_stack l ls) in Rn.
  set (rr := args_room (select true (in_registers l ls) args)) in *. unfold val in *. fold rr in P1, P3, P4, Eo.
  set (pops := all (map pop_arg cs)) in *.
  assert (D5 : 8 * depth g5 = 8 * depth g + taken l) by (unfold g5; cbn [set_depth depth]; lia). split; [exact D5|].
  destruct (top X A3) as (T1 & T2 & T3 & T4 & T5 & T6). pose proof (i_levels (a_inv A3)) as Lnm. unfold ProofsInv.lev in T4, T5, T6.
  apply code_at_app in C. destruct C as [C0 C]. apply code_at_app in C. destruct C as [Cl C]. apply code_at_app in C. destruct C as [Cc Cs].
  eapply leads_emit; [exact C0|]. set (s4 := run (fst pops) s3) in *. eapply leads_emit; [exact Cl|]. set (s5 := run _ s4).
  assert (S5 : mem s5 = mem s3 /\ xm s5 = xm s4 /\ (forall x, x <> Rdi -> gp s5 x = gp s4 x) /\ (cls l = Memory -> gp s5 Rdi = gp s4 Rsp + (stack_args fr + padding fr) * 8) /\ (cls l <> Memory -> s5 = s4)).
  { unfold s5, offset_to_ret_destination. destruct (Z.eqb_spec (ret_words fr) 0) as [R0|R0]; cbn [run fold_left].
    - split; [exact P2|]. split; [reflexivity|]. split; [reflexivity|]. split; [|reflexivity]. intros Em. exfalso. unfold taken in Frw. rewrite Em in Frw. pose proof (memory_room l Gl Em). lia.
    - split; [exact P2|]. split; [reflexivity|]. split; [intros x Nx; destruct x; try reflexivity; contradiction|]. split; [intros _; transitivity (gp s4 Rsp + 0 + (stack_args fr + padding fr) * 8); [reflexivity | lia]|].
      intros Nm. exfalso. apply R0. unfold taken in Frw. destruct (cls l); try lia. now elim Nm. }
  destruct S5 as (M5 & X5 & G5 & Di5 & E5).
  assert (Rsp5 : gp s5 Rsp = b - 8 * depth gf + rr) by (rewrite G5 by discriminate; lia).
  destruct (Z_lt_ge_dec (gp s5 Rsp) 0) as [Ov|Nv]; [now apply leads_overflow|].
  apply code_at_cons in Cc. destruct Cc as [Cn _]. match type of Cn with nth_error _ ?pp = _ => set (pc5 := pp) in * end.
  assert (Al : gp s5 Rsp mod 16 = 0). { rewrite Rsp5. pose proof (x_aligned X) as Xa. clear -Xa Fal Df Fa Frw Eo. Z.to_euclidean_division_equations; lia. }
  assert (Cd : c_called start args l (snd w) s5).
  { split.
    - exact Al.
    - lia.
    - replace (gp s5 Rsp) with (b - 8 * depth gf + rr) by lia. destruct (class_eq_dec (cls l) Memory) as [Em|Nm]; [|rewrite (E5 Nm); exact P1].
      apply passed_ext with s4; [congruence | exact X5 | | exact P1]. intros y Hy. apply G5. intros ->. exact (Nrdi Em Hy).
    - intros Em. rewrite args_fst, Di5 by exact Em. rewrite <- G5 by discriminate. unfold taken in *. rewrite Em in *. lia.
    - rewrite args_fst. lia.
    - intros y. destruct (i_heap (a_inv A3) y) as [H1 H2]. split; [exact H1|]. rewrite M5. exact H2. }
  destruct (Cf s5 Cd) as (s6 & Hf6 & [B1 B2 B3 B4 B5]). pose proof args_fst as Ea. unfold args, val in Ea. unfold val in B5. rewrite Ea in B5.
  eapply leads_step.
  { rewrite (Hcall pc5 s5 Cn). 2: { rewrite G5 by discriminate. apply P5; [exact Nrax | discriminate | discriminate]. }
    unfold Machine.call. cbn [st fn pc al]. unfold aligned. rewrite (proj2 (Z.eqb_eq _ _) Al), Pn, Hf6. reflexivity. }
  assert (R6 : rest s3 s6).
  { intros x Sx Nx. rewrite B1 by exact Sx. rewrite G5 by (intros ->; discriminate). apply P5; [exact (Nsv x Sx) | intros ->; discriminate | exact Nx]. }
  assert (N6 : norm s6).
  { intros x Nx. destruct (saved x) eqn:Sx; [|now apply B2]. rewrite (R6 x Sx) by (intros ->; discriminate). now apply (i_norm (a_inv A3)). }
  assert (Di : cls l = Memory -> gp s5 Rdi = b - 8 * depth g - taken l).
  { intros Em. rewrite Di5 by exact Em. rewrite <- G5 by discriminate. lia. }
  assert (A6 : At K G ks n m g s (set_depth (depth gf + snd pops) gf) w2 s6).
  { eapply at_later; [exact A3 | | exact R6 | exact N6 | exact B4 | | | reflexivity].
    - intros y Hy _. rewrite B5; [now rewrite M5 | lia|]. intros [Em Hd]. rewrite (Di Em) in Hd. unfold taken in *. rewrite Em in *. lia.
    - rewrite B1 by reflexivity. cbn [set_depth depth]. lia.
    - cbn [set_depth depth]. lia. }
  destruct (at_shrink X (remnants_after_call fr) A6) as (A8 & D8 & M8 & G8 & X8); [cbn [set_depth depth]; lia|]. cbn [set_depth depth] in A8, D8.
  replace (Datatypes.S pc5) with (pc5 + List.length [call])%nat by (cbn [List.length]; lia).
  eapply leads_emit; [exact Cs|]. set (s8 := run _ s6) in *. apply leads_here. exists s8. split; [f_equal; unfold pc5; pos|]. split; [exact A8|].
  destruct B3 as [Lr B3]. destruct (class_eq_dec (cls l) Memory) as [Em|Nm].
  - rewrite Em in B3. apply has_memory; [exact Em | exact Lr|]. rewrite M8. rewrite (i_rsp (a_inv A8)). cbn [set_depth depth]. rewrite (Di Em) in B3.
    replace (b - 8 * _) with (b - 8 * depth g - taken l); [exact B3|]. unfold g5 in D5. cbn [set_depth depth] in D5. lia.
  - apply has_other with s6; [exact Nm | exact G8 | exact X8|]. assert (B3' : exists bs, fits v bs /\ value l bs s6) by (destruct (cls l); try exact B3; now elim Nm).
    destruct B3' as (bs & Fb & Vb). exists bs. split; [|exact Vb]. split; [destruct Vb as [Lb _]; congruence | exact Fb].
Qed.
End Code.

Lemma order_fine used ls l es : Forall (fine used) es -> Forall (fine used) (c_order l ls es).
Proof. clear. intros H. apply Forall_forall. intros y Hy. apply c_order_in in Hy. revert y Hy. now apply Forall_forall. Qed.
Lemma order_all {A} (P : A -> Prop) ls l es : Forall P es -> Forall P (c_order l ls es).
Proof. clear. intros H. apply Forall_forall. intros y Hy. apply c_order_in in Hy. revert y Hy. now apply Forall_forall. Qed.

Lemma gen_call_c sym t es g ls : arg_layouts r es = Ret (Some ls) -> gen (RCallC sym t es) g = gen_c_call r t ls (map gen es) (fun g => ret (CallSym sym) g) g.
Proof. clear. intros H. cbn [Model.gen]. rewrite H. reflexivity. Qed.
Definition addr_callee (kind : nat) (f : rt) (es : list rt) (g : gstate) : res item :=
  match kind, es with
  | 1%nat, _ :: _ | 2%nat, ([] | _ :: _ :: _) => Panic
  | _, _ => do _, g <- gen f g; ret CallRax g
  end.
Lemma gen_call_addr kind f t es g ls : arg_layouts r es = Ret (Some ls) -> gen (RCallAddr kind f t es) g = gen_c_call r t ls (map gen es) (addr_callee kind f es) g.
Proof. clear. intros H. cbn [Model.gen]. rewrite H. reflexivity. Qed.
Lemma addr_callee_inv kind f es g c o g' : addr_callee kind f es g = Ret (c, o, g') -> exists of, gen f g = Ret (c, of, g') /\ o = match of with Some _ => Some CallRax | None => None end.
Proof.
  clear. intros H. assert (H' : (do _, g <- gen f g; ret CallRax g) = Ret (c, o, g')).
  { unfold addr_callee in H. destruct kind as [|[|[|]]]; try exact H; destruct es as [|? [|]]; try exact H; discriminate H. }
  apply andthen_inv in H'. destruct H' as (cf & of & gf & Hf & H'). exists of. destruct of as [lf|].
  - destruct H' as (c2 & H' & ->). apply ret_inv in H'. destruct H' as (-> & -> & ->). rewrite app_nil_r. auto.
  - destruct H' as (-> & -> & ->). auto.
Qed.

Lemma order_room ls vs l : List.length vs = List.length ls -> args_room (c_order l ls (combine ls vs)) = rooms (select true (in_registers l ls) ls) + on_stack l ls.
Proof.
  clear. intros L. rewrite <- args_room_rev, rev_c_order, args_room_app, !select_room. now rewrite (args_fst _ _ L).
Qed.
Lemma ev_call_c G ks sym t es ls vs l w w1 w2 v : get r t = Ret l -> typed r es ls -> List.length vs = List.length ls ->
  Evs G ks (c_order l ls es) w w1 (c_order l ls (combine ls vs)) None -> c_means (symbol M sym) (combine ls vs) l w1 w2 v -> Peval G ks (RCallC sym t es) w w2 (OVal l v).
Proof.
  intros Hg Ht Lv E Cm used g c og g' H Fi Iu. setting. pose proof (typed_good _ _ (x_layouts X) Ht) as Gs. pose proof (reached_good _ (x_layouts X) _ _ Hg) as Gl.
  rewrite (gen_call_c _ _ _ _ _ (typed_layouts _ _ Ht)) in H. destruct (c_call_code _ _ _ _ _ Hg Gs _ _ _ _ H) as (ca & oa & ga & c1 & Ha & -> & Hr). cbv zeta in *.
  set (fr := c_frame (c_args ls l) l (depth g)) in *. set (g1 := set_depth (depth g + snd (extend_stack (padding_before_stack_args fr))) g) in *.
  assert (Fe : Forall (fine used) (c_order l ls es)). { apply order_fine, Forall_forall. intros y Hy. apply (fine_of y Fi eq_refl Hy). }
  destruct (args_static _ _ _ _ _ _ _ _ _ _ _ _ _ _ E _ _ _ _ _ Ha Fe Iu) as (-> & Da & Coa).
  destruct (Hr eq_refl) as (cf & of & gf & c2 & Hfe & -> & Hr2). apply ret_inv in Hfe. destruct Hfe as (-> & -> & ->).
  destruct (Hr2 _ eq_refl) as (-> & Dg' & Cog' & ->). clear Hr Hr2.
  destruct (c_frame_room ls l (depth g) Gs Gl) as (Fa & Frw & Fp & Fpb & Frm & Fal). fold fr in Fa, Frw, Fp, Fpb, Frm, Fal.
  pose proof (extend_static (padding_before_stack_args fr)) as Es.
  assert (D1 : 8 * depth g1 = 8 * depth g + taken l + 8 * padding fr) by (unfold g1; cbn [set_depth depth]; lia).
  set (pops := all (map pop_arg (c_args ls l))) in *.
  pose proof (order_room ls vs l Lv) as Eo.
  assert (D5 : 8 * depth g' = 8 * depth g + taken l).
  { pose proof (shrink_static (remnants_after_call fr)) as Ss. pose proof (c_pops ls l Gs) as Cp. fold pops in Cp. rewrite Eo in Da. lia. }
  split.
  - cbn [stat]. split; [reflexivity|]. split; [exact Gl | exact D5].
  - apply by_value. intros K n m q s Q C P A HQ. apply plain in P; [|reflexivity].
    apply code_at_app in C. destruct C as [C0 C]. apply code_at_app in C. destruct C as [Ca C].
    eapply leads_emit; [exact C0|]. destruct (at_extend X (padding_before_stack_args fr) A) as (A1 & _). fold g1 in A1.
    eapply leads_trans; [exact (args_ok _ _ _ _ _ _ _ X _ _ _ _ _ _ _ E used _ _ _ _ K n m g s _ _ Ha Fe Iu Ca (order_all _ _ _ _ P) A1)|].
    intros cc (s2 & -> & A2 & Ho2 & Fo).
    assert (Hn : forall p s4, nth_error (code_of M F) p = Some (CallSym sym) -> gp s4 Rax = gp s2 Rax -> next_step M (Config F p s4 (fst w1)) = Machine.call M (Config F p s4 (fst w1)) (symbol M sym)).
    { intros p s4 Hn _. unfold next_step. cbn [fn pc st al]. rewrite Hn. reflexivity. }
    destruct (c_call_ok ls l Gs vs (CallSym sym) (symbol M sym) w1 w2 v Lv Gl Cm K G ks n m g s ga s2 _ ltac:(fold fr; lia) A2 Ho2 Fo Hn C) as [_ L]. cbv zeta in L. fold fr pops in L.
    eapply leads_trans; [exact L|]. intros cc (s' & -> & A3 & V). eapply leads_pos; [|apply HQ]; [pos | | exact V].
    eapply at_later; [exact A3 | apply kept_refl | apply rest_refl | exact (i_norm (a_inv A3)) | exact (i_heap (a_inv A3)) | | | ].
    + rewrite (i_rsp (a_inv A3)). cbn [set_depth depth]. fold fr pops. lia.
    + pose proof (taken_bounds l). lia.
    + cbn [set_depth conts]. congruence.
Qed.

Lemma ev_call_c_abrupt G ks sym t es ls vs l w w' o : get r t = Ret l -> typed r es ls -> Evs G ks (c_order l ls es) w w' vs (Some o) -> Peval G ks (RCallC sym t es) w w' o.
Proof.
  intros Hg Ht E used g c og g' H Fi Iu. pose proof (typed_good _ _ (x_layouts X) Ht) as Gs. pose proof (Evs_abrupt _ _ _ _ _ _ _ _ _ _ _ _ _ _ E) as Ab. setting.
  rewrite (gen_call_c _ _ _ _ _ (typed_layouts _ _ Ht)) in H. destruct (c_call_code _ _ _ _ _ Hg Gs _ _ _ _ H) as (ca & oa & ga & c1 & Ha & -> & Hr). cbv zeta in *.
  set (fr := c_frame (c_args ls l) l (depth g)) in *. set (g1 := set_depth (depth g + snd (extend_stack (padding_before_stack_args fr))) g) in *.
  assert (Fe : Forall (fine used) (c_order l ls es)). { apply order_fine, Forall_forall. intros y Hy. apply (fine_of y Fi eq_refl Hy). }
  pose proof (args_static _ _ _ _ _ _ _ _ _ _ _ _ _ _ E _ _ _ _ _ Ha Fe Iu) as St. cbn in St. split.
  - apply stat_abrupt; [exact Ab|]. intros J N. apply (St J). apply order_all, Forall_forall. intros y Hy. eapply jumpless_child; [exact N | exact Hy].
  - apply by_abrupt; [exact Ab|]. intros K n m q s C P A. apply plain in P; [|reflexivity].
    apply code_at_app in C. destruct C as [C0 C]. apply code_at_app in C. destruct C as [Ca C].
    eapply leads_emit; [exact C0|]. destruct (at_extend X (padding_before_stack_args fr) A) as (A1 & _). fold g1 in A1.
    exact (args_ok _ _ _ _ _ _ _ X _ _ _ _ _ _ _ E used _ _ _ _ K n m g s _ _ Ha Fe Iu Ca (order_all _ _ _ _ P) A1).
Qed.

(** Arguments without a type: the code of the first one that stops is all that runs. *)
Lemma never_call x es k G ks w w' vs o : incl es (children x) -> introduced x = [] -> Proofs.unbinding x = true ->
  (forall g, gen x g = let* ls := arg_layouts r es in match ls with None => do _, g <- gen_seq gen es g; Panic | Some ls => k ls g end) ->
  Exists (fun e => rt_ty e = Ret None) es -> Evs G ks es w w' vs (Some o) -> Peval G ks x w w' o.
Proof.
  clear C_ok. intros Hi Hu Hb Hx Hn E used g c og g' H Fi Iu. rewrite Hx in H. pose proof (Evs_abrupt _ _ _ _ _ _ _ _ _ _ _ _ _ _ E) as Ab.
  destruct (arg_layouts r es) as [n'| |] eqn:En; cbn [bind] in H; try discriminate. rewrite (never_layouts _ _ Hn En) in H.
  apply andthen_inv in H. destruct H as (c1 & o1 & g1 & H & Hr).
  assert (Fe : Forall (fine used) es). { apply Forall_forall. intros y Hy. apply (fine_of y Fi Hu), Hi, Hy. }
  destruct o1; [destruct Hr as (c2 & Hr & _); discriminate|]. destruct Hr as (-> & _ & _). split.
  - apply stat_abrupt; [exact Ab|]. intros J N. apply (seq_static _ _ _ _ _ _ _ _ _ _ _ _ _ _ _ _ _ _ _ E H Fe Iu J). apply Forall_forall. intros y Hy. eapply jumpless_child; [exact N | exact (Hi y Hy)].
  - apply by_abrupt; [exact Ab|]. intros K n m p s C P A. apply plain in P; [|exact Hb].
    assert (Pe : Forall (placed n m) es). { rewrite Forall_forall in P. apply Forall_forall. intros y Hy. apply P, Hi, Hy. }
    exact (seq_ok M r known start F b offs X _ _ _ _ _ _ _ _ _ _ _ _ _ _ _ _ _ _ _ E H Fe Iu C Pe A eq_refl).
Qed.
Lemma ev_call_c_never G ks sym t es vs w w' o : Exists (fun e => rt_ty e = Ret None) es -> Evs G ks es w w' vs (Some o) -> Peval G ks (RCallC sym t es) w w' o.
Proof. eapply never_call; [intros y Hy; exact Hy | reflexivity | reflexivity|]. intros g. cbn [Model.gen]. reflexivity. Qed.
Lemma ev_call_addr_never G ks k f t es vs w w' o : Exists (fun e => rt_ty e = Ret None) es -> Evs G ks es w w' vs (Some o) -> Peval G ks (RCallAddr k f t es) w w' o.
Proof. eapply never_call; [intros y Hy; right; exact Hy | reflexivity | reflexivity|]. intros g. cbn [Model.gen]. reflexivity. Qed.

Lemma ev_call_addr G ks k f t es ls vs l a w w1 w2 v : get r t = Ret l -> typed r es ls -> List.length vs = List.length ls -> 0 <= a < 2 ^ 64 ->
  Evs G ks (c_order l ls es ++ [f]) w w1 (c_order l ls (combine ls vs) ++ [(l_pointer, pointer a)]) None -> c_means a (combine ls vs) l w1 w2 v -> Peval G ks (RCallAddr k f t es) w w2 (OVal l v).
Proof.
  intros Hg Ht Lv Ba E Cm. remember (pointer a) as pa eqn:Epa. intros used g c og g' H Fi Iu. setting. pose proof (typed_good _ _ (x_layouts X) Ht) as Gs. pose proof (reached_good _ (x_layouts X) _ _ Hg) as Gl.
  assert (Le : List.length es = List.length ls) by (clear -Ht; induction Ht; cbn; lia).
  destruct (Evs_app _ _ _ _ _ _ _ _ _ _ _ _ _ _ _ E) as [(o & Ho & _) | (w3 & vs1 & vs2 & E1 & E2 & Ev & L1)]; [discriminate|].
  assert (Ev' : vs1 = c_order l ls (combine ls vs) /\ vs2 = [(l_pointer, pa)]).
  { assert (Lc : List.length vs1 = List.length (c_order l ls (combine ls vs))) by (rewrite L1; apply c_order_length; rewrite combine_length; lia).
    clear -Ev Lc. revert vs1 Lc Ev. induction (c_order l ls (combine ls vs)) as [|y l' IH]; intros [|x vs1] Lc Ev; cbn in *; try discriminate; [auto|].
    injection Ev as -> Ev. injection Lc as Lc. destruct (IH vs1 Lc (eq_sym (eq_sym Ev))) as [-> ->]. auto. }
  destruct Ev' as [-> ->]. inversion E2 as [| |? ? ? w4 ? ? ? ? ? Pf E3]; subst. inversion E3; subst. clear E2 E3 Ev.
  rewrite (gen_call_addr _ _ _ _ _ _ (typed_layouts _ _ Ht)) in H. destruct (c_call_code _ _ _ _ _ Hg Gs _ _ _ _ H) as (ca & oa & ga & c1 & Ha & -> & Hr). cbv zeta in *.
  set (fr := c_frame (c_args ls l) l (depth g)) in *. set (g1 := set_depth (depth g + snd (extend_stack (padding_before_stack_args fr))) g) in *.
  assert (Fe : Forall (fine used) (c_order l ls es)). { apply order_fine, Forall_forall. intros y Hy. apply (fine_of y Fi eq_refl). now right. }
  assert (Ff : fine used f) by (apply (fine_of f Fi eq_refl); now left).
  destruct (args_static _ _ _ _ _ _ _ _ _ _ _ _ _ _ E1 _ _ _ _ _ Ha Fe Iu) as (-> & Da & Coa).
  destruct (Hr eq_refl) as (cf & of & gf & c2 & Hfe & -> & Hr2). destruct (addr_callee_inv _ _ _ _ _ _ _ Hfe) as (of' & Hfg & ->). clear Hfe.
  assert (Iu2 : incl (map fst (conts ga)) used) by (rewrite Coa; exact Iu).
  destruct (Pf used ga cf of' gf Hfg Ff Iu2) as [(-> & _ & Df) Dyf].
  pose proof (st_conts _ _ _ (gen_sound r known offs (balanced r) f used ga Ff Iu2 cf (Some l_pointer) gf Hfg)) as Cof.
  destruct (Hr2 _ eq_refl) as (-> & Dg' & Cog' & ->). clear Hr Hr2. change (taken l_pointer) with 0 in *.
  destruct (c_frame_room ls l (depth g) Gs Gl) as (Fa & Frw & Fp & Fpb & Frm & Fal). fold fr in Fa, Frw, Fp, Fpb, Frm, Fal.
  pose proof (extend_static (padding_before_stack_args fr)) as Es.
  assert (D1 : 8 * depth g1 = 8 * depth g + taken l + 8 * padding fr) by (unfold g1; cbn [set_depth depth]; lia).
  set (pops := all (map pop_arg (c_args ls l))) in *. pose proof (order_room ls vs l Lv) as Eo.
  assert (D5 : 8 * depth g' = 8 * depth g + taken l).
  { pose proof (shrink_static (remnants_after_call fr)) as Ss. pose proof (c_pops ls l Gs) as Cp. fold pops in Cp. rewrite Eo in Da. lia. }
  split.
  - cbn [stat]. split; [reflexivity|]. split; [exact Gl | exact D5].
  - apply by_value. intros K n m q s Q C P A HQ. apply plain in P; [|reflexivity]. inversion P as [|? ? Pf' Pes]; subst.
    apply code_at_app in C. destruct C as [C0 C]. apply code_at_app in C. destruct C as [Ca C]. apply code_at_app in C. destruct C as [Cf C].
    eapply leads_emit; [exact C0|]. destruct (at_extend X (padding_before_stack_args fr) A) as (A1 & _). fold g1 in A1.
    eapply leads_trans; [exact (args_ok _ _ _ _ _ _ _ X _ _ _ _ _ _ _ E1 used _ _ _ _ K n m g s _ _ Ha Fe Iu Ca (order_all _ _ _ _ Pes) A1)|].
    intros cc (s2 & -> & A2 & Ho2 & Fo). eapply use_val; [exact Dyf | exact Cf | exact Pf' | exact A2|]. intros s3 A3 Kp3 _ V3.
    pose proof (args_room_nonneg (c_order l ls (combine ls vs))) as An.
    destruct (top X A3) as (T1 & T2 & T3 & T4 & T5 & T6). pose proof (i_levels (a_inv A3)) as Lnm. unfold ProofsInv.lev in T4, T5, T6. pose proof (taken_bounds l) as Tb.
    assert (Ho3 : args_hold (mem s3) (b - 8 * depth gf) (rev (c_order l ls (combine ls vs)))).
    { replace (depth gf) with (depth ga) by lia. eapply args_hold_later; [exact Fo | exact Ho2|]. rewrite args_room_rev. unfold val in *. intros y Hy. apply Kp3; unfold ProofsInv.lev; lia. }
    assert (Rax3 : gp s3 Rax = a) by (apply has_pointer; [exact (i_norm (a_inv A3)) | exact Ba | exact V3]).
    assert (Hn : forall p s4, nth_error (code_of M F) p = Some CallRax -> gp s4 Rax = gp s3 Rax -> next_step M (Config F p s4 (fst w1)) = Machine.call M (Config F p s4 (fst w1)) a).
    { intros p s4 Hn Hx. unfold next_step. cbn [fn pc st al]. rewrite Hn, Hx, Rax3, wrap_small by exact Ba. reflexivity. }
    destruct (c_call_ok ls l Gs vs CallRax a w1 w2 v Lv Gl Cm K G ks n m g s gf s3 _ ltac:(fold fr; lia) A3 Ho3 Fo Hn C) as [_ L]. cbv zeta in L. fold fr pops in L.
    eapply leads_trans; [exact L|]. intros cc (s' & -> & A4 & V). eapply leads_pos; [|apply HQ]; [pos | | exact V].
    eapply at_later; [exact A4 | apply kept_refl | apply rest_refl | exact (i_norm (a_inv A4)) | exact (i_heap (a_inv A4)) | | | ].
    + rewrite (i_rsp (a_inv A4)). cbn [set_depth depth]. fold fr pops. lia.
    + lia.
    + cbn [set_depth conts]. congruence.
Qed.

Lemma ev_call_addr_abrupt G ks k f t es ls vs l w w' o : get r t = Ret l -> typed r es ls -> Evs G ks (c_order l ls es ++ [f]) w w' vs (Some o) -> Peval G ks (RCallAddr k f t es) w w' o.
Proof.
  intros Hg Ht E used g c og g' H Fi Iu. pose proof (typed_good _ _ (x_layouts X) Ht) as Gs. pose proof (Evs_abrupt _ _ _ _ _ _ _ _ _ _ _ _ _ _ E) as Ab. setting.
  rewrite (gen_call_addr _ _ _ _ _ _ (typed_layouts _ _ Ht)) in H. destruct (c_call_code _ _ _ _ _ Hg Gs _ _ _ _ H) as (ca & oa & ga & c1 & Ha & -> & Hr). cbv zeta in *.
  set (fr := c_frame (c_args ls l) l (depth g)) in *. set (g1 := set_depth (depth g + snd (extend_stack (padding_before_stack_args fr))) g) in *.
  assert (Fe : Forall (fine used) (c_order l ls es)). { apply order_fine, Forall_forall. intros y Hy. apply (fine_of y Fi eq_refl). now right. }
  assert (Ff : fine used f) by (apply (fine_of f Fi eq_refl); now left).
  destruct (Evs_app _ _ _ _ _ _ _ _ _ _ _ _ _ _ _ E) as [(o' & Ho & E1) | (w3 & vs1 & vs2 & E1 & E2 & -> & L1)].
  - pose proof (args_static _ _ _ _ _ _ _ _ _ _ _ _ _ _ E1 _ _ _ _ _ Ha Fe Iu) as St. cbn in St. split.
    + apply stat_abrupt; [exact Ab|]. intros J N. apply (St J). apply order_all, Forall_forall. intros y Hy. eapply jumpless_child; [exact N | now right].
    + apply by_abrupt; [exact Ab|]. intros K n m q s C P A. apply plain in P; [|reflexivity]. inversion P as [|? ? Pf' Pes]; subst.
      apply code_at_app in C. destruct C as [C0 C]. apply code_at_app in C. destruct C as [Ca C].
      eapply leads_emit; [exact C0|]. destruct (at_extend X (padding_before_stack_args fr) A) as (A1 & _). fold g1 in A1.
      exact (args_ok _ _ _ _ _ _ _ X _ _ _ _ _ _ _ E1 used _ _ _ _ K n m g s _ _ Ha Fe Iu Ca (order_all _ _ _ _ Pes) A1).
  - destruct (args_static _ _ _ _ _ _ _ _ _ _ _ _ _ _ E1 _ _ _ _ _ Ha Fe Iu) as (-> & Da & Coa).
    destruct (Hr eq_refl) as (cf & of & gf & c2 & Hfe & -> & _). destruct (addr_callee_inv _ _ _ _ _ _ _ Hfe) as (of' & Hfg & ->). clear Hfe.
    assert (Iu2 : incl (map fst (conts ga)) used) by (rewrite Coa; exact Iu).
    assert (Pf : Peval G ks f w3 w' o) by (inversion E2 as [| |? ? ? ? ? ? ? ? ? ? E3]; subst; [assumption | inversion E3]).
    destruct (Pf used ga cf of' gf Hfg Ff Iu2) as [St Dyf]. split.
    + apply stat_abrupt; [exact Ab|]. intros J N. apply jumpless_child with (y := f) in N; [|now left]. destruct o; [destruct Ab | exact (St J N) | exact (St J N)].
    + apply by_abrupt; [exact Ab|]. intros K n m q s C P A. apply plain in P; [|reflexivity]. inversion P as [|? ? Pf' Pes]; subst.
      apply code_at_app in C. destruct C as [C0 C]. apply code_at_app in C. destruct C as [Ca C]. apply code_at_app in C. destruct C as [Cf C].
      eapply leads_emit; [exact C0|]. destruct (at_extend X (padding_before_stack_args fr) A) as (A1 & _). fold g1 in A1.
      eapply leads_trans; [exact (args_ok _ _ _ _ _ _ _ X _ _ _ _ _ _ _ E1 used _ _ _ _ K n m g s _ _ Ha Fe Iu Ca (order_all _ _ _ _ Pes) A1)|].
      intros cc (s2 & -> & A2 & _). eapply use_abrupt; [exact Dyf | exact Ab | exact Cf | exact Pf' | exact A2].
Qed.
End Cases.
