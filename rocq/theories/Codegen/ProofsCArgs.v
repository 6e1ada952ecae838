(** The arguments of C functions. *)
From Coq Require Import ZArith Lia.
From Verif.Base Require Import Base.
From Verif.Ir Require Import Model RtInd.
From Verif.Layout Require Import Model Spec Proofs ProofsResolve.
From Verif.Stack Require Import Machine Model Spec Facts Proofs ProofsValue ProofsMove.
From Verif.Codegen Require Import Model Machine Spec Facts ProofsGen ProofsRun ProofsInv ProofsStatic ProofsEval ProofsCall Foreign.
Local Open Scope Z_scope.

(** ** Which arguments are passed in registers *)
Lemma build_spec l gps fps : good l ->
  match build l gps fps with
  | Some (rs, gps', fps') =>
      by_register l (List.length gps) (List.length fps) = true /\ gps' = skipn (count Integer l) gps /\ fps' = skipn (count FloatingPoint l) fps
  | None => by_register l (List.length gps) (List.length fps) = false
  end.
Proof.
  intros G. unfold build, by_register. destruct (class_eq_dec (cls l) Void) as [E|V]; [now rewrite E|]. destruct (class_eq_dec (cls l) Memory) as [E|Mm]; [now rewrite E|].
  assert (C : cls l = Integer \/ cls l = FloatingPoint) by (destruct (cls l); tauto).
  destruct (small_eightbytes l (good_usable l G) Mm V) as [(c & E & _ & Hc) | (c & c' & E & _ & Hc & Hc')]; unfold count; rewrite E.
  - destruct C as [-> | ->], Hc as [-> | ->], gps as [|g gps], fps as [|x fps]; cbn; auto.
  - destruct C as [-> | ->], Hc as [-> | ->], Hc' as [-> | ->], gps as [|g [|g' gps]], fps as [|x [|x' fps]]; cbn; auto.
Qed.
Lemma args_on_stack ls : forall gps fps, Forall good ls -> map is_stack (c_args_from gps fps ls) = map negb (by_registers ls (List.length gps) (List.length fps)).
Proof.
  induction ls as [|l ls IH]; intros gps fps G; cbn [c_args_from by_registers map]; [reflexivity|]. inversion G as [|? ? G1 G2]; subst.
  pose proof (build_spec l gps fps G1) as B. destruct (build l gps fps) as [[[rs gps'] fps']|].
  - destruct B as (-> & -> & ->). cbn [map is_stack negb]. rewrite IH by exact G2. now rewrite !skipn_length.
  - rewrite B. cbn [map is_stack negb]. now rewrite IH.
Qed.
Lemma gprs_c l : (if is_memory l then tl c_gps else c_gps) = gprs l.
Proof. unfold is_memory, gprs. now destruct (cls l). Qed.
Lemma free_length l : List.length (gprs l) = free_gprs l.
Proof. unfold gprs, free_gprs. now destruct (cls l). Qed.
Lemma c_args_stack l ls : Forall good ls -> map is_stack (c_args ls l) = map negb (in_registers l ls).
Proof. intros G. unfold c_args, in_registers. rewrite gprs_c, args_on_stack by exact G. now rewrite free_length. Qed.
Lemma by_registers_length ls : forall gs xs, List.length (by_registers ls gs xs) = List.length ls.
Proof. induction ls as [|l ls IH]; intros gs xs; cbn; [reflexivity|]. destruct (by_register l gs xs); cbn; now rewrite IH. Qed.
Lemma in_registers_length l ls : List.length (in_registers l ls) = List.length ls.
Proof. apply by_registers_length. Qed.

Lemma order_select {A} cs bs (xs : list A) : map is_stack cs = map negb bs -> push_order cs xs = rev (select false bs xs) ++ rev (select true bs xs).
Proof.
  intros E. unfold push_order. cbv zeta. rewrite map_app, !map_rev. f_equal; f_equal.
  - revert bs xs E. induction cs as [|c cs IH]; intros [|q bs] [|x xs] E; try discriminate E; try reflexivity. cbn [map] in E. injection E as E1 E2. cbn [combine filter snd select].
    rewrite E1. destruct q; cbn [negb Bool.eqb map fst]; now rewrite (IH bs).
  - revert bs xs E. induction cs as [|c cs IH]; intros [|q bs] [|x xs] E; try discriminate E; try reflexivity. cbn [map] in E. injection E as E1 E2. cbn [combine filter snd select].
    rewrite E1. destruct q; cbn [negb Bool.eqb map fst]; now rewrite (IH bs).
Qed.
Lemma push_order_c {A} l ls (xs : list A) : Forall good ls -> push_order (c_args ls l) xs = c_order l ls xs.
Proof. intros G. apply order_select, c_args_stack, G. Qed.
Lemma select_in {A} q bs (xs : list A) x : In x (select q bs xs) -> In x xs.
Proof. revert xs. induction bs as [|q' bs IH]; intros [|y xs]; cbn; try tauto. destruct (Bool.eqb q' q); cbn; intuition. Qed.
Lemma c_order_in {A} l ls (xs : list A) x : In x (c_order l ls xs) -> In x xs.
Proof. unfold c_order. rewrite in_app_iff, <- !in_rev. intros [H|H]; eauto using select_in. Qed.
Lemma rev_c_order {A} l ls (xs : list A) : rev (c_order l ls xs) = select true (in_registers l ls) xs ++ select false (in_registers l ls) xs.
Proof. unfold c_order. now rewrite rev_app_distr, !rev_involutive. Qed.
Lemma c_order_length {A B} l ls (xs : list A) (ys : list B) : List.length xs = List.length ys -> List.length (c_order l ls xs) = List.length (c_order l ls ys).
Proof.
  intros E. unfold c_order. rewrite !app_length, !rev_length.
  assert (S : forall q, List.length (select q (in_registers l ls) xs) = List.length (select q (in_registers l ls) ys)).
  { intros q. revert ys E. generalize (in_registers l ls) as bs. induction xs as [|x xs IH]; intros bs [|y ys] E; try discriminate E; destruct bs as [|q' bs]; try reflexivity. cbn. destruct (Bool.eqb q' q); cbn; rewrite (IH bs ys) by (cbn in E; lia); reflexivity. }
  now rewrite !S.
Qed.
Lemma select_room (args : list (layout * val)) q bs : args_room (select q bs args) = rooms (select q bs (map fst args)).
Proof. revert bs. induction args as [|[l v] args IH]; intros [|q' bs]; try reflexivity. cbn [select map fst]. destruct (Bool.eqb q' q); cbn; rewrite IH; reflexivity. Qed.

(** ** Arguments are popped into their registers *)
Lemma in_regs_ext bs s s' : forall es gs xs, in_regs es gs xs bs s ->
  (forall g, In g (firstn (List.length (filter (fun e => class_eqb (e_class e) Integer) es)) gs) -> gp s' g = gp s g) ->
  (forall x, In x (firstn (List.length (filter (fun e => class_eqb (e_class e) FloatingPoint) es)) xs) -> xm s' x = xm s x) -> in_regs es gs xs bs s'.
Proof.
  induction es as [|e es IH]; intros gs xs H Hg Hx; [exact Logic.I|]. cbn [in_regs filter] in *.
  destruct (e_class e); try contradiction; [destruct gs as [|g gs]; [contradiction|] | destruct xs as [|x xs]; [contradiction|]]; cbn [class_eqb List.length firstn In] in *; destruct H as [H1 H2].
  - split; [rewrite Hg by (now left); exact H1|]. apply IH; auto.
  - split; [rewrite Hx by (now left); exact H1|]. apply IH; auto.
Qed.
Definition arg_regs (gps : list gpr) : Prop := NoDup gps /\ Forall (fun g => g <> R10 /\ g <> R11 /\ g <> Rsp) gps.

Lemma pop_arg_ok l gps fps rs gps' fps' bs s : good l -> build l gps fps = Some (rs, gps', fps') -> arg_regs gps -> NoDup fps ->
  List.length bs = length_of l -> in_mem (mem s) (gp s Rsp) bs -> let s' := run (fst (pop_arg (InReg rs))) s in
  in_regs (eightbytes l) gps fps bs s' /\ mem s' = mem s /\ gp s' Rsp = gp s Rsp + room l /\ 8 * snd (pop_arg (InReg rs)) = - room l /\
  (forall g, ~ In g (firstn (count Integer l) gps) -> g <> R11 -> g <> Rsp -> gp s' g = gp s g) /\
  (forall x, ~ In x (firstn (count FloatingPoint l) fps) -> xm s' x = xm s x).
Proof.
  intros G Hb [Nd Fo] Nx Lb Hm. unfold build in Hb.
  assert (Hb' : assign_all (eightbytes l) gps fps = Some (rs, gps', fps')) by (destruct (cls l); congruence || discriminate).
  assert (Mm : cls l <> Memory) by (intros E; rewrite E in Hb; discriminate). assert (V : cls l <> Void) by (intros E; rewrite E in Hb; discriminate). clear Hb.
  unfold length_of in Lb. unfold count. destruct (small_eightbytes l (good_usable l G) Mm V) as [(c & E & S & Hc) | (c & c' & E & S & Hc & Hc')]; rewrite E in *.
  - assert (R8 : room l = 8) by (unfold room; Z.to_euclidean_division_equations; lia). rewrite R8.
    assert (Hr : exists rg, rs = [Assign 0 (size l) rg] /\ value_reg rg /\ match c with Integer => exists gr, gps = match rg with Gpr g => g | _ => Rax end :: gr /\ rg = Gpr (hd Rax gps) | _ => exists xr, fps = match rg with Xmm x => x | _ => O end :: xr /\ rg = Xmm (hd O fps) end).
    { destruct Hc as [-> | ->]; cbn in Hb'; [destruct gps as [|g gps]; [discriminate|] | destruct fps as [|x fps]; [destruct gps; discriminate|]]; [injection Hb' as <- _ _ | assert (Hb2 : Some ([Assign 0 (size l) (Xmm x)], gps, fps) = Some (rs, gps', fps')) by (destruct gps; exact Hb'); injection Hb2 as <- _ _].
      - exists (Gpr g). split; [reflexivity|]. split; [now inversion Fo|]. exists gps. auto.
      - exists (Xmm x). split; [reflexivity|]. split; [exact Logic.I|]. exists fps. auto. }
    destruct Hr as (rg & -> & Vr & Hr). cbn [pop_arg map all Stack.Model.andthen nothing fst snd a_reg]. rewrite app_nil_r.
    destruct (pop_reg_ok rg bs s Vr Hm ltac:(lia)) as (A & B & C & D & X & De). cbv zeta. rewrite De, B, C. cbn [in_regs e_class e_offset e_size].
    assert (P : part bs 0 (size l) = bs) by (apply part_all; lia). rewrite P.
    destruct Hc as [-> | ->]; destruct Hr as (rr & Hr1 & Hr2); rewrite Hr2 in *; cbn [reg_holds] in A.
    + destruct gps as [|g gps]; [discriminate|]. cbn [hd] in *. cbn [filter e_class class_eqb List.length firstn]. do 4 (split; [solve [auto | lia]|]). split.
      * intros g' N1 N2 N3. apply D; [exact N2 | exact N3|]. intros H0. injection H0 as ->. apply N1. now left.
      * intros x _. apply X. discriminate.
    + destruct fps as [|x fps]; [discriminate|]. cbn [hd] in *. cbn [filter e_class class_eqb List.length firstn]. destruct gps as [|g0 gps0]; (do 4 (split; [solve [auto | lia]|]); split;
      [intros g' N1 N2 N3; apply D; [exact N2 | exact N3 | discriminate] | intros x' N1; apply X; intros H0; injection H0 as ->; apply N1; now left]).
  - assert (R8 : room l = 16) by (unfold room; Z.to_euclidean_division_equations; lia). rewrite R8.
    assert (Hr : exists rg rg', rs = [Assign 0 8 rg; Assign 8 (size l - 8) rg'] /\ value_reg rg /\ value_reg rg' /\ rg <> rg' /\
      (forall s', reg_holds rg (part bs 0 8) s' -> reg_holds rg' (part bs 8 (size l - 8)) s' -> in_regs [Eightbyte 0 8 c; Eightbyte 8 (size l - 8) c'] gps fps bs s') /\
      (forall g, Gpr g = rg \/ Gpr g = rg' -> In g (firstn (List.length (filter (fun e => class_eqb (e_class e) Integer) [Eightbyte 0 8 c; Eightbyte 8 (size l - 8) c'])) gps)) /\
      (forall x, Xmm x = rg \/ Xmm x = rg' -> In x (firstn (List.length (filter (fun e => class_eqb (e_class e) FloatingPoint) [Eightbyte 0 8 c; Eightbyte 8 (size l - 8) c'])) fps))).
    { destruct Hc as [-> | ->], Hc' as [-> | ->].
      - destruct gps as [|g [|g' gps]]; try discriminate. injection Hb' as <- _ _. exists (Gpr g), (Gpr g'). inversion Fo as [|? ? F1 F2]; subst. inversion F2 as [|? ? F3 _]; subst. inversion Nd as [|? ? N1 _]; subst.
        split; [reflexivity|]. split; [exact F1|]. split; [exact F3|]. split; [intros H; injection H as ->; apply N1; now left|]. split; [intros s' H1 H2; cbn; auto|].
        split; [intros y [H|H]; injection H as ->; cbn; tauto | intros y [H|H]; discriminate].
      - destruct gps as [|g gps]; [discriminate|]. destruct fps as [|x fps]; [destruct gps; discriminate|]. assert (Er : rs = [Assign 0 8 (Gpr g); Assign 8 (size l - 8) (Xmm x)]) by (destruct gps; now injection Hb' as <- _ _). subst rs.
        exists (Gpr g), (Xmm x). inversion Fo as [|? ? F1 F2]; subst. split; [reflexivity|]. split; [exact F1|]. split; [exact Logic.I|]. split; [discriminate|]. split; [intros s' H1 H2; destruct gps; cbn; auto|].
        split; intros y [H|H]; try discriminate; injection H as ->; cbn; tauto.
      - destruct fps as [|x fps]; [destruct gps; discriminate|]. destruct gps as [|g gps]; [discriminate|]. assert (Er : rs = [Assign 0 8 (Xmm x); Assign 8 (size l - 8) (Gpr g)]) by (destruct fps; now injection Hb' as <- _ _). subst rs.
        exists (Xmm x), (Gpr g). inversion Fo as [|? ? F1 F2]; subst. split; [reflexivity|]. split; [exact Logic.I|]. split; [exact F1|]. split; [discriminate|]. split; [intros s' H1 H2; destruct fps; cbn; auto|].
        split; intros y [H|H]; try discriminate; injection H as ->; cbn; tauto.
      - destruct fps as [|x [|x' fps]]; try (destruct gps; discriminate). assert (Er : rs = [Assign 0 8 (Xmm x); Assign 8 (size l - 8) (Xmm x')]) by (destruct gps; now injection Hb' as <- _ _). subst rs.
        exists (Xmm x), (Xmm x'). inversion Nx as [|? ? N1 _]; subst.
        split; [reflexivity|]. split; [exact Logic.I|]. split; [exact Logic.I|]. split; [intros H; injection H as ->; apply N1; now left|]. split; [intros s' H1 H2; destruct gps; cbn; auto|].
        split; [intros y [H|H]; discriminate | intros y [H|H]; injection H as ->; cbn; tauto]. }
    destruct Hr as (rg & rg' & -> & Vr & Vr' & Nr & Ir & Ig & Ix). cbn [pop_arg map all Stack.Model.andthen nothing fst snd a_reg]. rewrite app_nil_r, run_app.
    pose proof (in_mem_part _ _ _ 0 8 Hm) as H1. rewrite Z.add_0_r in H1. pose proof (in_mem_part _ _ _ 8 (size l - 8) Hm) as H2.
    destruct (pop_reg_ok rg _ s Vr H1 ltac:(rewrite part_length; lia)) as (A & B & C & D & X & De). set (t := run (fst (pop_eightbyte rg)) s) in *.
    rewrite <- C in H2. change (Z.of_N 8) with 8 in H2. rewrite <- B in H2.
    destruct (pop_reg_ok rg' _ t Vr' H2 ltac:(rewrite part_length; lia)) as (A2 & B2 & C2 & D2 & X2 & De2). cbv zeta. set (u := run (fst (pop_eightbyte rg')) t) in *.
    rewrite De, De2, B2, C2, B, C. split; [apply Ir; [|exact A2]|].
    { destruct rg as [g|x|]; cbn [reg_holds value_reg] in *; [rewrite D2 by (tauto || congruence); exact A | rewrite X2 by congruence; exact A | exact A]. }
    do 3 (split; [solve [auto | lia]|]). split.
    + intros g N1 N2 N3. rewrite D2, D; auto; intros H0; apply N1, Ig; auto.
    + intros x N1. rewrite X2, X; auto; intros H0; apply N1, Ix; auto.
Qed.
