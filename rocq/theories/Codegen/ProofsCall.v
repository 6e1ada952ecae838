(** Calls. *)
From Coq Require Import ZArith Lia.
From Verif.Base Require Import Base.
From Verif.Ir Require Import Model RtInd.
From Verif.Layout Require Import Model Spec Proofs ProofsResolve.
From Verif.Frame Require Model.
From Verif.Frame Require Spec Proofs.
From Verif.Stack Require Import Machine Model Spec Facts Proofs ProofsValue ProofsMove.
From Verif.Codegen Require Import Model Machine Spec Facts ProofsGen ProofsFrame ProofsRun ProofsInv ProofsStatic ProofsEval ProofsSimple ProofsHeap ProofsAlloc ProofsEach ProofsStruct.
Local Open Scope Z_scope.

Section Cases.
Variable M : machine.
Variable r : resolver.
Variable known : nat -> bool.
Variable start : Z.
Variable F : nat.
Variable b : Z.
Variable offs : list (nat * Z).
Hypothesis X : setting M r start F b.

Notation heap_ok := (heap_ok start).
Notation leads := (leads M).
Notation code_at := (code_at M F).
Notation chain := (chain (type_words r) offs).
Notation placed := (placed (type_words r) offs).
Notation placed_lets := (placed_lets (type_words r) offs).
Notation kept := (kept start b).
Notation lev := (lev b).
Notation vars_ok := (vars_ok start b offs).
Notation konts_ok := (konts_ok M r F offs).
Notation Inv := (Inv M r start F b offs).
Notation At := (At M r start F b offs).
Notation leaves := (leaves M start F b offs).
Notation gen := (gen r known offs).
Notation fine := (fine (balanced r)).
Notation world := (world (memo M)).
Notation fun_address := (fun f => address M f 0).

Notation Dyn := (Dyn M r start F b offs).
Notation Peval := (Peval M r start F b offs known).
Ltac setting := let a := fresh "Xb" in let c := fresh "Xs" in pose proof (x_below X) as a; pose proof (x_start X) as c.
Ltac pos := repeat rewrite app_length; cbn [fst keep map List.length]; unfold at_rdi; lia.

(** ** Arguments on the stack *)
Fixpoint args_hold (mm : Z -> Z) (a : Z) (vs : list (layout * val)) : Prop :=
  match vs with
  | [] => True
  | (l, v) :: vs => holds mm a v /\ args_hold mm (a + room l) vs
  end.
Fixpoint args_room (vs : list (layout * val)) : Z := match vs with [] => 0 | (l, _) :: vs => room l + args_room vs end.
Lemma args_room_app vs vs' : args_room (vs ++ vs') = args_room vs + args_room vs'.
Proof. clear. induction vs as [|[l v] vs IH]; cbn [args_room app rev]; [reflexivity | rewrite IH; lia]. Qed.
Lemma args_room_rev vs : args_room (rev vs) = args_room vs.
Proof. clear. induction vs as [|[l v] vs IH]; cbn [args_room app rev]; [reflexivity|]. rewrite args_room_app, IH. cbn [args_room]. lia. Qed.
Lemma room_nonneg l : 0 <= room l. Proof. clear. pose proof (room_size l). lia. Qed.
Lemma args_room_nonneg vs : 0 <= args_room vs.
Proof. clear. induction vs as [|[l v] vs IH]; cbn [args_room app rev]; [lia|]. pose proof (room_nonneg l). lia. Qed.
Lemma args_hold_later mm mm' vs : Forall (fun v => List.length (snd v) = length_of (fst v)) vs -> forall a, args_hold mm a vs -> (forall x, a <= x < a + args_room vs -> mm' x = mm x) -> args_hold mm' a vs.
Proof.
  clear. induction 1 as [|[l v] vs L _ IH]; intros a H E; cbn [args_hold args_room fst snd] in *; [exact Logic.I|]. destruct H as [H1 H2]. pose proof (room_size l). pose proof (args_room_nonneg vs). unfold length_of in L. split.
  - eapply holds_ext; [exact H1|]. intros i Hi. apply E. lia.
  - apply IH; [exact H2|]. intros x Hx. apply E. lia.
Qed.

Lemma args_hold_app mm vs vs' : forall a, args_hold mm a (vs ++ vs') <-> args_hold mm a vs /\ args_hold mm (a + args_room vs) vs'.
Proof.
  clear. induction vs as [|[l v] vs IH]; intros a; cbn [app args_hold args_room].
  - rewrite Z.add_0_r. tauto.
  - rewrite IH. rewrite Z.add_assoc. tauto.
Qed.

(** What a call does, seen from just after the return address has been pushed. *)
Definition gives (l : layout) (v : val) (dst : Z) (s' : state) : Prop :=
  match cls l with Memory => List.length v = length_of l /\ holds (mem s') dst v | _ => has l v s' end.
Definition into (l : layout) (dst a : Z) : Prop := match cls l with Memory => dst <= a < dst + room l | _ => False end.
Definition Papply (id : nat) (ev : val) (ls : list layout) (vs : list val) (w w' : world) (l : layout) (v : val) : Prop :=
  good l /\ position M (address M id 0) = Some (id, 0%nat) /\
  forall f0 p0 s top, gp s Rsp mod 16 = 8 -> read 8 (mem s) (gp s Rsp) = address M f0 p0 -> position M (address M f0 p0) = Some (f0, p0) ->
  args_hold (mem s) (gp s Rsp + 8) (rev (combine ls vs)) -> top = gp s Rsp + 8 + args_room (combine ls vs) -> top <= start ->
  norm s -> heap_ok (snd w) s -> 0 <= gp s Rbp < 2 ^ 64 ->
  (forall p, ev = pointer p -> 0 <= p < 2 ^ 64 -> gp s Rsi = p) ->
  (cls l = Memory -> top <= gp s Rdi /\ 0 <= gp s Rdi < 2 ^ 64 /\ gp s Rdi + room l <= start) ->
  leads (fun cf => exists s', cf = Config f0 p0 s' (fst w') /\ gp s' Rsp = gp s Rsp + 8 /\ rest s s' /\ norm s' /\ heap_ok (snd w') s' /\
    gives l v (gp s Rdi) s' /\ forall a, gp s Rsp + 8 <= a < start -> ~ into l (gp s Rdi) a -> mem s' a = mem s a)
    (Config id 0 s (fst w)).

Lemma ret_taken l : good l -> 8 * ret_on_stack l = taken l.
Proof.
  clear. intros Gl. unfold ret_on_stack. destruct (shape_of l (good_usable l Gl)) as [E S L | r E1 S _ L _ _ | r r' E1 S _ L _ _ _ _ | E S L]; rewrite L.
  - unfold taken. rewrite E. unfold words, num_eightbytes. rewrite S. reflexivity.
  - unfold taken. destruct (cls l); congruence || reflexivity.
  - unfold taken. destruct (cls l); congruence || reflexivity.
  - unfold taken. rewrite E, room_words. lia.
Qed.
Lemma args_fold ls vs : List.length vs = List.length ls -> forall z, 8 * fold_left (fun sum l => sum + words l) ls z = 8 * z + args_room (combine ls vs).
Proof.
  clear. revert vs. induction ls as [|l ls IH]; intros [|v vs] L z; cbn [fold_left combine args_room List.length] in *; try discriminate; [lia|]. rewrite (IH vs) by congruence. rewrite room_words. lia.
Qed.
Lemma has_memory l v s : cls l = Memory -> List.length v = length_of l -> holds (mem s) (gp s Rsp) v -> has l v s.
Proof.
  clear. intros E L H. exists (bytes_of (mem s) (gp s Rsp) (List.length v)). split; [now apply match_bytes|]. split; [rewrite bytes_of_length; exact L|].
  rewrite E. intros i z Hi. pose proof (nth_bound _ _ _ Hi) as B. rewrite bytes_of_length in B. rewrite nth_bytes_of in Hi by exact B. congruence.
Qed.

Section Args.
Variables (G : env) (ks : Frame.Spec.conts) (es : list rt) (vs : list (layout * val)) (w w' : world) (x : option result).
Hypothesis E : Evs M r known start F b offs G ks es w w' vs x.
Lemma after_push i k l cc : nth_error (map (fun (_ : rt) l => Ret (push l)) es) i = Some k -> k l = Ret cc -> cc = push l.
Proof. intros H. rewrite nth_error_map in H. destruct (nth_error es i); [|discriminate]. injection H as <-. congruence. Qed.
Lemma args_static used g c og g' : gen_each gen (map (fun _ l => Ret (push l)) es) es g = Ret (c, og, g') -> Forall (fine used) es -> incl (map fst (conts g)) used ->
  match x with
  | None => og = Some tt /\ 8 * depth g' = 8 * depth g + args_room vs /\ conts g' = conts g
  | Some o => is_jump o -> ~ Forall jumpless es
  end.
Proof.
  intros H Fi Iu. assert (Ar : forall i, exists z, args_room (firstn i vs) = 8 * z).
  { clear. intros i. induction (firstn i vs) as [|[l v] l' (z & IH)]; cbn [args_room]; [exists 0; reflexivity|]. exists (words l + z). rewrite room_words, IH. lia. }
  pose proof (each_static _ _ _ _ _ _ _ _ _ _ _ _ _ _ E _ (fun i => depth g + args_room (firstn i vs) / 8) used _ _ _ _ H) as St.
  destruct x as [o|].
  - apply St; [apply map_length | exact Fi | exact Iu | cbn [firstn args_room]; change (0 / 8) with 0; lia|].
    intros i k l v cc Hk Hv Gl Hc. rewrite (after_push _ _ _ _ Hk Hc), (firstn_snoc _ _ _ Hv), args_room_app. cbn [args_room]. pose proof (push_static l (good_usable l Gl)).
    destruct (Ar i) as (z & ->). rewrite room_words in *. Z.to_euclidean_division_equations. lia.
  - destruct St as (R1 & R2 & R3); [apply map_length | exact Fi | exact Iu | cbn [firstn args_room]; change (0 / 8) with 0; lia| |].
    + intros i k l v cc Hk Hv Gl Hc. rewrite (after_push _ _ _ _ Hk Hc), (firstn_snoc _ _ _ Hv), args_room_app. cbn [args_room]. pose proof (push_static l (good_usable l Gl)).
      destruct (Ar i) as (z & ->). rewrite room_words in *. Z.to_euclidean_division_equations. lia.
    + split; [exact R1|]. split; [|exact R3]. rewrite R2. pose proof (Evs_length _ _ _ _ _ _ _ _ _ _ _ _ _ E) as L. rewrite firstn_all2 by lia. destruct (Ar (List.length vs)) as (z & Hz). rewrite firstn_all in Hz. Z.to_euclidean_division_equations. lia.
Qed.
Lemma args_ok used g c og g' K n m g0 s0 p s : gen_each gen (map (fun _ l => Ret (push l)) es) es g = Ret (c, og, g') -> Forall (fine used) es -> incl (map fst (conts g)) used ->
  code_at p c -> Forall (placed n m) es -> At K G ks n m g0 s0 g w s ->
  leads (fun cf => match x with
                   | None => exists s', cf = Config F (p + List.length c) s' (fst w') /\ At K G ks n m g0 s0 g' w' s' /\
                       args_hold (mem s') (b - 8 * depth g') (rev vs) /\ Forall (fun v => List.length (snd v) = length_of (fst v)) (rev vs)
                   | Some o => leaves K n o w' s0 cf
                   end) (Config F p s (fst w)).
Proof.
  intros H Fi Iu C Pl A. setting. set (R := fun i (g1 : gstate) (w1 : world) s1 => At K G ks n m g0 s0 g1 w1 s1 /\ 8 * depth g1 = 8 * depth g + args_room (firstn i vs) /\
      args_hold (mem s1) (b - 8 * depth g1) (rev (firstn i vs)) /\ Forall (fun v => List.length (snd v) = length_of (fst v)) (rev (firstn i vs))).
  eapply leads_trans; [refine (each_ok _ _ _ _ _ _ _ _ _ _ _ _ _ _ E _ used _ _ _ _ H _ Fi Iu K n m p s R C Pl _ _ _)|].
  - apply map_length.
  - intros i g1 w1 s1 R1. apply R1.
  - intros i k l v cc g1 w1 s1 g2 w2 s2 Hk Hv Gl Hc (A1 & D1 & Ho & Fo) A2 De V. rewrite (after_push _ _ _ _ Hk Hc).
    pose proof (args_room_nonneg (firstn i vs)) as Nn. pose proof (a_depth A).
    destruct (at_push X l v (depth g1) (at_trans A1 A2) Gl V De) as (A3 & D3 & Ho3 & So3); [lia|]. set (s3 := run (fst (push l)) s2) in *.
    split; [exact A3|]. rewrite (firstn_snoc _ _ _ Hv), args_room_app, rev_app_distr. cbn [args_room rev app args_hold set_depth depth]. split; [lia|]. split.
    + split; [exact Ho3|]. replace (b - 8 * (depth g2 + snd (push l)) + room l) with (b - 8 * depth g1) by lia. eapply args_hold_later; [exact Fo | exact Ho|].
      rewrite args_room_rev. intros a Ha. destruct (top X A) as (T1 & T2 & T3 & T4 & T5 & T6). rewrite So3 by lia. apply (a_kept A2); [lia|]. lia.
    + constructor; [exact (has_length _ _ _ V) | exact Fo].
  - split; [exact A|]. cbn [firstn args_room rev args_hold]. split; [lia|]. split; [exact Logic.I | constructor].
  - intros cf Hcf. apply leads_here. destruct x as [o|].
    + destruct Hcf as (i & g1 & w1 & s1 & (A1 & _) & Hlv). eapply leaves_from; eassumption.
    + destruct Hcf as (s' & -> & A1 & _ & Ho & Fo). pose proof (Evs_length _ _ _ _ _ _ _ _ _ _ _ _ _ E) as L. rewrite firstn_all2 in Ho, Fo by lia. exists s'. auto.
Qed.
End Args.

(** ** The call *)
Lemma call_code f es ts t l g c og g' : gen (RCall f es) g = Ret (c, og, g') -> rt_ty f = Ret (Some (CtClos ts t)) -> get r t = Ret l ->
  exists ps, layouts r ts = Ret ps /\ let fr := new_frame ps l (depth g) in
  let g1 := set_depth (depth g + snd (extend_stack (padding_before_stack_args fr))) g in
  exists ca oa ga c1, gen_each gen (map (fun _ l => Ret (push l)) es) es g1 = Ret (ca, oa, ga) /\ c = map I (fst (extend_stack (padding_before_stack_args fr))) ++ ca ++ c1 /\
  (oa = Some tt -> exists cf of gf c2, gen f ga = Ret (cf, of, gf) /\ c1 = cf ++ c2 /\
    (forall lf, of = Some lf -> og = Some l /\ depth g' = depth gf + snd (shrink_stack (remnants_after_call fr)) /\ conts g' = conts gf /\
      c2 = map I [Movq Rsi Rdx] ++ map I (match offset_to_ret_destination fr with Some o => [Leaq Rdi (at_rsp o)] | None => [] end) ++ [CallRax] ++ map I (fst (shrink_stack (remnants_after_call fr))))).
Proof.
  intros H Hf Hg. cbn [Model.gen] in H. rewrite Hf in H. cbn [bind] in H. apply need_then in H. destruct H as (l' & El & H). rewrite Hg in El. injection El as <-.
  apply need_then in H. destruct H as (ps & Ep & H). exists ps. split; [exact Ep|]. cbv zeta in H |- *. apply emit_then in H. destruct H as (c1 & H & ->).
  apply andthen_inv in H. destruct H as (ca & oa & ga & Ha & H). exists ca, oa, ga. destruct oa as [[]|].
  - destruct H as (c2 & H & ->). exists c2. split; [exact Ha|]. split; [reflexivity|]. intros _. apply andthen_inv in H. destruct H as (cf & of & gf & Hfe & H). exists cf, of, gf.
    destruct of as [lf|].
    + destruct H as (c3 & H & ->). exists c3. split; [exact Hfe|]. split; [reflexivity|]. intros _ _.
      apply emit_then in H. destruct H as (c4 & H & ->). apply emit_then in H. destruct H as (c5 & H & ->). apply out_then in H. destruct H as (c6 & H & ->).
      apply emit_then in H. destruct H as (c7 & H & ->). apply ret_inv in H. destruct H as (-> & -> & ->). rewrite app_nil_r. split; [reflexivity|].
      cbn [set_depth depth conts keep snd fst]. split; [lia|]. split; reflexivity.
    + destruct H as (-> & _). exists []. rewrite app_nil_r. split; [exact Hfe|]. split; [reflexivity | discriminate].
  - destruct H as (-> & _). exists []. rewrite app_nil_r. split; [exact Ha|]. split; [reflexivity | discriminate].
Qed.

Lemma layouts_of ts ls ps : Forall2 (fun t l => get r t = Ret l) ts ls -> layouts r ts = Ret ps -> ps = ls.
Proof.
  clear. intros H. revert ps. induction H as [|t l ts ls Hg _ IH]; intros ps E; cbn [layouts] in E; [congruence|].
  rewrite Hg in E. cbn [bind] in E. destruct (layouts r ts) as [ls'| |]; cbn [bind] in E; try discriminate. rewrite (IH ls' eq_refl) in E. congruence.
Qed.
Lemma frame_room ls vs l d : List.length vs = List.length ls -> good l -> let fr := new_frame ls l d in
  8 * stack_args fr = args_room (combine ls vs) /\ 8 * ret_words fr = taken l /\ 0 <= padding fr <= 1 /\
  room (padding_before_stack_args fr) = taken l + 8 * padding fr /\ room (remnants_after_call fr) = args_room (combine ls vs) + 8 * padding fr /\
  (d + ret_words fr + stack_args fr + padding fr) mod 2 = 0.
Proof.
  clear. intros L Gl fr. pose proof (args_fold ls vs L 0) as Af. pose proof (ret_taken l Gl) as Rt. pose proof (args_room_nonneg (combine ls vs)) as An. pose proof (taken_bounds l) as Tb.
  assert (Ea : 8 * stack_args fr = args_room (combine ls vs)) by (unfold fr, new_frame; cbn [stack_args]; lia).
  assert (Er : 8 * ret_words fr = taken l) by (unfold fr, new_frame; cbn [ret_words]; lia).
  assert (Ep : padding fr = (d + ret_words fr + stack_args fr) mod 2) by reflexivity.
  pose proof (Z.mod_pos_bound (d + ret_words fr + stack_args fr) 2 eq_refl) as Mb.
  split; [exact Ea|]. split; [exact Er|]. split; [lia|].
  unfold padding_before_stack_args, remnants_after_call, memory. rewrite !room_memory. split; [lia|]. split; [lia|].
  rewrite Ep. Z.to_euclidean_division_equations. lia.
Qed.

Lemma in_regs_other bs s s' : (forall x, x <> Rsp -> gp s' x = gp s x) -> xm s' = xm s ->
  forall es gs xs, Forall (fun g => g <> Rsp) gs -> in_regs es gs xs bs s -> in_regs es gs xs bs s'.
Proof.
  clear. intros Hg Hx. induction es as [|e es IH]; intros gs xs Hn H; [exact Logic.I|]. cbn [in_regs] in *.
  destruct (e_class e); try contradiction; [destruct gs as [|g gs]; [contradiction|] | destruct xs as [|x xs]; [contradiction|]]; destruct H as [H1 H2].
  - inversion Hn as [|? ? G1 G2]; subst. split; [|now apply IH]. now rewrite Hg.
  - split; [now rewrite Hx | now apply IH].
Qed.
Lemma has_other l v s s' : cls l <> Memory -> (forall x, x <> Rsp -> gp s' x = gp s x) -> xm s' = xm s -> has l v s -> has l v s'.
Proof.
  clear. intros N Hg Hx (bs & Hm & L & V). exists bs. split; [exact Hm|]. split; [exact L|]. destruct (cls l); try exact V; try contradiction.
  - eapply in_regs_other; [exact Hg | exact Hx | repeat constructor; discriminate | exact V].
  - eapply in_regs_other; [exact Hg | exact Hx | repeat constructor; discriminate | exact V].
Qed.
Lemma read_written a z s : 0 <= z < 2 ^ 64 -> read 8 (mem (write 8 a z s)) a = z.
Proof.
  clear. intros Hz. apply read_le; [|exact Hz]. intros i x Hi. pose proof (nth_bound _ _ _ Hi) as B. rewrite le_length in B. rewrite nth_le in Hi by exact B. injection Hi as <-.
  now apply cell_write_in.
Qed.

Lemma clos_good : good l_clos. Proof. clear. eapply (base_good (CtClos [] CtUnit)). constructor. Qed.

Lemma memory_room l : good l -> cls l = Memory -> 0 < room l.
Proof. clear. intros G E. destruct (shape_of _ (good_usable _ G)); try congruence. rewrite room_words. unfold words. pose proof (words_bounds l). lia. Qed.
Lemma ev_call G ks f es w w1 w2 ts t ls vs id ev l v : rt_ty f = Ret (Some (CtClos ts t)) -> get r t = Ret l -> Forall2 (fun t l => get r t = Ret l) ts ls ->
  Evs M r known start F b offs G ks (es ++ [f]) w w1 (combine ls vs ++ [(l_clos, pointer (fun_address id) ++ ev)]) None ->
  List.length vs = List.length ls -> List.length es = List.length ls -> Papply id ev ls vs w1 w2 l v -> Peval G ks (RCall f es) w w2 (OVal l v).
Proof.
  intros Hf Hg Hts E Lv Le Pa. remember (pointer (fun_address id) ++ ev) as cv eqn:Ecv. intros used g c og g' H Fi Iu. destruct Pa as (Gl & Ap & Pa). setting.
  destruct (Evs_app _ _ _ _ _ _ _ _ _ _ _ _ _ _ _ E) as [(o & Ho & _) | (w3 & vs1 & vs2 & E1 & E2 & Ev & L1)]; [discriminate|].
  assert (Ev' : vs1 = combine ls vs /\ vs2 = [(l_clos, cv)]).
  { assert (Lc : List.length vs1 = List.length (combine ls vs)) by (rewrite combine_length; lia).
    clear -Ev Lc. revert vs1 Lc Ev. induction (combine ls vs) as [|a l' IH]; intros [|y vs1] Lc Ev; cbn in *; try discriminate; [auto|].
    injection Ev as -> Ev. injection Lc as Lc. destruct (IH vs1 Lc (eq_sym (eq_sym Ev))) as [-> ->]. auto. }
  destruct Ev' as [-> ->]. inversion E2 as [| |? ? ? w4 ? ? ? ? ? Pf E3]; subst. inversion E3; subst. clear E2 E3 Ev.
  destruct (call_code _ _ _ _ _ _ _ _ _ H Hf Hg) as (ps & Hps & Hc). rewrite (layouts_of _ _ _ Hts Hps) in Hc. cbv zeta in Hc.
  set (fr := new_frame ls l (depth g)) in *. destruct Hc as (ca & oa & ga & c1 & Ha & -> & Hr).
  assert (Fe : Forall (fine used) es). { apply Forall_forall. intros y Hy. apply (fine_of y Fi eq_refl). now right. }
  assert (Ff : fine used f) by (apply (fine_of f Fi eq_refl); now left).
  set (g1 := set_depth (depth g + snd (extend_stack (padding_before_stack_args fr))) g) in *.
  destruct (args_static _ _ _ _ _ _ _ E1 _ _ _ _ _ Ha Fe Iu) as (-> & Da & Coa).
  destruct (Hr eq_refl) as (cf & of & gf & c2 & Hfe & -> & Hr2).
  assert (Iu2 : incl (map fst (conts ga)) used) by (rewrite Coa; exact Iu).
  destruct (Pf used ga cf of gf Hfe Ff Iu2) as [(-> & _ & Df) Dyf].
  pose proof (st_conts _ _ _ (gen_sound r known offs (balanced r) f used ga Ff Iu2 cf (Some l_clos) gf Hfe)) as Cof.
  destruct (Hr2 _ eq_refl) as (-> & Dg' & Cog' & ->). clear Hr Hr2.
  destruct (frame_room ls vs l (depth g) Lv Gl) as (Fa & Frw & Fp & Fpb & Frm & Fal). fold fr in Fa, Frw, Fp, Fpb, Frm, Fal.
  pose proof (extend_static (padding_before_stack_args fr)) as Es. pose proof (shrink_static (remnants_after_call fr)) as Ss.
  pose proof (args_room_nonneg (combine ls vs)) as An. pose proof (taken_bounds l) as Tb. change (taken l_clos) with 0 in *.
  assert (D1 : 8 * depth g1 = 8 * depth g + taken l + 8 * padding fr) by (unfold g1; cbn [set_depth depth]; lia).
  set (ar := args_room (combine ls vs)) in *. unfold val in *. fold ar in Fa, Frm, Da, An.
  split.
  - cbn [stat]. split; [reflexivity|]. split; [exact Gl|]. lia.
  - apply by_value. intros K n m q s Q C P A HQ. apply plain in P; [|reflexivity]. inversion P as [|? ? Pf' Pes]; subst.
    apply code_at_app in C. destruct C as [C0 C]. apply code_at_app in C. destruct C as [Ca C]. apply code_at_app in C. destruct C as [Cf C].
    apply code_at_app in C. destruct C as [Cm C]. apply code_at_app in C. destruct C as [Cl C]. apply code_at_app in C. destruct C as [Cc Cs].
    eapply leads_emit; [exact C0|]. destruct (at_extend X (padding_before_stack_args fr) A) as (A1 & _). fold g1 in A1.
    eapply leads_trans; [exact (args_ok _ _ _ _ _ _ _ E1 used _ _ _ _ K n m g s _ _ Ha Fe Iu Ca Pes A1)|].
    intros cc (s2 & -> & A2 & Ho2 & Fo). eapply use_val; [exact Dyf | exact Cf | exact Pf' | exact A2|]. intros s3 A3 Kp3 _ V3.
    destruct (top X A3) as (T1 & T2 & T3 & T4 & T5 & T6). pose proof (i_levels (a_inv A3)) as Lnm. unfold ProofsInv.lev in T4, T5, T6.
    assert (Ho3 : args_hold (mem s3) (b - 8 * depth ga) (rev (combine ls vs))).
    { eapply args_hold_later; [exact Fo | exact Ho2|]. rewrite args_room_rev. intros a Ha'. apply Kp3; unfold ProofsInv.lev; lia. }
    destruct (proj1 (has_two l_clos _ s3 eq_refl eq_refl eq_refl) V3) as (Lcl & Vax & Vdx).
    assert (La : List.length (pointer (fun_address id)) = 8%nat) by apply number_length.
    destruct (x_addresses X id 0%nat) as [Ab _].
    assert (Rax3 : gp s3 Rax = fun_address id).
    { apply bytes_number; [exact Ab | apply (i_norm (a_inv A3)); reflexivity|]. intros i z Hi. apply Vax. rewrite <- La at 1. rewrite firstn_app, Nat.sub_diag, firstn_all, firstn_O, app_nil_r. exact Hi. }
    assert (Rdx3 : forall p, ev = pointer p -> 0 <= p < 2 ^ 64 -> gp s3 Rdx = p).
    { intros p -> Hp. apply bytes_number; [exact Hp | apply (i_norm (a_inv A3)); reflexivity|]. intros i z Hi. apply Vdx. rewrite <- La at 1. rewrite skipn_app, Nat.sub_diag, skipn_all. exact Hi. }
    clear Vax Vdx.
    eapply leads_emit; [exact Cm|]. cbn [run fold_left step]. set (s4 := set_gp Rsi (gp s3 Rdx) s3).
    eapply leads_emit; [exact Cl|]. set (s5 := run _ s4).
    assert (S5 : mem s5 = mem s3 /\ xm s5 = xm s3 /\ (forall x, x <> Rdi -> gp s5 x = gp s4 x) /\ (cls l = Memory -> gp s5 Rdi = gp s3 Rsp + (stack_args fr + padding fr) * 8)).
    { unfold s5, offset_to_ret_destination. destruct (Z.eqb_spec (ret_words fr) 0) as [R0|R0]; cbn [run fold_left].
      - repeat split; try reflexivity. intros Em. exfalso. unfold taken in Frw. rewrite Em in Frw. pose proof (memory_room l Gl Em). lia.
      - repeat split; try reflexivity. + intros x Nx. destruct x; try reflexivity. contradiction. + intros _. transitivity (gp s3 Rsp + 0 + (stack_args fr + padding fr) * 8); [reflexivity | lia]. }
    destruct S5 as (M5 & X5 & G5 & D5).
    assert (Rsp5 : gp s5 Rsp = gp s3 Rsp) by (rewrite G5 by discriminate; reflexivity).
    destruct (Z_lt_ge_dec (gp s5 Rsp) 0) as [Ov|Nv]; [now apply leads_overflow|].
    apply code_at_cons in Cc. destruct Cc as [Cn _].
    match type of Cn with nth_error _ ?pp = _ => set (pc5 := pp) in * end.
    set (s6 := write 8 (gp s5 Rsp - 8) (address M F (Datatypes.S pc5)) (set_gp Rsp (gp s5 Rsp - 8) s5)).
    assert (G6 : forall x, x <> Rsp -> gp s6 x = gp s5 x) by (intros x Nx; destruct x; try reflexivity; contradiction).
    assert (Rsp6 : gp s6 Rsp = gp s3 Rsp - 8) by (change (gp s6 Rsp) with (gp s5 Rsp - 8); lia).
    assert (M6 : forall a, a < gp s3 Rsp - 8 \/ gp s3 Rsp <= a -> mem s6 a = mem s3 a).
    { intros a Ha'. unfold s6. rewrite mem_write_out by lia. cbn [set_gp mem]. now rewrite M5. }
    eapply leads_step.
    { unfold next_step, call. cbn [fn pc st al]. rewrite Cn. unfold aligned. pose proof (x_aligned X) as Xa.
      replace (gp s5 Rsp mod 16 =? 0) with true; [|symmetry; apply Z.eqb_eq; rewrite Rsp5, T1; clear -Xa Fal D1 Da Df Fa Frw; Z.to_euclidean_division_equations; lia].
      rewrite G5 by discriminate. change (gp s4 Rax) with (gp s3 Rax). rewrite Rax3, wrap_small by exact Ab. rewrite Ap. reflexivity. }
    change (gp (set_gp Rsp (gp s5 Rsp - 8) s5) Rsp) with (gp s5 Rsp - 8). fold s6.
    assert (N6 : norm s6).
    { intros x Nx. rewrite G6 by (intros ->; discriminate). rewrite G5 by (intros ->; discriminate). destruct x; try discriminate; apply (i_norm (a_inv A3)); reflexivity. }
    assert (R6 : rest s3 s6).
    { intros x Sx Nx. rewrite G6 by exact Nx. rewrite G5 by (intros ->; discriminate). destruct x; try discriminate; reflexivity. }
    eapply leads_trans.
    { apply (Pa F (Datatypes.S pc5) s6 (b - 8 * depth g1)).
      - rewrite Rsp6, T1. pose proof (x_aligned X) as Xa. clear -Xa Fal D1 Da Df Fa Frw. Z.to_euclidean_division_equations; lia.
      - unfold s6 at 1. change (gp s6 Rsp) with (gp s5 Rsp - 8). apply read_written. apply (x_addresses X).
      - apply (x_addresses X). destruct (x_last X) as (is & Ei). rewrite Ei in Cn |- *. rewrite app_length. cbn [List.length].
        destruct (Nat.lt_ge_cases pc5 (List.length is)) as [Lp|Lp]; [lia|]. exfalso. rewrite nth_error_app2 in Cn by exact Lp.
        destruct (pc5 - List.length is)%nat as [|[|]]; discriminate Cn.
      - eapply args_hold_later; [exact Fo | |]. 
        + replace (gp s6 Rsp + 8) with (b - 8 * depth ga) by lia. exact Ho3.
        + intros a Ha'. apply M6. lia.
      - lia.
      - lia.
      - exact N6.
      - eapply heap_same; [|exact (i_heap (a_inv A3))]. intros a Ha'. apply M6. lia.
      - rewrite (R6 Rbp eq_refl) by discriminate. rewrite (i_rbp (a_inv A3)). lia.
      - intros p Ep Hp. rewrite G6, G5 by discriminate. change (gp s4 Rsi) with (gp s3 Rdx). now apply Rdx3.
      - intros Em. rewrite G6 by discriminate. rewrite D5 by exact Em. unfold taken in *. rewrite Em in *. lia. }
    intros cc (s7 & -> & Rsp7 & Re7 & N7 & H7 & V7 & M7).
    assert (G6d : cls l = Memory -> gp s6 Rdi = b - 8 * depth g - taken l).
    { intros Em. rewrite G6 by discriminate. rewrite D5 by exact Em. lia. }
    assert (A7 : At K G ks n m g s gf w2 s7).
    { eapply at_later; [exact A3 | | eapply rest_trans; eassumption | exact N7 | exact H7 | lia | lia | reflexivity].
      intros a Ha' _. rewrite M7; [apply M6; lia | lia|]. unfold into. destruct (cls l) eqn:Em; try tauto. rewrite (G6d eq_refl). unfold taken. rewrite Em. lia. }
    destruct (at_shrink X (remnants_after_call fr) A7) as (A8 & D8 & M8 & G8 & X8); [lia|].
    replace (Datatypes.S pc5) with (pc5 + List.length [CallRax])%nat by (cbn [List.length]; lia).
    eapply leads_emit; [exact Cs|]. set (s8 := run _ s7) in *.
    eapply leads_pos; [|apply HQ]; [unfold pc5; pos | |].
    * eapply at_later; [exact A8 | apply kept_refl | apply rest_refl | exact (i_norm (a_inv A8)) | exact (i_heap (a_inv A8)) | | | ].
      + rewrite (i_rsp (a_inv A8)). cbn [set_depth depth]. lia.
      + lia.
      + cbn [set_depth conts]. congruence.
    * unfold gives in V7. destruct (cls l) eqn:Em; try (eapply has_other; [congruence | exact G8 | exact X8 | exact V7]).
      destruct V7 as [Lr V7]. apply has_memory; [exact Em | exact Lr|]. rewrite M8. rewrite (i_rsp (a_inv A8)). cbn [set_depth depth]. rewrite (G6d eq_refl) in V7.
      replace (b - 8 * (depth gf + snd (shrink_stack (remnants_after_call fr)))) with (b - 8 * depth g - taken l) by lia. exact V7.
Qed.

Lemma call_typed f es used g c og g' : gen (RCall f es) g = Ret (c, og, g') -> fine used (RCall f es) ->
  exists ts t l, rt_ty f = Ret (Some (CtClos ts t)) /\ get r t = Ret l.
Proof.
  intros H Fi. inversion Fi as [? ? [O _] _]; subst. cbn in O. cbn [Model.gen] in H. destruct (rt_ty f) as [[t|]| |]; cbn [bind] in H; try discriminate; [|contradiction].
  destruct t; try discriminate. apply need_then in H. destruct H as (l & El & _). eauto.
Qed.

Lemma ev_call_stop G ks f es w w' vs o : Evs M r known start F b offs G ks (es ++ [f]) w w' vs (Some o) -> Peval G ks (RCall f es) w w' o.
Proof.
  intros E used g c og g' H Fi Iu. pose proof (Evs_abrupt _ _ _ _ _ _ _ _ _ _ _ _ _ _ E) as Ab. setting.
  destruct (call_typed _ _ _ _ _ _ _ H Fi) as (ts & t & l & Hf & Hg).
  destruct (call_code _ _ _ _ _ _ _ _ _ H Hf Hg) as (ls & Hps & Hc). cbv zeta in Hc.
  set (fr := new_frame ls l (depth g)) in *. destruct Hc as (ca & oa & ga & c1 & Ha & -> & Hr).
  assert (Fe : Forall (fine used) es). { apply Forall_forall. intros y Hy. apply (fine_of y Fi eq_refl). now right. }
  assert (Ff : fine used f) by (apply (fine_of f Fi eq_refl); now left).
  set (g1 := set_depth (depth g + snd (extend_stack (padding_before_stack_args fr))) g) in *.
  destruct (Evs_app _ _ _ _ _ _ _ _ _ _ _ _ _ _ _ E) as [(o' & Ho & E1) | (w3 & vs1 & vs2 & E1 & E2 & -> & L1)].
  - pose proof (args_static _ _ _ _ _ _ _ E1 _ _ _ _ _ Ha Fe Iu) as St. cbn in St. split.
    + apply stat_abrupt; [exact Ab|]. intros J N. apply (St J). apply Forall_forall. intros y Hy. eapply jumpless_child; [exact N | now right].
    + apply by_abrupt; [exact Ab|]. intros K n m q s C P A. apply plain in P; [|reflexivity]. inversion P as [|? ? Pf' Pes]; subst.
      apply code_at_app in C. destruct C as [C0 C]. apply code_at_app in C. destruct C as [Ca C].
      eapply leads_emit; [exact C0|]. destruct (at_extend X (padding_before_stack_args fr) A) as (A1 & _). fold g1 in A1.
      exact (args_ok _ _ _ _ _ _ _ E1 used _ _ _ _ K n m g s _ _ Ha Fe Iu Ca Pes A1).
  - destruct (args_static _ _ _ _ _ _ _ E1 _ _ _ _ _ Ha Fe Iu) as (-> & Da & Coa).
    destruct (Hr eq_refl) as (cf & of & gf & c2 & Hfe & -> & _).
    assert (Iu2 : incl (map fst (conts ga)) used) by (rewrite Coa; exact Iu).
    assert (Pf : Peval G ks f w3 w' o) by (inversion E2 as [| |? ? ? ? ? ? ? ? ? ? E3]; subst; [assumption | inversion E3]).
    destruct (Pf used ga cf of gf Hfe Ff Iu2) as [St Dyf]. split.
    + apply stat_abrupt; [exact Ab|]. intros J N. apply jumpless_child with (y := f) in N; [|now left]. destruct o; [destruct Ab | exact (St J N) | exact (St J N)].
    + apply by_abrupt; [exact Ab|]. intros K n m q s C P A. apply plain in P; [|reflexivity]. inversion P as [|? ? Pf' Pes]; subst.
      apply code_at_app in C. destruct C as [C0 C]. apply code_at_app in C. destruct C as [Ca C]. apply code_at_app in C. destruct C as [Cf C].
      eapply leads_emit; [exact C0|]. destruct (at_extend X (padding_before_stack_args fr) A) as (A1 & _). fold g1 in A1.
      eapply leads_trans; [exact (args_ok _ _ _ _ _ _ _ E1 used _ _ _ _ K n m g s _ _ Ha Fe Iu Ca Pes A1)|].
      intros cc (s2 & -> & A2 & _). eapply use_abrupt; [exact Dyf | exact Ab | exact Cf | exact Pf' | exact A2].
Qed.
End Cases.
