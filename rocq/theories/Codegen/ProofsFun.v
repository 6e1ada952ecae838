(** Functions. *)
From Coq Require Import ZArith Lia Permutation.
From Verif.Base Require Import Base.
From Verif.Ir Require Import Model RtInd.
From Verif.Layout Require Import Model Spec Proofs ProofsResolve.
From Verif.Frame Require Model.
From Verif.Frame Require Spec Proofs.
From Verif.Stack Require Import Machine Model Spec Facts Proofs ProofsValue ProofsMove.
From Verif.Codegen Require Import Model Machine Spec Facts ProofsGen ProofsFrame ProofsRun ProofsInv ProofsStatic ProofsEval ProofsSimple ProofsHeap ProofsAlloc ProofsEach ProofsStruct ProofsJump ProofsCall ProofsLet.
Local Open Scope Z_scope.

From Verif.Frame Require ProofsFun.
Section Cases.
Variable M : machine.
Variable r : resolver.
Variable known : nat -> bool.
Variable start : Z.
Variable F : nat.
Variable b : Z.
Variable offs : list (nat * Z).
Hypothesis X : setting M r start F b.

Notation heap_ok := (heap_ok start).
Notation leads := (leads M).
Notation code_at := (code_at M F).
Notation chain := (chain (type_words r) offs).
Notation placed := (placed (type_words r) offs).
Notation placed_lets := (placed_lets (type_words r) offs).
Notation kept := (kept start b).
Notation lev := (lev b).
Notation vars_ok := (vars_ok start b offs).
Notation konts_ok := (konts_ok M r F offs).
Notation Inv := (Inv M r start F b offs).
Notation At := (At M r start F b offs).
Notation leaves := (leaves M start F b offs).
Notation gen := (gen r known offs).
Notation fine := (fine (balanced r)).
Notation world := (world (memo M)).
Notation fun_address := (fun f => address M f 0).

Notation Dyn := (Dyn M r start F b offs).
Notation Peval := (Peval M r start F b offs known).
Ltac setting := let a := fresh "Xb" in let c := fresh "Xs" in pose proof (x_below X) as a; pose proof (x_start X) as c.
Ltac pos := repeat rewrite app_length; cbn [fst keep map List.length]; unfold at_rdi; lia.
(** ** The parts of the code of a function *)
Definition reserve (fr : Frame.Model.frame) : layout := l_memory (N.of_nat (Frame.Model.vars fr + Frame.Model.allocs fr) * 8) 8.
Record parts (f : Frame.Model.function) (fr : Frame.Model.frame) (ret : option Z) (se : list inst) (body : list item) (og : option layout) (g' : gstate) (de : list inst) : Prop := {
  p_frame : Frame.Model.new (type_words r) (in_memory r) f = Ret (fr, ret);
  p_env : match Frame.Model.f_env f with
          | None => se = []
          | Some (id, es) => exists o is, find (Frame.Model.offsets fr) id = Some o /\ copy_env r (Frame.Model.offsets fr) 0 es = Ret is /\ se = Store Q (at_rbp o) Rsi :: is
          end;
  p_body : Model.gen r known (Frame.Model.offsets fr) (Frame.Model.f_body f) (Codegen.Model.G (snd (extend_stack (reserve fr))) 1 []) = Ret (body, og, g');
  p_deliver : match ret with
              | None => de = []
              | Some o => exists l, get r (Frame.Model.f_ret f) = Ret l /\ de = Load Q Rax (at_rbp o) :: fst (store (Addr Rax None 0) l)
              end }.
Definition save_ret (ret : option Z) : list inst := match ret with Some o => [Store Q (at_rbp o) Rdi] | None => [] end.
Lemma function_parts f c : function_code r known f = Ret c -> Frame.Model.f_kind f = Frame.Model.Standard ->
  exists fr ret se body og g' de, parts f fr ret se body og g' de /\
  c = map I ([Push Rbp; Movq Rbp Rsp] ++ fst (extend_stack (reserve fr)) ++ save_ret ret ++ se) ++ body ++ [Lab 0] ++ map I (de ++ [Movq Rsp Rbp; Pop Rbp]) ++ [Retq].
Proof.
  unfold function_code. intros H Hk. apply Frame.Proofs.bind_ret in H. destruct H as ((fr & ret) & Hn & H). cbv zeta in H.
  apply Frame.Proofs.bind_ret in H. destruct H as (se & He & H). apply Frame.Proofs.bind_ret in H. destruct H as (sa & Ha & H).
  apply Frame.Proofs.bind_ret in H. destruct H as ([[body og] g'] & Hb & H). apply Frame.Proofs.bind_ret in H. destruct H as (de & Hd & H).
  injection H as <-. exists fr, ret, se, body, og, g', de. assert (sa = []) as -> by (rewrite Hk in Ha; congruence). split; [split|].
  - exact Hn.
  - destruct (Frame.Model.f_env f) as [[id es]|]; [|congruence]. apply Frame.Proofs.bind_ret in He. destruct He as (o & Ho & He).
    apply Frame.Proofs.bind_ret in He. destruct He as (is & Hi & He). exists o, is. unfold offset_for in Ho. destruct (find (Frame.Model.offsets fr) id); [|discriminate]. injection Ho as <-. injection He as <-. auto.
  - exact Hb.
  - destruct ret as [o|]; [|congruence]. apply Frame.Proofs.bind_ret in Hd. destruct Hd as (l & Hl & Hd). exists l. injection Hd as <-. auto.
  - rewrite app_nil_r. reflexivity.
Qed.

(** *** The frame *)
Definition saved_frame (f : Frame.Model.function) : Frame.Model.frame :=
  match Frame.Model.f_env f with
  | None => Frame.Model.Frame [] 0 0 0
  | Some (id, es) => Frame.Model.add_vars (type_words r) es (Frame.Model.add_var (type_words r) id CtEnv (Frame.Model.Frame [] 0 0 0))
  end.
Definition params_at (f : Frame.Model.function) : Z := 16 + Z.of_nat (Frame.Model.sum_words (type_words r) (Frame.Model.f_params f)) * 8.
Lemma new_inv f fr ret : Frame.Model.new (type_words r) (in_memory r) f = Ret (fr, ret) -> Frame.Model.f_kind f = Frame.Model.Standard ->
  exists s2, Frame.Model.go (type_words r) (Frame.Model.f_body f) (Frame.Model.add_params (type_words r) (params_at f) (Frame.Model.f_params f) s2) = Ret fr /\
  if in_memory r (Frame.Model.f_ret f)
  then ret = Some (Frame.Model.offset_of (Datatypes.S (Frame.Model.scope (saved_frame f)))) /\ s2 = snd (Frame.Model.allocate 1 (saved_frame f))
  else ret = None /\ s2 = saved_frame f.
Proof.
  unfold Frame.Model.new. intros H Hk. apply Frame.Proofs.bind_ret in H. destruct H as (s1 & H1 & H).
  assert (s1 = saved_frame f) as ->. { unfold saved_frame. rewrite Hk in H1. destruct (Frame.Model.f_env f) as [[id es]|]; cbn [Frame.Model.check bind] in H1; congruence. }
  clear H1. apply Frame.Proofs.bind_ret in H. destruct H as ((ret' & s2) & H2 & H). exists s2.
  apply Frame.Proofs.bind_ret in H. destruct H as (s3 & H3 & H). rewrite Hk in H2, H3. injection H3 as <-.
  apply Frame.Proofs.bind_ret in H. destruct H as (s4 & H4 & H). injection H as -> ->. split; [exact H4|].
  destruct (in_memory r (Frame.Model.f_ret f)); cbn [Frame.Model.check bind] in H2; injection H2 as <- <-; (split; [|reflexivity]); [|reflexivity]. do 2 f_equal. lia.
Qed.

(** ** The prologue *)
Lemma load_env a l v s : usable l -> address_ok a -> List.length v = length_of l -> holds (mem s) (ea a s) v -> (v <> [] -> gp s Rsp <= ea a s) ->
  let s' := run (fst (load a (in_stack l))) s in
  has l v s' /\ gp s' Rsp = gp s Rsp - taken l /\ snd (load a (in_stack l)) * 8 = taken l /\
  same_outside (gp s Rsp - taken l) (gp s Rsp) s s' /\ same_regs s s'.
Proof.
  clear. intros U A L H Ap. destruct v as [|x v]; [|apply load_var; try assumption; apply Ap; discriminate].
  pose proof (usable_in_stack l U) as Ui. pose proof (size_in_stack_room l) as Sr. unfold length_of in L. cbn [List.length] in L.
  assert (R0 : room l = 0). { rewrite room_words. unfold words, num_eightbytes. replace (size l) with 0%N by lia. reflexivity. }
  rewrite <- (taken_in_stack l).
  destruct (load_has a (in_stack l) [] s Ui A) as (V & R).
  - unfold length_of. cbn [List.length]. lia.
  - apply holds_nil.
  - intros x Hx. lia.
  - split; [|exact R]. apply has_narrow in V; [|exact U]. now rewrite firstn_nil in V.
Qed.
Lemma rsi_ok o : address_ok (Addr Rsi None o).
Proof. clear. apply usable_address_ok. split; reflexivity. Qed.

Lemma copy_ok es : forall off is G n i G' m g (w : world) p s, copy_env r offs off es = Ret is -> chain n es i -> (i <= m)%nat ->
  read_env r (snd w) (p + off) es G' -> gp s Rsi = p -> Inv [] G [] n m g w s ->
  let s' := run is s in Inv [] (rev G' ++ G) [] i m g w s' /\ kept n (depth g) m s s' /\ rest s s' /\ gp s' Rsi = p.
Proof.
  clear known. setting. induction es as [|[id t] es IH]; intros off is G n i G' m g w p s H Hc Lm Rd Rp Iv; cbn [copy_env read_env] in *.
  - injection H as <-. inversion Hc; subst. destruct G' as [|? ?]; [|contradiction]. cbn [rev app run fold_left]. split; [exact Iv|]. split; [apply kept_refl|]. split; [apply rest_refl | reflexivity].
  - apply Frame.Proofs.bind_ret in H. destruct H as (l & Hl & H). apply Frame.Proofs.bind_ret in H. destruct H as (o & Ho & H).
    apply Frame.Proofs.bind_ret in H. destruct H as (is' & Hi & H). injection H as <-.
    destruct G' as [|[id' v] G']; [contradiction|]. destruct Rd as (l' & Hl' & -> & Lv & Rv & Rd). rewrite Hl in Hl'. injection Hl' as <-.
    inversion Hc as [|? ? ? ? j ? [Hj Lj] Hc']; subst. unfold offset_for in Ho. rewrite Hj in Ho. injection Ho as <-.
    pose proof (chain_le _ _ _ _ _ Hc') as Lc. pose proof (reached_good _ (x_layouts X) t l Hl) as Gl.
    assert (Ij : Inv [] G [] j m g w s) by (eapply inv_level; [exact Iv | lia | lia]).
    destruct (top X (at_refl Ij)) as (T1 & T2 & T3 & T4 & T5 & T6).
    assert (Ea : ea (plus (Addr Rsi None 0) off) s = gp s Rsi + off) by (unfold ea, plus; cbn [base index disp]; lia).
    destruct (load_env (plus (Addr Rsi None 0) off) l v s (good_usable l Gl) (rsi_ok _)) as (V1 & S1 & D1 & O1 & E1).
    { exact Lv. }
    { rewrite Ea. eapply heap_reads; [exact (i_heap Iv) | exact Rv]. }
    { intros Nv. rewrite Ea. pose proof (reads_start _ _ _ _ _ (i_heap Iv) Rv Nv). lia. }
    set (s1 := run _ s) in *.
    pose proof (taken_bounds l) as Tb.
    assert (A1 : At [] G [] j m g s (set_depth (depth g + snd (load (plus (Addr Rsi None 0) off) (in_stack l))) g) w s1).
    { eapply (at_run X); [exact (at_refl Ij) | apply clean_load | exact O1 | lia | now apply rest_same | fold s1; lia | lia]. }
    destruct (bind_variable M r start F b offs X [] G [] n j m g _ w w s s1 id t l v _ Iv Hj Lj ltac:(lia) Hl Gl eq_refl A1 ltac:(cbn [set_depth depth]; lia) V1) as (I2 & D2 & K2 & R2).
    cbv zeta in I2, D2, K2, R2. cbv zeta. rewrite run_app, run_app. fold s1. set (s2 := run (fst (store _ _)) s1) in *.
    assert (P2 : gp s2 Rsi = gp s Rsi).
    { assert (Pr : gp s1 Rsp + taken l <= lev j) by lia.
      assert (Es : ea (at_rbp (Frame.Model.offset_of j)) s1 = lev j). { unfold ea. cbn [at_rbp base index disp]. rewrite (i_rbp (a_inv A1)). unfold Frame.Model.offset_of, ProofsInv.lev. lia. }
      destruct (store_var (at_rbp (Frame.Model.offset_of j)) l v s1 (good_usable l Gl) (rbp_ok _) V1) as (_ & _ & _ & _ & Rg).
      - rewrite Es. intros x Hx. unfold ProofsInv.lev in *. lia.
      - fold s2 in Rg. rewrite Rg by reflexivity. now apply E1. }
    set (gg := set_depth _ (set_depth _ g)) in *.
    assert (I3 : Inv [] ((id, v) :: G) [] j m g w s2).
    { destruct I2 as [B1 B2 B3 B4 B5 B6 B7 B8]. rewrite D2 in B2, B4. split; try assumption. exact (i_konts Ij). }
    replace (gp s Rsi + off + room l) with (gp s Rsi + (off + Z.of_N (size (in_stack l)))) in Rd by (rewrite size_in_stack_room; lia).
    destruct (IH _ is' _ j i G' m g w (gp s Rsi) s2 Hi Hc' Lm Rd P2 I3) as (I4 & K4 & R4 & P4).
    split; [|split; [|split]].
    + cbn [rev]. rewrite <- app_assoc. exact I4.
    + eapply kept_trans with (d' := depth g); [exact K2 | eapply kept_mono; [exact K4 | lia | lia | lia] | lia].
    + eapply rest_trans; eassumption.
    + exact P4.
Qed.

Lemma params_room ps ls : Forall2 (fun p l => get r (snd p) = Ret l) ps ls -> forall vs : list val, List.length vs = List.length ls ->
  args_room (combine ls vs) = 8 * Z.of_nat (Frame.Model.sum_words (type_words r) ps).
Proof.
  clear. induction 1 as [|[id t] l ps ls Hl _ IH]; intros [|v vs] L; cbn [List.length combine args_room Frame.Model.sum_words snd] in *; try discriminate; [reflexivity|].
  rewrite (IH vs) by congruence. rewrite <- (type_room _ _ _ Hl). lia.
Qed.
Lemma param_held ps ls : Forall2 (fun p l => get r (snd p) = Ret l) ps ls -> forall vs id v, Forall2 (fun l (v : val) => List.length v = length_of l) ls vs ->
  find (combine (map fst ps) vs) id = Some v ->
  exists p1 t p2, ps = p1 ++ (id, t) :: p2 /\ 8 * Z.of_nat (Frame.Model.sum_words (type_words r) p2) + Z.of_nat (List.length v) <= args_room (combine ls vs) /\
  forall mm a, args_hold mm a (rev (combine ls vs)) -> holds mm (a + 8 * Z.of_nat (Frame.Model.sum_words (type_words r) p2)) v.
Proof.
  clear. induction 1 as [|[i t] l ps ls Hl Hps IH]; intros vs id v Lv Hf; [destruct vs; discriminate|].
  inversion Lv as [|? u ? us Lu Lus]; subst. cbn [map fst combine find rev args_room] in *.
  assert (Le : List.length us = List.length ls) by (clear -Lus; induction Lus; cbn [List.length]; congruence).
  pose proof (params_room _ _ Hps us Le) as Pr. destruct (Nat.eqb_spec i id) as [->|Ni].
  - injection Hf as ->. exists [], t, ps. split; [reflexivity|]. pose proof (room_size l) as Rs. cbn [snd] in Hl. split.
    + rewrite Pr. unfold length_of in Lu. lia.
    + intros mm a Ha. apply args_hold_app in Ha. destruct Ha as [_ Ha]. rewrite args_room_rev, Pr in Ha. apply Ha.
  - destruct (IH us id v Lus Hf) as (p1 & t' & p2 & -> & Hr & Hh). exists ((i, t) :: p1), t', p2. split; [reflexivity|]. pose proof (room_nonneg l). split; [lia|].
    intros mm a Ha. apply args_hold_app in Ha. apply Hh, Ha.
Qed.

Lemma find_entry {A} (l : list (nat * A)) id v : find l id = Some v -> In (id, v) l.
Proof. clear. induction l as [|[i x] l IH]; cbn [find]; intros H; [discriminate|]. destruct (Nat.eqb_spec i id) as [->|]; [left; congruence | right; auto]. Qed.
Lemma entry_find {A} (l : list (nat * A)) id v : NoDup (map fst l) -> In (id, v) l -> find l id = Some v.
Proof.
  clear. induction l as [|[i x] l IH]; cbn [find map fst]; intros N H; [destruct H|]. inversion N as [|? ? N1 N2]; subst.
  destruct (Nat.eqb_spec i id) as [->|D].
  - destruct H as [H|H]; [congruence|]. elim N1. change id with (fst (id, v)). apply in_map, H.
  - destruct H as [H|H]; [congruence | auto].
Qed.
Lemma inv_order K G G' ks n m g (w : world) s : Inv K G ks n m g w s -> NoDup (map fst G) -> Permutation G G' -> Inv K G' ks n m g w s.
Proof.
  clear known. intros [B1 B2 B3 B4 B5 B6 B7 B8] N P. split; try assumption. intros id v Hf. apply B7. apply entry_find; [exact N|].
  apply Permutation_in with G'; [now symmetry | now apply find_entry].
Qed.
Lemma inv_hi G n m m' g (w : world) s : Inv [] G [] n m g w s -> (n <= m')%nat -> Z.of_nat m' <= depth g -> Inv [] G [] n m' g w s.
Proof. clear known. intros [B1 B2 B3 B4 B5 B6 B7 B8] L L'. split; try assumption. split; intros; discriminate. Qed.
Lemma read_env_keys h es : forall p G, read_env r h p es G -> map fst G = map fst es.
Proof.
  clear. induction es as [|[id t] es IH]; intros p [|[id' v] G] H; cbn [read_env] in H; try contradiction; [reflexivity|].
  destruct H as (l & _ & -> & _ & _ & H). cbn [map fst]. f_equal. eapply IH, H.
Qed.
Lemma combine_keys {A B} (l : list A) (l' : list B) : List.length l' = List.length l -> map fst (combine l l') = l.
Proof. clear. revert l'. induction l as [|x l IH]; intros [|y l'] H; cbn in *; try discriminate; [reflexivity|]. f_equal. apply IH. congruence. Qed.
Lemma Forall2_length {A B} (R : A -> B -> Prop) l l' : Forall2 R l l' -> List.length l = List.length l'.
Proof. clear. induction 1; cbn; congruence. Qed.
Lemma read_ext mm mm' a : (forall x, a <= x < a + 8 -> mm' x = mm x) -> read 8 mm' a = read 8 mm a.
Proof.
  clear. intros H. apply read_le; [|apply (read_bound 8)]. intros i z Hi. pose proof (nth_bound _ _ _ Hi) as B. rewrite le_length in B.
  rewrite nth_le in Hi by exact B. apply (f_equal (fun o => match o with Some y => y | None => 0 end)) in Hi. rewrite <- Hi, byte_read. destruct (Nat.ltb_spec i 8); [|lia]. unfold cell. now rewrite H by lia.
Qed.

Lemma nodup_left {A} (l l' : list A) : NoDup (l ++ l') -> NoDup l.
Proof. clear. induction l as [|x l IH]; cbn [app]; intros H; [constructor|]. inversion H as [|? ? H1 H2]; subst. constructor; [|auto]. intros I. apply H1, in_app_iff. now left. Qed.

Section Function.
Variable f : Frame.Model.function.
Variable fr : Frame.Model.frame.
Variable ret : option Z.
Hypothesis made : Frame.Model.new (type_words r) (in_memory r) f = Ret (fr, ret).
Hypothesis standard : Frame.Model.f_kind f = Frame.Model.Standard.
Hypothesis own : offs = Frame.Model.offsets fr.
Hypothesis distinct : NoDup (map fst (Frame.Spec.bound f)).

Record framed (n : nat) : Prop := {
  f_level : if in_memory r (Frame.Model.f_ret f)
            then ret = Some (Frame.Model.offset_of n) /\ n = Datatypes.S (Frame.Model.scope (saved_frame f))
            else ret = None /\ n = Frame.Model.scope (saved_frame f);
  f_placed : placed n (Frame.Model.vars fr) (Frame.Model.f_body f);
  f_saved : incl (Frame.Model.offsets (saved_frame f)) offs;
  f_passed : forall p1 id t p2, Frame.Model.f_params f = p1 ++ (id, t) :: p2 -> find offs id = Some (16 + Z.of_nat (Frame.Model.sum_words (type_words r) p2) * 8) }.
Lemma unique : NoDup (map fst offs).
Proof.
  destruct (Frame.ProofsFun.result _ _ f fr ret distinct made) as (s0 & n & _ & _ & _ & Fn & _). rewrite own. exact Fn.
Qed.
Lemma saved_wf : (Frame.Model.scope (saved_frame f) <= Frame.Model.vars (saved_frame f))%nat.
Proof.
  unfold saved_frame. destruct (Frame.Model.f_env f) as [[id es]|]; [|cbn; lia].
  apply (m_wf _ _ (add_vars_more (type_words r) es _ (m_wf _ _ (add_var_more (type_words r) id CtEnv (Frame.Model.Frame [] 0 0 0) (Nat.le_refl _))))).
Qed.
Lemma frame_is : exists n, framed n.
Proof.
  destruct (new_inv f fr ret made standard) as (s2 & Hg & Hr).
  set (s3 := Frame.Model.add_params _ _ _ _) in Hg.
  destruct (Frame.ProofsFun.add_params_ran (type_words r) (in_memory r) (Frame.Model.f_params f) 16 s2) as (new & O3 & _ & V3 & S3 & _ & I3).
  change (Frame.Model.add_params (type_words r) (16 + Z.of_nat (Frame.Model.sum_words (type_words r) (Frame.Model.f_params f)) * 8) (Frame.Model.f_params f) s2) with s3 in O3, V3, S3.
  assert (W3 : wf s3).
  { unfold wf. rewrite V3, S3. pose proof saved_wf. destruct (in_memory r (Frame.Model.f_ret f)); destruct Hr as [_ ->]; [|assumption]. cbn. lia. }
  pose proof (go_more (type_words r) _ _ _ W3 Hg) as Mo.
  exists (Frame.Model.scope s2). split.
  - destruct (in_memory r (Frame.Model.f_ret f)); destruct Hr as [-> ->]; [|auto]. cbn [Frame.Model.allocate snd Frame.Model.scope]. rewrite Nat.add_1_r. auto.
  - rewrite <- S3. apply (go_right (type_words r) offs unique (Frame.Model.f_body f) s3 fr W3 Hg). rewrite own. apply incl_refl.
  - rewrite own. eapply incl_tran; [|exact (m_offsets _ _ Mo)]. rewrite O3. apply incl_appr.
    destruct (in_memory r (Frame.Model.f_ret f)); destruct Hr as [_ ->]; apply incl_refl.
  - intros p1 id t p2 E. apply find_in; [exact unique|]. rewrite own. apply (m_offsets _ _ Mo). rewrite O3. apply in_app_iff. left. exact (I3 _ _ _ _ E).
Qed.

Variable n : nat.
Hypothesis framing : framed n.
Notation m := (Frame.Model.vars fr).
Notation g := (Codegen.Model.G (snd (extend_stack (reserve fr))) 1 []).

Definition environment (w : world) (ev : val) (G : env) : Prop :=
  match Frame.Model.f_env f with
  | None => G = []
  | Some (e, es) => exists p G', 0 <= p < 2 ^ 64 /\ ev = pointer p /\ read_env r (snd w) p es G' /\ G = (e, ev) :: G'
  end.
Lemma depth_reserved : depth g = Z.of_nat (Frame.Model.vars fr + Frame.Model.allocs fr).
Proof.
  cbn [depth]. pose proof (extend_static (reserve fr)) as E. unfold reserve in *. rewrite room_memory in E. lia.
Qed.
Lemma level_bound : (Frame.Model.scope (saved_frame f) <= n <= m)%nat.
Proof.
  pose proof (f_level _ framing) as L. pose proof (placed_le _ _ _ _ _ (f_placed _ framing)). destruct (in_memory r (Frame.Model.f_ret f)); lia.
Qed.
Section Enter.
Variables (w : world) (s : state) (ls : list layout) (vs : list val).
Hypothesis at_b : b = gp s Rsp - 8.
Hypothesis args : args_hold (mem s) (gp s Rsp + 8) (rev (combine ls vs)).
Hypothesis below : gp s Rsp + 8 + args_room (combine ls vs) <= start.
Hypothesis norm0 : norm s.
Hypothesis heap0 : heap_ok (snd w) s.
Hypothesis types : Forall2 (fun p l => get r (snd p) = Ret l) (Frame.Model.f_params f) ls.
Hypothesis lengths : Forall2 (fun l (v : val) => List.length v = length_of l) ls vs.
Notation Gp := (combine (map fst (Frame.Model.f_params f)) vs).
Notation s1 := (run [Push Rbp; Movq Rbp Rsp] s).
Notation s2 := (run (fst (extend_stack (reserve fr))) s1).
Notation s3 := (run (save_ret ret) s2).

Lemma enter_ok : Inv [] Gp [] 0 m g w s2 /\ (forall x, x <> Rsp -> x <> Rbp -> gp s2 x = gp s x) /\
  (forall a, ~ (b <= a < b + 8) -> mem s2 a = mem s a) /\ (0 <= gp s Rbp < 2 ^ 64 -> read 8 (mem s2) b = gp s Rbp).
Proof.
  setting. destruct (extend_ok (reserve fr) s1) as (E1 & E2 & E3 & _ & E4). pose proof depth_reserved as Dr.
  assert (B1 : gp s1 Rsp = b) by (rewrite at_b; reflexivity). assert (B2 : gp s1 Rbp = b) by (rewrite at_b; reflexivity).
  assert (M1 : forall a, ~ (b <= a < b + 8) -> mem s1 a = mem s a).
  { intros a Ha. cbn [run fold_left step]. cbn [set_gp mem]. rewrite mem_write_out; [reflexivity|]. rewrite <- at_b. lia. }
  assert (M2 : forall a, ~ (b <= a < b + 8) -> mem s2 a = mem s a) by (intros a Ha; rewrite E3; now apply M1).
  cbn [depth] in Dr.
  split; [|split; [|split; [exact M2|]]].
  - split.
    + rewrite E4 by discriminate. exact B2.
    + cbn [depth]. lia.
    + lia.
    + cbn [depth]. lia.
    + apply run_norm; [apply clean_extend|]. apply run_norm; [repeat constructor; discriminate | exact norm0].
    + eapply heap_same; [|exact heap0]. intros a Ha. apply M2. lia.
    + intros id v Hf. destruct (param_held _ _ types vs id v lengths Hf) as (p1 & t & p2 & Ep & Hr & Hh).
      exists (16 + Z.of_nat (Frame.Model.sum_words (type_words r) p2) * 8). split; [exact (f_passed _ framing _ _ _ _ Ep)|].
      unfold ProofsInv.lev. split; [lia|]. set (ar := args_room (combine ls vs)) in *. unfold val in *. fold ar in Hr, below. split; [lia|].
      specialize (Hh _ _ args). eapply holds_ext.
      * replace (b + (16 + Z.of_nat (Frame.Model.sum_words (type_words r) p2) * 8)) with (gp s Rsp + 8 + 8 * Z.of_nat (Frame.Model.sum_words (type_words r) p2)) by lia. exact Hh.
      * intros i Hi. apply M2. lia.
    + split; intros; discriminate.
  - intros x N1 N2. rewrite E4 by exact N1. destruct x; try reflexivity; contradiction.
  - intros Hb. rewrite E3. cbn [run fold_left step]. cbn [set_gp mem]. rewrite at_b. now apply read_written.
Qed.

Lemma save_ok : Inv [] Gp [] 0 m g w s3 /\ (forall x, gp s3 x = gp s2 x) /\ (forall a, ~ (lev n <= a < b) -> mem s3 a = mem s2 a) /\
  (forall o, ret = Some o -> lev n = b + o /\ lev n + 8 = lev (Frame.Model.scope (saved_frame f)) /\ (0 <= gp s Rdi < 2 ^ 64 -> read 8 (mem s3) (b + o) = gp s Rdi)).
Proof.
  setting. destruct enter_ok as (I2 & G2 & M2 & _). pose proof (f_level _ framing) as L. pose proof level_bound as Lb. set (u := s2) in *.
  destruct (in_memory r (Frame.Model.f_ret f)); destruct L as [Er En]; rewrite Er; cbn [save_ret].
  - set (o := Frame.Model.offset_of n) in *. assert (Lo : lev n = b + o) by (unfold o, Frame.Model.offset_of, ProofsInv.lev; lia).
    assert (Ln : lev n + 8 = lev (Frame.Model.scope (saved_frame f))) by (unfold ProofsInv.lev; lia).
    set (t := run [Store Q (at_rbp o) Rdi] u).
    assert (Et : t = write 8 (b + o) (gp u Rdi) u).
    { unfold t. cbn [run fold_left step bytes]. f_equal. unfold ea. cbn [at_rbp base index disp]. rewrite (i_rbp I2). lia. }
    assert (Gt : forall x, gp t x = gp u x) by (rewrite Et; reflexivity).
    assert (Mt : forall a, ~ (lev n <= a < b) -> mem t a = mem u a).
    { intros a Ha. rewrite Et. apply mem_write_out. unfold ProofsInv.lev in *. lia. }
    split; [|split; [exact Gt | split; [exact Mt|]]].
    + assert (A : At [] Gp [] 0 m g u g w t); [|exact (a_inv A)]. eapply at_later; [exact (at_refl I2) | | | | | | |].
      * intros a Ha Hn. apply Mt. unfold ProofsInv.lev in *. lia.
      * intros x _ _. apply Gt.
      * intros x Hx. rewrite Gt. now apply (i_norm I2).
      * eapply heap_same; [|exact (i_heap I2)]. intros a Ha. apply Mt. lia.
      * rewrite Gt. apply I2.
      * lia.
      * reflexivity.
    + intros o' Ho. injection Ho as <-. split; [exact Lo|]. split; [exact Ln|]. intros Hd. rewrite Et. rewrite G2 by discriminate. now apply read_written.
  - split; [exact I2|]. split; [reflexivity|]. split; [reflexivity|]. discriminate.
Qed.

Variable se : list inst.
Hypothesis env_code : match Frame.Model.f_env f with
  | None => se = []
  | Some (id, es) => exists o is, find (Frame.Model.offsets fr) id = Some o /\ copy_env r (Frame.Model.offsets fr) 0 es = Ret is /\ se = Store Q (at_rbp o) Rsi :: is
  end.
Variables (ev : val) (G : env).
Hypothesis env_is : environment w ev G.
Hypothesis env_given : forall p, ev = pointer p -> 0 <= p < 2 ^ 64 -> gp s Rsi = p.
Notation s4 := (run se s3).

Lemma env_ok : Inv [] (G ++ Gp) [] n m g w s4 /\ rest s3 s4 /\ (forall a, lev n <= a < start -> ~ (lev (Frame.Model.scope (saved_frame f)) <= a < b) -> mem s4 a = mem s3 a).
Proof.
  setting. destruct save_ok as (I3 & G3 & M3 & _). destruct enter_ok as (_ & G2 & _). pose proof level_bound as Lb. pose proof depth_reserved as Dr.
  pose proof (f_saved _ framing) as Fs. pose proof saved_wf as Sw. pose proof (Forall2_length _ _ _ types) as L1. pose proof (Forall2_length _ _ _ lengths) as L2.
  assert (Nd : NoDup (map fst (Frame.Spec.initial f))). { unfold Frame.Spec.bound in distinct. rewrite map_app in distinct. eapply nodup_left, distinct. }
  set (u := s3) in *. unfold environment, saved_frame, Frame.Spec.initial in *. destruct (Frame.Model.f_env f) as [[e es]|].
  - destruct env_is as (p & G' & Hp & Ev & Rd & ->). destruct env_code as (o & is & Ho & Hc & ->). rewrite <- own in Ho, Hc.
    set (f0 := Frame.Model.Frame [] 0 0 0) in *. assert (W0 : wf f0) by (unfold wf, f0; cbn; lia).
    pose proof (add_var_more (type_words r) e CtEnv f0 W0) as Mo.
    pose proof (add_vars_more (type_words r) es _ (m_wf _ _ Mo)) as Mo'.
    destruct (add_var_level (type_words r) offs unique e CtEnv f0 (incl_tran (m_offsets _ _ Mo') Fs)) as [Hf _].
    change (Frame.Model.scope (Frame.Model.add_var (type_words r) e CtEnv f0)) with 1%nat in Hf. rewrite Hf in Ho. injection Ho as <-.
    pose proof (add_vars_chain (type_words r) offs unique es _ (m_wf _ _ Mo) Fs) as Ch.
    change (Frame.Model.scope (Frame.Model.add_var (type_words r) e CtEnv f0)) with 1%nat in Ch.
    set (i := Frame.Model.scope (Frame.Model.add_vars (type_words r) es (Frame.Model.add_var (type_words r) e CtEnv f0))) in *.
    pose proof (chain_le _ _ _ _ _ Ch) as Li.
    set (t := run [Store Q (at_rbp (Frame.Model.offset_of 1)) Rsi] u).
    assert (Si : gp u Rsi = p) by (rewrite G3, G2 by discriminate; now apply env_given).
    assert (Et : t = write 8 (lev 1) p u).
    { unfold t. cbn [run fold_left step bytes]. rewrite Si. f_equal. unfold ea. cbn [at_rbp base index disp]. rewrite (i_rbp I3). unfold ProofsInv.lev, Frame.Model.offset_of. lia. }
    assert (Gt : forall x, gp t x = gp u x) by (rewrite Et; reflexivity).
    assert (Mt : forall a, ~ (lev 1 <= a < b) -> mem t a = mem u a). { intros a Ha. rewrite Et. apply mem_write_out. unfold ProofsInv.lev in *. lia. }
    assert (It : Inv [] ((e, pointer p) :: Gp) [] 1 i g w t).
    { destruct I3 as [B1 B2 B3 B4 B5 B6 B7 B8]. split.
      - now rewrite Gt.
      - now rewrite Gt.
      - exact Li.
      - lia.
      - intros x Hx. rewrite Gt. now apply B5.
      - eapply heap_same; [|exact B6]. intros a Ha. apply Mt. lia.
      - intros id v Hi. cbn [find] in Hi. destruct (Nat.eqb_spec e id) as [<-|Ne].
        + injection Hi as <-. exists (Frame.Model.offset_of 1). split; [exact Hf|]. unfold ProofsInv.lev, Frame.Model.offset_of. split; [lia|]. unfold pointer. rewrite number_length. split; [lia|].
          replace (b + Z.of_nat 1 * -8) with (lev 1) by (unfold ProofsInv.lev; lia). rewrite Et. apply holds_number. intros k z Hk. pose proof (nth_bound _ _ _ Hk) as Bk. rewrite le_length in Bk.
          rewrite nth_le in Hk by exact Bk. injection Hk as <-. now apply cell_write_in.
        + destruct (B7 id v Hi) as (o & Eo & A1 & A2 & A3). exists o. split; [exact Eo|]. unfold ProofsInv.lev in *. split; [lia|]. split; [lia|].
          eapply holds_ext; [exact A3|]. intros k Hk. apply Mt. lia.
      - split; intros; discriminate. }
    destruct (copy_ok es 0 is ((e, pointer p) :: Gp) 1 i G' i g w p t Hc Ch (Nat.le_refl _)) as (I4 & K4 & R4 & _).
    { now rewrite Z.add_0_r. }
    { now rewrite Gt. }
    { exact It. }
    change (run (Store Q (at_rbp (Frame.Model.offset_of 1)) Rsi :: is) u) with (run is t). split; [|split].
    + eapply inv_level; [|exact (proj1 Lb) | exact (proj2 Lb)]. apply inv_hi with i; [|lia | lia].
      eapply inv_order; [exact I4 | |].
      * eapply Permutation_NoDup; [|exact Nd]. rewrite !map_app. cbn [map fst app]. rewrite map_rev. rewrite (read_env_keys _ _ _ _ Rd). rewrite combine_keys by (rewrite map_length; lia).
        rewrite <- Permutation_rev. apply Permutation_middle.
      * rewrite <- Permutation_rev. rewrite <- Permutation_middle. rewrite <- Ev. reflexivity.
    + eapply rest_trans; [|exact R4]. intros x _ _. apply Gt.
    + intros a Ha Hn. rewrite K4; [apply Mt | |]; unfold ProofsInv.lev in *; lia.
  - subst G se. cbn [app run fold_left]. split; [|split; [apply rest_refl | reflexivity]]. eapply inv_level; [exact I3 | lia | lia].
Qed.
End Enter.

(** ** The epilogue *)
Lemma in_regs_kept bs s s' : (forall x, x <> Rsp -> x <> Rbp -> gp s' x = gp s x) -> xm s' = xm s ->
  forall es gs xs, Forall (fun g => g <> Rsp /\ g <> Rbp) gs -> in_regs es gs xs bs s -> in_regs es gs xs bs s'.
Proof.
  clear. intros Hg Hx. induction es as [|e es IH]; intros gs xs Hn H; [exact Logic.I|]. cbn [in_regs] in *.
  destruct (e_class e); try contradiction; [destruct gs as [|g gs]; [contradiction|] | destruct xs as [|x xs]; [contradiction|]]; destruct H as [H1 H2].
  - inversion Hn as [|? ? [N1 N2] G2]; subst. split; [|now apply IH]. now rewrite Hg.
  - split; [now rewrite Hx | now apply IH].
Qed.
Lemma has_kept l v s s' : cls l <> Memory -> (forall x, x <> Rsp -> x <> Rbp -> gp s' x = gp s x) -> xm s' = xm s -> has l v s -> has l v s'.
Proof.
  clear. intros N Hg Hx (bs & Hm & L & V). exists bs. split; [exact Hm|]. split; [exact L|]. destruct (cls l); try exact V; try contradiction.
  - eapply in_regs_kept; [exact Hg | exact Hx | repeat constructor; discriminate | exact V].
  - eapply in_regs_kept; [exact Hg | exact Hx | repeat constructor; discriminate | exact V].
Qed.
Lemma memory_type l : get r (Frame.Model.f_ret f) = Ret l -> in_memory r (Frame.Model.f_ret f) = true <-> cls l = Memory.
Proof. intros H. unfold in_memory, layout_or_void. rewrite H. unfold is_memory. destruct (cls l); cbn; split; congruence. Qed.

Section Leave.
Variables (l : layout) (v : val) (de : list inst).
Hypothesis ret_is : get r (Frame.Model.f_ret f) = Ret l.
Hypothesis deliver : match ret with
  | None => de = []
  | Some o => exists l, get r (Frame.Model.f_ret f) = Ret l /\ de = Load Q Rax (at_rbp o) :: fst (store (Addr Rax None 0) l)
  end.
Hypothesis good_l : good l.

Lemma deliver_ok s dst : gp s Rbp = b -> has l v s -> gp s Rsp + taken l <= lev n ->
  (cls l = Memory -> b + 16 <= dst) -> (forall o, ret = Some o -> read 8 (mem s) (b + o) = dst) ->
  let s' := run de s in
  Forall clean de /\ (forall x, saved x = true -> x <> Rsp -> gp s' x = gp s x) /\
  (forall a, ~ into l dst a -> mem s' a = mem s a) /\ match cls l with Memory => List.length v = length_of l /\ holds (mem s') dst v | _ => s' = s end.
Proof.
  setting. intros Rb V Sp Hd Hr s'. pose proof (f_level _ framing) as Lv. pose proof (memory_type l ret_is) as Mt. pose proof level_bound as Lb.
  destruct (in_memory r (Frame.Model.f_ret f)).
  - destruct Lv as [Er En]. rewrite Er in deliver. destruct deliver as (l' & Hl & Ed). rewrite ret_is in Hl. injection Hl as <-.
    pose proof (proj1 Mt eq_refl) as Em. specialize (Hd Em). specialize (Hr _ Er). set (o := Frame.Model.offset_of n) in *.
    set (s1 := run [Load Q Rax (at_rbp o)] s).
    assert (E1 : s1 = set_gp Rax dst s).
    { unfold s1. cbn [run fold_left step bytes merge_low]. f_equal. rewrite <- Hr. f_equal. unfold ea. cbn [at_rbp base index disp]. rewrite Rb. lia. }
    pose proof (has_length _ _ _ V) as Ln. destruct V as (bs & Hm & V).
    assert (V1 : value l bs s1). { apply value_memory; [exact Em|]. apply value_memory in V; [|exact Em]. rewrite E1. exact V. }
    assert (Ea : ea (Addr Rax None 0) s1 = dst) by (rewrite E1; transitivity (dst + 0 + 0); [reflexivity | lia]).
    assert (Rs : gp s1 Rsp = gp s Rsp) by (rewrite E1; reflexivity).
    assert (Av : forall x, x <> Rax -> avoids (Addr Rax None 0) x) by (intros x Nx; split; [cbn [base]; congruence | exact Logic.I]).
    destruct (store_memory_ok (Addr Rax None 0) l bs s1 (good_usable l good_l) Em (Av R11 ltac:(discriminate)) (Av Rsp ltac:(discriminate)) V1) as (H1 & H2 & H3 & H4 & H5).
    { rewrite Ea, Rs. intros x Hx. unfold ProofsInv.lev in *. lia. }
    assert (Es : s' = run (fst (store (Addr Rax None 0) l)) s1) by (unfold s'; rewrite Ed; reflexivity).
    rewrite <- Es, Ea in *. pose proof (room_size l) as Rz. split; [|split; [|split]].
    + rewrite Ed. constructor; [exact Logic.I | apply clean_store].
    + intros x Sx Nx. rewrite H5; [|intros ->; discriminate | exact Nx]. rewrite E1. rewrite gp_set, gpr_eqb_neq; [reflexivity | intros ->; discriminate].
    + intros a Ha. unfold into in Ha. rewrite Em in Ha. rewrite H4 by lia. now rewrite E1.
    + rewrite Em. split; [exact Ln | now apply holds_match with bs].
  - destruct Lv as [Er En]. rewrite Er in deliver. unfold s'. rewrite deliver. split; [constructor|]. split; [reflexivity|]. split; [reflexivity|].
    assert (Nm : cls l <> Memory) by (intros Em; apply Mt in Em; discriminate). destruct (cls l); try reflexivity. contradiction.
Qed.

Lemma leave_ok (w : world) s dst : gp s Rbp = b -> has l v s -> norm s -> heap_ok (snd w) s -> gp s Rsp + taken l <= lev n ->
  (cls l = Memory -> b + 16 <= dst /\ dst + room l <= start) -> (forall o, ret = Some o -> read 8 (mem s) (b + o) = dst) ->
  let s' := run (de ++ [Movq Rsp Rbp; Pop Rbp]) s in
  gp s' Rsp = b + 8 /\ gp s' Rbp = read 8 (mem s) b /\ (forall x, saved x = true -> x <> Rsp -> x <> Rbp -> gp s' x = gp s x) /\
  norm s' /\ heap_ok (snd w) s' /\ gives l v dst s' /\ forall a, ~ into l dst a -> mem s' a = mem s a.
Proof.
  setting. intros Rb V No He Sp Hd Hr. destruct (deliver_ok s dst Rb V Sp (fun E => proj1 (Hd E)) Hr) as (Cl & Rg & Me & Gi).
  set (s1 := run de s) in *. cbv zeta. rewrite run_app. fold s1.
  assert (Rb1 : gp s1 Rbp = b) by (rewrite Rg by (reflexivity || discriminate); exact Rb).
  set (s' := run [Movq Rsp Rbp; Pop Rbp] s1).
  assert (Es : s' = set_gp Rbp (read 8 (mem s1) b) (set_gp Rsp (b + 8) (set_gp Rsp b s1))). { unfold s'. cbn [run fold_left step]. rewrite Rb1. reflexivity. }
  assert (Ms : mem s' = mem s1) by (rewrite Es; reflexivity).
  assert (Ni : forall a, cls l = Memory -> b <= a < b + 16 -> ~ into l dst a). { intros a Em Ha. unfold into. rewrite Em. destruct (Hd Em). lia. }
  assert (Bs : read 8 (mem s1) b = read 8 (mem s) b).
  { apply read_ext. intros x Hx. apply Me. destruct (cls l) eqn:Em; try (unfold into; rewrite Em; tauto). apply Ni; [reflexivity | lia]. }
  split; [rewrite Es; reflexivity|]. split; [rewrite Es; exact Bs|]. split; [|split; [|split; [|split]]].
  - intros x Sx N1 N2. rewrite Es, !gp_set, !gpr_eqb_neq by assumption. now apply Rg.
  - apply run_norm; [repeat constructor; discriminate|]. now apply run_norm.
  - eapply heap_same; [|exact He]. intros a Ha. rewrite Ms. apply Me. unfold into. destruct (cls l); try tauto. destruct (Hd eq_refl). lia.
  - unfold gives. destruct (cls l) eqn:Em.
    all: try (rewrite Gi in Es; eapply has_kept; [congruence | | | exact V]; [intros x N1 N2; rewrite Es, !gp_set, !gpr_eqb_neq by assumption; reflexivity | rewrite Es; reflexivity]).
    rewrite Ms. exact Gi.
  - intros a Ha. rewrite Ms. now apply Me.
Qed.
End Leave.

(** ** The whole function *)
Lemma run_function (w w' : world) s ls vs se ev G l v o de body og g' f0 p0 :
  parts f fr ret se body og g' de ->
  code_of M F = map I ([Push Rbp; Movq Rbp Rsp] ++ fst (extend_stack (reserve fr)) ++ save_ret ret ++ se) ++ body ++ [Lab 0] ++ map I (de ++ [Movq Rsp Rbp; Pop Rbp]) ++ [Retq] ->
  fine [] (Frame.Model.f_body f) ->
  Peval (G ++ combine (map fst (Frame.Model.f_params f)) vs) [] (Frame.Model.f_body f) w w' o -> o = OVal l v \/ o = ORet l v ->
  get r (Frame.Model.f_ret f) = Ret l -> Forall2 (fun p l => get r (snd p) = Ret l) (Frame.Model.f_params f) ls ->
  Forall2 (fun l (v : val) => List.length v = length_of l) ls vs -> environment w ev G ->
  b = gp s Rsp - 8 -> read 8 (mem s) (gp s Rsp) = address M f0 p0 -> position M (address M f0 p0) = Some (f0, p0) -> args_hold (mem s) (gp s Rsp + 8) (rev (combine ls vs)) ->
  gp s Rsp + 8 + args_room (combine ls vs) <= start -> norm s -> heap_ok (snd w) s -> 0 <= gp s Rbp < 2 ^ 64 ->
  (forall p, ev = pointer p -> 0 <= p < 2 ^ 64 -> gp s Rsi = p) ->
  (cls l = Memory -> gp s Rsp + 8 <= gp s Rdi /\ 0 <= gp s Rdi < 2 ^ 64 /\ gp s Rdi + room l <= start) ->
  leads (fun cf => exists s', cf = Config f0 p0 s' (fst w') /\ gp s' Rsp = gp s Rsp + 8 /\ rest s s' /\ norm s' /\ heap_ok (snd w') s' /\
    gives l v (gp s Rdi) s' /\ forall a, gp s Rsp + 8 <= a < start -> ~ into l (gp s Rdi) a -> mem s' a = mem s a)
    (Config F 0 s (fst w)).
Proof.
  intros Pt Ec Fi Pe Ho Hl Ht Hn He Eb Ra Ap Ha Be No Hh Hb Hi Hd. setting.
  destruct Pt as [_ Penv Pbody Pdel]. rewrite <- own in Pbody.
  pose proof (reached_good _ (x_layouts X) _ _ Hl) as Gl.
  destruct (enter_ok w s ls vs Eb Ha Be No Hh Ht Hn) as (_ & G2 & M2 & B2).
  destruct (save_ok w s ls vs Eb Ha Be No Hh Ht Hn) as (_ & G3 & M3 & D3).
  destruct (env_ok w s ls vs Eb Ha Be No Hh Ht Hn se Penv ev G He Hi) as (I4 & R4 & M4).
  set (s2 := run (fst (extend_stack (reserve fr))) _) in *. set (s3 := run (save_ret ret) s2) in *. set (s4 := run se s3) in *.
  pose proof level_bound as Lb. pose proof depth_reserved as Dr. specialize (B2 Hb).
  assert (C : code_at 0 (code_of M F)) by (exists [], []; rewrite app_nil_r; auto). rewrite Ec in C.
  apply code_at_app in C. destruct C as [Cp C]. apply code_at_app in C. destruct C as [Cb C]. apply code_at_app in C. destruct C as [C0 C].
  apply code_at_app in C. destruct C as [Ce Cr].
  eapply leads_emit; [exact Cp|]. rewrite !run_app. fold s2 s3 s4.
  set (p1 := (0 + _)%nat) in *. set (p2 := (p1 + List.length body)%nat) in *.
  assert (R24 : forall x, saved x = true -> x <> Rsp -> x <> Rbp -> gp s4 x = gp s x). { intros x Sx N1 N2. rewrite R4, G3 by assumption. now apply G2. }
  assert (M24 : forall a, b <= a < start -> mem s4 a = mem s2 a). { intros a Ha'. rewrite M4, M3; unfold ProofsInv.lev in *; first [reflexivity | lia]. }
  assert (Bs : read 8 (mem s4) b = gp s Rbp). { rewrite <- B2. apply read_ext. intros x Hx. apply M24. lia. }
  assert (Ms : forall a, b + 8 <= a < start -> mem s4 a = mem s a). { intros a Ha'. rewrite M24 by lia. apply M2. lia. }
  assert (Ds : forall o', ret = Some o' -> read 8 (mem s4) (b + o') = gp s Rdi).
  { intros o' Eo. destruct (D3 o' Eo) as (L1 & L2 & L3).
    assert (Em : cls l = Memory). { apply (memory_type l Hl). pose proof (f_level _ framing) as Lv. destruct (in_memory r (Frame.Model.f_ret f)); [reflexivity | destruct Lv; congruence]. }
    rewrite <- L3 by apply (Hd Em). apply read_ext. intros x Hx. apply M4; unfold ProofsInv.lev in *; lia. }
  destruct (Pe [] _ _ _ _ Pbody Fi ltac:(intros x [])) as [St Dy].
  eapply leads_trans with (P := fun cf => exists s5, cf = Config F p2 s5 (fst w') /\ has l v s5 /\ norm s5 /\ heap_ok (snd w') s5 /\ rest s4 s5 /\ gp s5 Rsp + taken l <= lev n /\
      forall a, lev n <= a < start -> mem s5 a = mem s4 a).
  - eapply leads_trans; [exact (Dy [] n m p1 s4 Cb (f_placed _ framing) I4)|]. intros cf Hcf. apply leads_here. destruct Ho as [-> | ->].
    + destruct Hcf as (s5 & -> & A5 & V5). destruct St as (_ & _ & Dg). exists s5. split; [reflexivity|]. split; [exact V5|]. split; [exact (i_norm (a_inv A5))|]. split; [exact (i_heap (a_inv A5))|].
      split; [exact (a_rest A5)|]. pose proof (i_rsp (a_inv A5)) as R5. cbn [depth] in Dr, Dg. pose proof (taken_bounds l). unfold ProofsInv.lev in *. split; [lia|].
      intros a Ha'. apply (a_kept A5); unfold ProofsInv.lev; cbn [depth]; lia.
    + destruct Hcf as (s5 & q & El & -> & _ & V5 & N5 & H5 & R5 & S5 & K5). exists s5. assert (q = p2) as ->; [|repeat (split; [first [reflexivity | assumption]|]); exact K5].
      rewrite (code_at_label M F p2 0 [] C0 (x_labels X)) in El. congruence.
  - intros cf (s5 & -> & V5 & N5 & H5 & R5 & S5 & K5). eapply leads_label; [exact C0|]. eapply leads_emit; [exact Ce|].
    destruct (leave_ok l v de Hl Pdel Gl w' s5 (gp s Rdi)) as (E1 & E2 & E3 & E4 & E5 & E6 & E7).
    { rewrite R5 by (reflexivity || discriminate). apply I4. }
    { exact V5. }
    { exact N5. }
    { exact H5. }
    { exact S5. }
    { intros Em. destruct (Hd Em). lia. }
    { intros o' Eo. rewrite <- (Ds o' Eo). destruct (D3 o' Eo) as (L1 & _). apply read_ext. intros x Hx. apply K5. pose proof (f_level _ framing) as Lv. destruct (in_memory r (Frame.Model.f_ret f)); destruct Lv; [|congruence]. unfold ProofsInv.lev in *. lia. }
    set (s6 := run _ s5) in *.
    assert (M6 : forall a, b + 8 <= a < start -> ~ into l (gp s Rdi) a -> mem s6 a = mem s a).
    { intros a Ha' Na. rewrite E7 by exact Na. rewrite K5 by (unfold ProofsInv.lev; lia). apply Ms. lia. }
    assert (Ra6 : read 8 (mem s6) (gp s6 Rsp) = address M f0 p0).
    { rewrite E1, <- Ra. replace (b + 8) with (gp s Rsp) by lia. apply read_ext. intros x Hx. apply M6; [lia|]. unfold into. destruct (cls l); try tauto. destruct (Hd eq_refl). lia. }
    apply code_at_cons in Cr. destruct Cr as [Cr _].
    eapply leads_step. { unfold next_step. cbn [fn pc st al]. replace (p2 + 1)%nat with (p2 + List.length [Lab 0])%nat by reflexivity. rewrite Cr, Ra6, Ap. reflexivity. }
    set (s7 := set_gp Rsp _ s6). apply leads_here. exists s7. split; [reflexivity|].
    assert (G7 : forall x, x <> Rsp -> gp s7 x = gp s6 x) by (intros x Nx; unfold s7; now rewrite gp_set, gpr_eqb_neq).
    split; [change (gp s7 Rsp) with (gp s6 Rsp + 8); lia|]. split; [|split; [|split; [|split]]].
    + intros x Sx Nx. rewrite G7 by exact Nx. destruct (gpr_eqb_spec x Rbp) as [->|Nb].
      * rewrite E2. rewrite <- Bs. apply read_ext. intros x Hx. apply K5. unfold ProofsInv.lev. lia.
      * rewrite E3, R5, R24 by assumption. reflexivity.
    + intros x Nx. rewrite G7 by (intros ->; discriminate). now apply E4.
    + exact E5.
    + unfold gives in *. destruct (cls l) eqn:Em; try (eapply has_kept; [congruence | intros x N1 N2; now apply G7 | reflexivity | exact E6]). exact E6.
    + intros a Ha' Na. change (mem s7 a) with (mem s6 a). apply M6; [lia | exact Na].
Qed.
End Function.
End Cases.
