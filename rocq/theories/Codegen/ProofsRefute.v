(** Functions the compiler writes wrong code for. *)
From Coq Require Import ZArith Lia Permutation.
From Verif.Base Require Import Base.
From Verif.Ir Require Import Model RtInd.
From Verif.Layout Require Import Model Spec.
From Verif.Frame Require Model Spec.
From Verif.Stack Require Import Machine Model Spec Facts Proofs ProofsValue ProofsMove.
From Verif.Codegen Require Import Float Alu Operators Model Machine Spec Facts Convention ProofsNum ProofsBlock.
Local Open Scope Z_scope.

(** ** The machine: the function 0, and the position 0 of the function 1 to return to *)
Definition num : ct := CtU 64.
Lemma get_num : get [] num = Ret (l_integer 8). Proof. reflexivity. Qed.
Definition bottom : Z := 2 ^ 32.
Definition clear (s : state) : state := State (fun x => if saved x then gp s x else 0) (xm s) (mem s).
Section Alone.
Variable f : Frame.Model.function.
Variable items : list item.
Definition the_function (id : nat) : option Frame.Model.function := match id with O => Some f | _ => None end.
Definition alone : machine :=
  Machine (fun id => match id with O => items | _ => [] end)
    (fun f p => if (f <? 2)%nat && (p <? 1000)%nat then Z.of_nat (1000 * f + p) else 2000)
    (fun a => if (0 <=? a) && (a <? 2000) then Some (Z.to_nat (a / 1000), Z.to_nat (a mod 1000)) else None)
    unit (fun w n => (w, bottom)) (fun _ s => clear s)
    (fun _ => 3000)
    (fun w a s => if a =? 3000 then Some (w, clear s) else None).
(** The C function yields zero. *)
Definition zero (a : Z) (args : list (layout * val)) (l : layout) (w w' : world unit) (v : val) : Prop :=
  a = 3000 /\ w' = w /\ l = l_integer 8 /\ v = number 8 0.
Lemma alone_emitted : function_code [] (fun _ => true) f = Ret items -> (List.length items < 1000)%nat -> NoDup (map fst (Frame.Spec.bound f)) ->
  emitted alone [] (fun _ => true) bottom the_function zero.
Proof.
  intros Hc Li Nd. split.
  - constructor.
  - intros w s. split; [|split]; [intros x Sx; cbn; now rewrite Sx | intros x Sx; cbn; rewrite Sx; lia | reflexivity].
  - intros g p. cbn [address code_of position alone]. destruct (Nat.ltb_spec g 2) as [Hf|Hf]; [destruct (Nat.ltb_spec p 1000) as [Hp|Hp]|]; cbn [andb].
    + split; [lia|]. intros _. replace (_ && _) with true by (symmetry; apply andb_true_iff; split; lia). do 2 f_equal.
      * rewrite Nat2Z.inj_add, Nat2Z.inj_mul. rewrite Z.add_comm, Z.mul_comm, Z.div_add, Z.div_small by lia. lia.
      * rewrite Nat2Z.inj_add, Nat2Z.inj_mul. rewrite Z.add_comm, Z.mul_comm, Z_mod_plus_full, Z.mod_small by lia. lia.
    + split; [lia|]. intros H. exfalso. destruct g; cbn in H; lia.
    + split; [lia|]. intros H. exfalso. destruct g as [|g]; [lia | cbn in H; lia].
  - intros a args l w w' v (-> & -> & -> & ->). split; [reflexivity|]. intros s C. exists (clear s). split; [reflexivity|]. split.
    + intros x Sx. cbn. now rewrite Sx.
    + intros x Sx. cbn. rewrite Sx. lia.
    + split; [reflexivity|]. change (exists bs, fits (number 8 0) bs /\ value (l_integer 8) bs (clear s)). exists [0; 0; 0; 0; 0; 0; 0; 0]. split.
      * intros i z Hi. do 8 (destruct i as [|i]; [injection Hi as <-; reflexivity|]). destruct i; discriminate.
      * split; [reflexivity|]. change (in_reg 0 [0; 0; 0; 0; 0; 0; 0; 0] /\ True). split; [|exact Logic.I]. intros i z Hi. do 8 (destruct i as [|i]; [injection Hi as <-; reflexivity|]). destruct i; discriminate.
    + exact (f_heap _ _ _ _ _ C).
    + reflexivity.
  - unfold bottom. lia.
  - intros id g Hf _. destruct id as [|id]; [|discriminate]. injection Hf as <-. split; [exact Hc | exact Nd].
Qed.

(** Running the code until it is left or stops. *)
Fixpoint until (n : nat) (c : config unit) : option (config unit) :=
  match n with
  | O => None
  | Datatypes.S n =>
      if gp (st c) Rsp <? 0 then None
      else if (fn c =? 1)%nat then Some c else match next_step alone c with Some c' => until n c' | None => Some c end
  end.
Lemma until_leads (P : config unit -> Prop) : (forall c, P c -> fn c = 1%nat) -> forall n c c', until n c = Some c' -> leads alone P c -> P c'.
Proof.
  intros HP n. induction n as [|n IH]; intros c c' H L; [discriminate|]. cbn [until] in H. destruct (Z.ltb_spec (gp (st c) Rsp) 0) as [Ov|Nv]; [discriminate|].
  destruct (Nat.eqb_spec (fn c) 1) as [E|N].
  - injection H as <-. inversion L as [? L1 | ? L1 | ? c2 Hs L1]; subst; [exact L1 | exact (False_ind _ (Z.lt_irrefl 0 (Z.le_lt_trans _ _ _ Nv L1)))|]. exfalso. destruct c as [cf cp cs ca]. cbn [fn] in E. subst cf. unfold next_step in Hs. cbn [fn pc alone code_of] in Hs. destruct cp; discriminate Hs.
  - inversion L as [? L1 | ? L1 | ? c2 Hs L1]; subst; [now elim N; apply HP | exact (False_ind _ (Z.lt_irrefl 0 (Z.le_lt_trans _ _ _ Nv L1)))|]. rewrite Hs in H. exact (IH _ _ H L1).
Qed.

Definition top : Z := 2 ^ 20.
Definition entry : state :=
  State (fun x => match x with Rsp => top - 8 | _ => 0 end) (fun _ => 0) (fun a => if a =? top - 8 then 232 else if a =? top - 7 then 3 else 0).
Lemma entry_called : called alone bottom (pointer 1) [] [] (l_integer 8) (fun _ => None) 1 0 (set_gp Rsi 1 entry).
Proof.
  split.
  - reflexivity.
  - split; reflexivity.
  - intros i l v Hl. destruct i; discriminate.
  - intros p E Hp. assert (H : le 8 1 = le 8 p).
    { unfold pointer, number in E. revert E. generalize (le 8 p). generalize (le 8 1). clear. induction l as [|x l IH]; intros [|y k] E; try discriminate; [reflexivity|]. injection E as -> E. f_equal. now apply IH. }
    apply le_inj in H; [exact H | lia | exact Hp].
  - discriminate.
  - vm_compute. discriminate.
  - intros a. split; [intros H; now elim H | discriminate].
  - intros x Nx. destruct x; try contradiction; vm_compute; (split; [discriminate | reflexivity]).
Qed.
End Alone.

Definition const (z : N) : rt := RConst (KInteger num false z).
Definition plain_function (body : rt) : Frame.Model.function := Frame.Model.Function None [] num body Frame.Model.Standard.
Definition code_of_body (body : rt) : list item := match function_code [] (fun _ => true) (plain_function body) with Ret c => c | _ => [] end.
Definition box (body : rt) : machine := alone (code_of_body body).
Notation means body := (eval [] (the_function (plain_function body)) (fun f => address (box body) f 0) bottom unit (alloc (box body)) (symbol (box body)) zero).

Lemma wrong body z n : function_code [] (fun _ => true) (plain_function body) = Ret (code_of_body body) -> (List.length (code_of_body body) < 1000)%nat ->
  NoDup (map fst (Frame.Spec.bound (plain_function body))) ->
  (exists o, means body [] [] body (tt, fun _ => None) (tt, fun _ => None) o /\ (o = OVal (l_integer 8) (number 8 z) \/ o = ORet (l_integer 8) (number 8 z))) ->
  match until (code_of_body body) n (Config 0 0 (set_gp Rsi 1 entry) tt) with Some c' => (fn c' =? 0)%nat || negb (byte (gp (st c') Rax) 0 =? byte z 0) | None => false end = true ->
  goes_wrong num body.
Proof.
  intros Hc Li Nd (o & Ho & Hv) H. destruct (until (code_of_body body) n (Config 0 0 (set_gp Rsi 1 entry) tt)) as [c'|] eqn:Hu; [|discriminate].
  assert (Hw : fn c' = O \/ byte (gp (st c') Rax) 0 <> byte z 0) by (apply orb_true_iff in H as [H|H]; [left; now apply Nat.eqb_eq | right; now apply Z.eqb_neq, negb_true_iff]). clear H.
  exists (box body), [], (fun _ => true), bottom, (the_function (plain_function body)), zero.
  split; [now apply alone_emitted|]. split; [reflexivity|].
  exists (pointer 1), (tt, fun _ => None), (tt, fun _ => None), (l_integer 8), (number 8 z), 1%nat, 0%nat, (set_gp Rsi 1 entry). split; [|split].
  - eapply apply_body with (G := []) (o := o); try reflexivity; [constructor | constructor | exact Ho | exact Hv].
  - apply entry_called.
  - intros L. 
    assert (K : returned (box body) bottom (l_integer 8) (number 8 z) (fun _ => None) 1 0 (set_gp Rsi 1 entry) c').
    { refine (proj2 (until_leads (code_of_body body) (fun c => al c = tt /\ returned (box body) bottom (l_integer 8) (number 8 z) (fun _ => None) 1 0 (set_gp Rsi 1 entry) c) _ n _ c' Hu L)). intros c H. exact (proj1 (t_back _ _ _ _ _ _ _ _ _ (proj2 H))). }
    clear L. rename K into L.
    destruct Hw as [Hw|Hw]; [destruct (t_back _ _ _ _ _ _ _ _ _ L) as [E _]; cbn in E; congruence|].
    pose proof (t_result _ _ _ _ _ _ _ _ _ L) as D. change (List.length (number 8 z) = 8%nat /\ exists bs, fits (number 8 z) bs /\ List.length bs = 8%nat /\ in_reg (gp (st c') Rax) (part bs 0 8) /\ True) in D. destruct D as [_ (bs & Fb & _ & Vb & _)]. apply Hw, Vb. 
    assert (E : nth_error bs 0 = Some (byte z 0)) by (apply Fb; reflexivity). destruct bs; [discriminate|]. exact E.
Qed.
Lemma const_means body G ks z w : means body G ks (const z) w w (OVal (l_integer 8) (number 8 (Z.of_N z))).
Proof. eapply e_const. repeat split. cbn. lia. Qed.

(** A function is called that is not there. *)
Definition calls_return : rt := RCall (RReturn (const 5)) [].
Lemma calls_return_wrong : goes_wrong num calls_return.
Proof.
  eapply (wrong calls_return 5 100); [vm_compute; reflexivity | vm_compute; lia | constructor | | vm_compute; reflexivity].
  eexists. split; [|right; reflexivity]. eapply e_listed; [reflexivity|]. apply evals_stop; [|exact Logic.I]. apply e_return, const_means.
Qed.

(** A loop that is left in the middle of a call. *)
Definition self : rt := RStaticFun (CtId 0) (CtClos [num; num] num) None.
Definition loops : rt := RSeq [RWhile (RConst (KInteger (CtU 1) false 0)) (RCall self [const 1; RReturn (const 2)])] (RCallC [] num []).
Lemma loops_wrong : goes_wrong num loops.
Proof.
  eapply (wrong loops 0 100); [vm_compute; reflexivity | vm_compute; lia | constructor | | vm_compute; reflexivity].
  eexists. split; [|left; reflexivity]. eapply e_seq with (vs := [(l_unit, [])]).
  - eapply evals_cons; [|apply evals_nil]. apply e_while_end. eapply e_const. repeat split. cbn. lia.
  - eapply e_call_c with (ls := []) (vs := []); [reflexivity | constructor | reflexivity | apply evals_nil | repeat split].
Qed.

(** A jump of which an argument jumps to the same continuation, and is left. *)
Definition jumps : rt :=
  RLetCont [(50%nat, [(60%nat, num); (61%nat, num)], RVar 60 num)]
    (RContCall 50 [const 1;
       RLetCont [(51%nat, [], const 5)] (RContCall 50 [const 2; RContCall 51 [] (Some num)] (Some num))] (Some num)).
Lemma jumps_wrong : goes_wrong num jumps.
Proof.
  eapply (wrong jumps 1 100); [vm_compute; reflexivity | vm_compute; lia | | | vm_compute; reflexivity].
  - vm_compute. repeat constructor; cbn; intuition discriminate.
  - eexists. split; [|left; reflexivity]. unfold jumps at 3. eapply e_cont with (k := 50%nat) (vs := [number 8 1; number 8 5]).
    + eapply e_jump with (ls := [l_integer 8; l_integer 8]); [reflexivity | | reflexivity | repeat constructor]. cbn [combine].
      eapply evals_cons; [apply const_means|]. eapply evals_cons; [|apply evals_nil].
      eapply e_cont with (k := 51%nat) (vs := []); [| left; reflexivity | reflexivity | apply const_means].
      eapply e_jump_abrupt with (vs := [(l_integer 8, number 8 2)]); [reflexivity | reflexivity | | repeat constructor].
      eapply evals_cons; [apply const_means|]. apply evals_stop; [|exact Logic.I]. eapply e_jump with (ls := []); [reflexivity | apply evals_nil | reflexivity | constructor].
    + left. reflexivity.
    + reflexivity.
    + apply e_var; reflexivity.
Qed.

Lemma c_arguments_backwards : exists t a b f items, a <> b /\
  function_code [] (fun _ => true) (Frame.Model.Function None [] t (RCallC f t [RCallC a t []; RCallC b t []]) Frame.Model.Standard) = Ret items /\
  filter (fun i => match i with CallSym _ => true | _ => false end) items = [CallSym b; CallSym a; CallSym f].
Proof. exists num, [97%N], [98%N], [102%N]. eexists. split; [discriminate|]. split; vm_compute; reflexivity. Qed.
Lemma call_of_return : exists t value, goes_wrong t (RCall (RReturn value) []).
Proof. exists num, (const 5). exact calls_return_wrong. Qed.
Lemma loop_left_in_call : exists t no f first value next, goes_wrong t (RSeq [RWhile no (RCall f [first; RReturn value])] next).
Proof. exists num, (RConst (KInteger (CtU 1) false 0)), self, (const 1), (const 2), (RCallC [] num []). exact loops_wrong. Qed.
Lemma nested_jump : exists t k ps body first inner second escape,
  goes_wrong t (RLetCont [(k, ps, body)] (RContCall k [first; RLetCont inner (RContCall k [second; escape] (Some t))] (Some t))).
Proof. exists num. do 7 eexists. exact jumps_wrong. Qed.

(** What is not a number is equal to, and less than, everything. *)
Lemma unordered_is_true r o b al bl g w : In o [BFEq; BFLt; BFLe] -> float_width (size bl) = Ret w ->
  exists is g', gen_binary r o b al bl g = Ret (map I (fst (pop_eightbyte (Xmm 1))) ++ [Block is], Some (l_integer 1), g') /\
    forall s, float_compare w (xm s 1%nat) (xm s 0%nat) = None ->
    exists s', block is s = Some s' /\ low B (gp s' Rax) = 1.
Proof.
  intros Ho Hw. destruct Ho as [<-|[<-|[<-|[]]]]; unfold gen_binary; cbn [float_condition]; unfold emit, need, out, ret, Base.bind; rewrite Hw; cbn; do 2 eexists; (split; [reflexivity|]);
  intros s E; unfold block; cbn [alu_run alu_step]; rewrite E; cbn [compared cond_holds]; eexists; (split; [reflexivity|]); exact (gp_low B Rax 1 s).
Qed.

(** Numbers of 8 bytes with the highest bit set. *)
Lemma highest_bit_lost r t a al l g : get r t = Ret l -> floating Q al -> integral Q l ->
  exists is g', gen_unary r (UFToU t) a al g = Ret ([Block is], Some l, g') /\
    forall s z, to_integer Q (xm s 0%nat) = Some z -> 2 ^ 63 < z < 2 ^ 64 ->
    exists s', block is s = Some s' /\ low Q (gp s' Rax) = 2 ^ 63.
Proof.
  intros G Fa Fl. assert (Ea : size al = 8%N) by apply Fa. assert (El : size l = 8%N) by apply Fl.
  unfold gen_unary, emit, need, out, ret, Base.bind. rewrite G, Ea. cbn. rewrite El. cbn. do 2 eexists. split; [reflexivity|].
  intros s z E Z. unfold block. cbn [alu_run alu_step]. rewrite E.
  replace (z <? 2 ^ (bits Q - 1)) with false by (symmetry; apply Z.ltb_ge; change (bits Q - 1) with 63; lia). rewrite andb_false_r.
  eexists. split; [reflexivity|]. rewrite gp_low. reflexivity.
Qed.
Lemma highest_bit_exists : exists x, to_integer Q x = Some (2 ^ 63 + 2 ^ 62).
Proof. exists (1086 * 2 ^ 52 + 2 ^ 51). vm_compute. reflexivity. Qed.
Lemma unordered_exists : exists x, float_compare Q x x = None.
Proof. exists (2047 * 2 ^ 52 + 1). vm_compute. reflexivity. Qed.
