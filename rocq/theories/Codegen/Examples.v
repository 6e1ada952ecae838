(** A program that meets the hypotheses of the theorems. *)
From Coq Require Import ZArith Permutation Lia.
From Verif.Base Require Import Base.
From Verif.Ir Require Import Model RtInd.
From Verif.Layout Require Import Model Spec.
From Verif.Frame Require Model Spec.
From Verif.Stack Require Import Machine Model Spec Facts Proofs ProofsValue ProofsMove.
From Verif.Codegen Require Import Float Alu Operators Model Machine Spec Facts ProofsInv Convention Properties.
Local Open Scope Z_scope.

(** A structure of three numbers, which is passed and returned in memory. *)
Definition num : ct := CtU 64.
Definition triple : ct := CtId 9.
Definition defs : list (nat * def) := [(9%nat, DStruct [num; num; num])].
Definition layouts : resolver := match register (fun l => l) defs [] with Ret r => r | _ => [] end.
Lemma layouts_reached : reached layouts.
Proof.
  refine (reached_register [] (fun l => l) defs _ reached_new _ _ eq_refl).
  - repeat constructor; cbn; intuition discriminate.
  - intro l. apply Permutation_refl.
Qed.
Definition lay (t : ct) : layout := match get layouts t with Ret l => l | _ => l_unit end.

(** [outer x] allocates [x], calls [inner] with a structure, in which [2 * x - 3] is, and [x], and takes a component of the
    structure that [inner] makes of them; [x] goes through two C functions. *)
Definition inner : Frame.Model.function :=
  Frame.Model.Function None [(10%nat, triple); (11%nat, num)] triple
    (RConstructStruct triple [RUnary (UStructElem num 1) (RVar 10 triple); RVar 11 num; RUnary (UStructElem num 0) (RVar 10 triple)])
    Frame.Model.Standard.
Definition pass : rt := RStaticFun (CtId 1) (CtClos [triple; num] triple) None.
(** A C function that yields its last argument, [pick a t b], and one, of which the address is 3001,
    that yields the last component of a structure. *)
Definition number_of (z : Z) : rt := RConst (KInteger num false (Z.to_N z)).
Definition pick_call : rt :=
  RCallC [] num [number_of 7; RConstructStruct triple [number_of 7; number_of 7; number_of 7]; RVar 1 num].
Definition foreign_calls : rt :=
  RCallAddr 0 (number_of 3001) num [RConstructStruct triple [number_of 7; number_of 7; pick_call]].
Definition computed : rt := RBinary BUSub (RBinary BUMul (RVar 1 num) (number_of 2)) (number_of 3).
Definition outer : Frame.Model.function :=
  Frame.Model.Function None [(1%nat, num)] num
    (RLetVar [(2%nat, CtPtr num, RAlloc LHeap (RVar 1 num))]
      (RUnary (UStructElem num 0)
        (RCall pass [RConstructStruct triple [RVar 1 num; RUnary ULoad (RVar 2 (CtPtr num)); computed]; foreign_calls])))
    Frame.Model.Standard.
Definition functions (id : nat) : option Frame.Model.function :=
  match id with 0%nat => Some outer | 1%nat => Some inner | _ => None end.
Definition known (id : nat) : bool := (id <? 2)%nat.

(** Code is at low addresses, the heap from 2^32 on; memory is allocated in order. *)
Definition bottom : Z := 2 ^ 32.
Definition code (id : nat) : list item :=
  match functions id with
  | Some f => match function_code layouts known f with Ret c => c | _ => [] end
  | None => []
  end.
Definition clear (s : state) : state := State (fun x => if saved x then gp s x else 0) (xm s) (mem s).
Definition box : machine :=
  Machine code
    (fun f p => if (f <? 2)%nat && (p <? 1000)%nat then Z.of_nat (1000 * f + p) else 2000)
    (fun a => if (0 <=? a) && (a <? 2000) then Some (Z.to_nat (a / 1000), Z.to_nat (a mod 1000)) else None)
    Z (fun w n => (w + n, w)) (fun _ s => clear s)
    (fun _ => 3000)
    (fun w a s =>
      let give z := Some (w, set_gp Rax z (clear s)) in
      if a =? 3000 then give (wrap (gp s Rsi)) else if a =? 3001 then give (read 8 (mem s) (gp s Rsp + 16)) else None).

Ltac fine_now :=
  constructor; [split; [first [exact Logic.I | discriminate] | split; [constructor | intros ? []]]|];
  cbn [children introduced app]; repeat (constructor; [fine_now|]); try constructor.
Definition made (vs : list val) : val :=
  patches (match composite (lay triple) with Some (es, _) => es | None => [] end) vs (undefined 24).
Definition c_means (a : Z) (args : list (layout * val)) (l : layout) (w w' : world Z) (v : val) : Prop :=
  w' = w /\ l = lay num /\ exists z, 0 <= z < 2 ^ 64 /\ v = number 8 z /\
  ((a = 3000 /\ exists x t, args = [(lay num, x); (lay triple, t); (lay num, v)]) \/
   (a = 3001 /\ exists x y, List.length x = 8%nat /\ List.length y = 8%nat /\ args = [(lay triple, made [x; y; v])])).
Lemma in_rax bs z s : List.length bs = 8%nat -> in_reg z bs -> value (lay num) bs (set_gp Rax z s).
Proof.
  intros L H. split; [exact L|]. change (cls (lay num)) with Integer. change (eightbytes (lay num)) with [Eightbyte 0 8 Integer]. cbn [in_regs e_class e_offset e_size].
  split; [|exact Logic.I]. rewrite part_all by (rewrite L; reflexivity). exact H.
Qed.
Lemma fits_number z : fits (number 8 z) (le 8 z).
Proof.
  intros i b H. unfold number in H. rewrite nth_error_map in H. destruct (nth_error (le 8 z) i); [|discriminate]. injection H as ->. reflexivity.
Qed.
Lemma in_reg_le z : in_reg z (le 8 z).
Proof. intros i b H. pose proof (nth_bound _ _ _ H) as B. rewrite le_length in B. rewrite nth_le in H by exact B. congruence. Qed.
Lemma box_foreign : c_functions box bottom c_means.
Proof.
  intros a args l w w' v (-> & -> & z & Hz & Hv & H). split; [destruct H as [[-> _] | [-> _]]; reflexivity|]. intros s C.
  assert (R : foreign box (fst w) a s = Some (fst w, set_gp Rax z (clear s))).
  { destruct H as [(-> & x & t & ->) | (-> & x & y & Lx & Ly & ->)]; [change (Some (fst w, set_gp Rax (wrap (gp s Rsi)) (clear s)) = Some (fst w, set_gp Rax z (clear s))) | change (Some (fst w, set_gp Rax (read 8 (mem s) (gp s Rsp + 16)) (clear s)) = Some (fst w, set_gp Rax z (clear s)))].
    - enough (W : wrap (gp s Rsi) = z) by (rewrite W; reflexivity). pose proof (f_arguments _ _ _ _ _ C) as P.
      change ((exists bs, List.length bs = 8%nat /\ fits x bs /\ in_regs [Eightbyte 0 8 Integer] (gprs (lay num)) xmms bs s) /\ bytes_at (mem s) (gp s Rsp) t /\
        (exists bs, List.length bs = 8%nat /\ fits v bs /\ in_regs [Eightbyte 0 8 Integer] (tl (gprs (lay num))) xmms bs s) /\ True) in P.
      destruct P as (_ & _ & (bs & Lb & Fb & Ib) & _). cbn [in_regs e_class e_offset e_size tl gprs lay cls] in Ib. destruct Ib as [Ib _]. rewrite part_all in Ib by (rewrite Lb; reflexivity).
      apply bytes_number; [exact Hz | apply Z.mod_pos_bound; reflexivity|]. intros i b Hi. rewrite <- Hv in Hi. apply Fb in Hi. pose proof (nth_bound _ _ _ Hi) as B.
      rewrite <- (Ib i b Hi). unfold wrap, byte. apply Z.bits_inj'. intros n Hn. change 255 with (Z.ones 8). rewrite !Z.land_spec, !Z.shiftr_spec by lia.
      destruct (Z_lt_ge_dec n 8) as [Ln|Ln]; [|rewrite !Z.ones_spec_high by lia; now rewrite !andb_false_r].
      rewrite Z.mod_pow2_bits_low by lia. reflexivity.
    - enough (W : read 8 (mem s) (gp s Rsp + 16) = z) by (rewrite W; reflexivity). pose proof (f_arguments _ _ _ _ _ C) as P. change (bytes_at (mem s) (gp s Rsp) (made [x; y; v]) /\ True) in P. destruct P as [P _].
      apply read_le; [|exact Hz]. intros i b Hi. pose proof (nth_bound _ _ _ Hi) as B. rewrite le_length in B. rewrite <- Z.add_assoc. replace (16 + Z.of_nat i) with (Z.of_nat (16 + i)) by lia. apply P.
      assert (M : made [x; y; v] = x ++ y ++ v).
      { rewrite Hv. clear -Lx Ly. do 9 (destruct x as [|? x]; try discriminate Lx). do 9 (destruct y as [|? y]; try discriminate Ly). vm_compute. reflexivity. }
      rewrite M, nth_error_app2 by (rewrite Lx; lia). rewrite nth_error_app2 by (rewrite Lx, Ly; lia). rewrite Lx, Ly. replace (16 + i - 8 - 8)%nat with i by lia. rewrite Hv. unfold number. rewrite nth_error_map, Hi. reflexivity. }
  exists (set_gp Rax z (clear s)). split; [exact R|]. split.
  - intros x Sx. destruct x; try discriminate Sx; reflexivity.
  - intros x Sx. destruct x; try discriminate Sx; first [exact Hz | split; [apply Z.le_refl | reflexivity]].
  - split; [rewrite Hv; reflexivity|]. change (cls (lay num)) with Integer. cbn iota. exists (le 8 z). split; [rewrite Hv; apply fits_number|]. apply in_rax; [reflexivity | apply in_reg_le].
  - exact (f_heap _ _ _ _ _ C).
  - intros. reflexivity.
Qed.
Lemma box_compiled : compiled box layouts known bottom functions c_means.
Proof.
  split; [split|].
  - exact layouts_reached.
  - intros w s. split; [|split].
    + intros x Sx. cbn. now rewrite Sx.
    + intros x Sx. cbn. rewrite Sx. lia.
    + reflexivity.
  - intros f p. cbn [address code_of position box]. destruct (Nat.ltb_spec f 2) as [Hf|Hf]; [destruct (Nat.ltb_spec p 1000) as [Hp|Hp]|]; cbn [andb].
    + split; [lia|]. intros _. replace (_ && _) with true by (symmetry; apply andb_true_iff; split; lia). do 2 f_equal.
      * rewrite Nat2Z.inj_add, Nat2Z.inj_mul. rewrite Z.add_comm, Z.mul_comm, Z.div_add, Z.div_small by lia. lia.
      * rewrite Nat2Z.inj_add, Nat2Z.inj_mul. rewrite Z.add_comm, Z.mul_comm, Z_mod_plus_full, Z.mod_small by lia. lia.
    + split; [lia|]. intros H. exfalso. assert (L : (List.length (code f) < 1000)%nat); [|lia].
      destruct f as [|[|f]]; [| |lia]; vm_compute; lia.
    + split; [lia|]. intros H. exfalso. destruct f as [|[|f]]; [lia | lia|]. cbn in H. lia.
  - exact box_foreign.
  - unfold bottom. lia.
  - intros id f Hf _. destruct id as [|[|id]]; [| |discriminate]; injection Hf as <-; (split; [vm_compute; reflexivity|]); (vm_compute; repeat constructor; cbn; intuition discriminate).
  - intros id f Hf _. destruct id as [|[|id]]; [| |discriminate]; injection Hf as <-; fine_now.
Qed.

Definition five : val := number 8 5.
Definition seven : val := number 8 7.
Definition eval_now := (eval layouts functions (fun f => address box f 0) bottom Z (alloc box) (symbol box) c_means).
Lemma var_now G ks id t w l v : find G id = Some v -> get layouts t = Ret l -> List.length v = size_nat l -> eval_now G ks (RVar id t) w w (OVal l v).
Proof. apply e_var. Qed.
Lemma elem_now G ks i x w w' v es cs off l v' : eval_now G ks x w w' (OVal (lay triple) v) -> composite (lay triple) = Some (es, cs) ->
  nth_error es i = Some (off, l) -> num_eightbytes l <> num_eightbytes (lay triple) -> v' = part v off (size l) ->
  eval_now G ks (RUnary (UStructElem num i) x) w w' (OVal l v').
Proof. intros E C N D ->. eapply e_unary; [exact E|]. exists es, cs, off. tauto. Qed.

(** [outer 5] is 5, which [inner] took from the second place of the structure. *)
Definition after : world Z := (bottom + 8, put bottom five (put bottom (undefined 8) (fun _ => None))).
Lemma const_now G ks z w : 0 <= z < 2 ^ 64 -> eval_now G ks (number_of z) w w (OVal (lay num) (number 8 z)).
Proof. intros Hz. rewrite <- (Z2N.id z) at 2 by lia. eapply e_const. repeat split; cbn; lia. Qed.
Lemma computed_now G ks w : find G 1 = Some five -> eval_now G ks computed w w (OVal (lay num) seven).
Proof.
  intros Hx. rewrite (surjective_pairing w) at 2. apply e_binary with (w1 := w) (al := lay num) (v := number 8 10) (bl := lay num) (v2 := number 8 3); [| apply const_now; lia|].
  - rewrite (surjective_pairing w) at 2. apply e_binary with (w1 := w) (al := lay num) (v := five) (bl := lay num) (v2 := number 8 2); [apply var_now; [exact Hx | reflexivity | reflexivity] | apply const_now; lia|].
    exists Q, 5, 2, 10. repeat split; cbn; lia.
  - exists Q, 10, 3, 7. repeat split; cbn; lia.
Qed.
Lemma struct_now G ks a b c w x y z : eval_now G ks a w w (OVal (lay num) x) -> eval_now G ks b w w (OVal (lay num) y) -> eval_now G ks c w w (OVal (lay num) z) ->
  eval_now G ks (RConstructStruct triple [a; b; c]) w w (OVal (lay triple) (made [x; y; z])).
Proof.
  intros A B C. eapply e_struct with (ls := [lay num; lay num; lay num]) (vs := [x; y; z]); try reflexivity. cbn [combine].
  eapply evals_cons; [exact A|]. eapply evals_cons; [exact B|]. eapply evals_cons; [exact C|]. apply evals_nil.
Qed.
Lemma foreign_now G ks w : find G 1 = Some five -> eval_now G ks foreign_calls w w (OVal (lay num) five).
Proof.
  intros Hx. eapply e_call_addr with (ls := [lay triple]) (vs := [made [seven; seven; five]]) (a := 3001) (w1 := w); [reflexivity | | reflexivity | lia | |].
  - repeat constructor. exists triple. split; reflexivity.
  - change (evals layouts functions (fun f => address box f 0) bottom Z (alloc box) (symbol box) c_means G ks
      [RConstructStruct triple [number_of 7; number_of 7; pick_call]; number_of 3001] w w [(lay triple, made [seven; seven; five]); (l_pointer, number 8 3001)] None).
    eapply evals_cons; [|eapply evals_cons; [apply const_now; lia | apply evals_nil]]. apply struct_now; [apply const_now; lia | apply const_now; lia|].
    eapply e_call_c with (ls := [lay num; lay triple; lay num]) (vs := [seven; made [seven; seven; seven]; five]) (w1 := w); [reflexivity | | reflexivity | |].
    + repeat constructor; [exists num | exists triple | exists num]; split; reflexivity.
    + change (evals layouts functions (fun f => address box f 0) bottom Z (alloc box) (symbol box) c_means G ks
        [RConstructStruct triple [number_of 7; number_of 7; number_of 7]; RVar 1 num; number_of 7] w w [(lay triple, made [seven; seven; seven]); (lay num, five); (lay num, seven)] None).
      eapply evals_cons; [apply struct_now; apply const_now; lia|]. eapply evals_cons; [apply var_now; [exact Hx | reflexivity | reflexivity]|]. eapply evals_cons; [apply const_now; lia | apply evals_nil].
    + split; [reflexivity|]. split; [reflexivity|]. exists 5. split; [lia|]. split; [reflexivity|]. left. split; [reflexivity|]. exists seven, (made [seven; seven; seven]). reflexivity.
  - split; [reflexivity|]. split; [reflexivity|]. exists 5. split; [lia|]. split; [reflexivity|]. right. split; [reflexivity|]. exists seven, seven. repeat split; reflexivity.
Qed.
Lemma inner_applies w : apply layouts functions (fun f => address box f 0) bottom Z (alloc box) (symbol box) c_means 1 (pointer 0) [lay triple; lay num]
  [made [five; five; seven]; five] w w (lay triple) (made [five; five; five]).
Proof.
  eapply apply_body with (o := OVal _ _); try reflexivity; [repeat constructor | repeat constructor | | left; reflexivity].
  eapply e_struct with (ls := [lay num; lay num; lay num]) (vs := [five; five; five]); try reflexivity. cbn [combine].
  eapply evals_cons; [|eapply evals_cons; [|eapply evals_cons; [|apply evals_nil]]].
  - eapply elem_now; [apply var_now; reflexivity | reflexivity | reflexivity | vm_compute; discriminate | reflexivity].
  - apply var_now; reflexivity.
  - eapply elem_now; [apply var_now; reflexivity | reflexivity | reflexivity | vm_compute; discriminate | reflexivity].
Qed.
Lemma outer_applies : apply layouts functions (fun f => address box f 0) bottom Z (alloc box) (symbol box) c_means 0 (pointer 0) [lay num] [five]
  (bottom, fun _ => None) after (lay num) five.
Proof.
  eapply apply_body with (o := OVal _ _); try reflexivity; [repeat constructor | repeat constructor | | left; reflexivity].
  eapply e_let with (w1 := after).
  - eapply lets_cons; [reflexivity | | apply lets_nil].
    apply (e_alloc layouts functions (fun f => address box f 0) bottom Z (alloc box) (symbol box) c_means _ _ LHeap (RVar 1 num) num (lay num) _
      (bottom + 8, put bottom (undefined 8) (fun _ => None)) (bottom + 8, put bottom (undefined 8) (fun _ => None)) bottom five); try reflexivity.
    + discriminate.
    + repeat split; cbn; unfold bottom; lia.
    + apply var_now; reflexivity.
    + intros i Hi. change (i < 8)%nat in Hi. cbn [snd]. unfold put. rewrite (proj2 (andb_true_iff _ _)); [discriminate|].
      change (List.length (undefined 8)) with 8%nat. split; [apply Z.leb_le | apply Z.ltb_lt]; lia.
  - eapply elem_now with (v := made [five; five; five]); [| reflexivity | reflexivity | vm_compute; discriminate | reflexivity].
    eapply e_call with (ls := [lay triple; lay num]) (vs := [made [five; five; seven]; five]) (id := 1%nat) (ev := pointer 0) (w1 := after);
      [reflexivity | reflexivity | repeat constructor | | reflexivity | reflexivity | apply inner_applies]. cbn [combine app].
    eapply evals_cons with (w1 := after).
    + eapply e_struct with (ls := [lay num; lay num; lay num]) (vs := [five; five; seven]); try reflexivity. cbn [combine].
      eapply evals_cons; [apply var_now; reflexivity|].
      eapply evals_cons.
      * eapply e_unary; [apply var_now; reflexivity|]. cbn [unary_value]. split; [reflexivity|]. exists num, bottom.
        repeat (split; [first [reflexivity | unfold bottom; lia]|]). intros i o Hi. unfold after. cbn [snd]. unfold put.
        assert (B : (i < 8)%nat) by (change 8%nat with (List.length five); apply nth_error_Some; congruence).
        rewrite (proj2 (andb_true_iff _ _)) by (change (List.length five) with 8%nat; split; [apply Z.leb_le | apply Z.ltb_lt]; lia).
        replace (Z.to_nat (bottom + Z.of_nat i - bottom)) with i by lia. f_equal. exact (nth_error_nth _ _ _ Hi).
      * eapply evals_cons; [apply computed_now; reflexivity | apply evals_nil].
    + eapply evals_cons with (w1 := after); [apply foreign_now; reflexivity|]. eapply evals_cons; [unfold pass; apply (e_fun layouts functions (fun f => address box f 0) bottom Z (alloc box) (symbol box) c_means _ _ 1%nat) | apply evals_nil].
Qed.

(** It is called with 5 from the position of which the address is 1000. *)
Definition top : Z := 2 ^ 20.
Definition entry : state :=
  State (fun x => match x with Rsp => top - 8 | _ => 0 end) (fun _ => 0)
    (fun a => if a =? top - 8 then 232 else if a =? top - 7 then 3 else if a =? top then 5 else 0).
Example entry_called : called box bottom (pointer 0) [lay num] [number 8 5] (lay num) (fun _ => None) 1 0 entry.
Proof.
  split.
  - reflexivity.
  - split; reflexivity.
  - intros i l v Hl Hv. destruct i as [|i]; [|destruct i; discriminate]. injection Hl as <-. injection Hv as <-. intros i z Hi.
    do 8 (destruct i as [|i]; [injection Hi as <-; reflexivity|]). destruct i; discriminate.
  - intros p E Hp. transitivity 0; [reflexivity|]. apply (f_equal (fold_right (fun b n => match b with Some b => b | None => 0 end + 256 * n) 0)) in E.
    assert (P : forall n q, 0 <= q -> fold_right (fun b m => match b with Some b => b | None => 0 end + 256 * m) 0 (number n q) = q mod 2 ^ (8 * Z.of_nat n)).
    { clear. intros n q Hq. unfold number, le. rewrite map_map. enough (G : forall n k, fold_right (fun b m => match b with Some b => b | None => 0 end + 256 * m) 0 (map (fun x => Some (byte q x)) (List.seq k n)) = (q / 2 ^ (8 * Z.of_nat k)) mod 2 ^ (8 * Z.of_nat n)).
      { rewrite G. cbn. now rewrite Z.div_1_r. }
      clear n. induction n as [|n IH]; intros k; [cbn; now rewrite Z.mod_1_r|]. cbn [List.seq map fold_right]. rewrite IH. unfold byte.
      change 255 with (Z.ones 8). rewrite Z.land_ones by lia. rewrite Z.shiftr_div_pow2 by lia.
      replace (8 * Z.of_nat (Datatypes.S k)) with (8 * Z.of_nat k + 8) by lia. rewrite Z.pow_add_r, <- Z.div_div by (try apply Z.pow_nonzero; try apply Z.pow_pos_nonneg; lia).
      replace (8 * Z.of_nat (Datatypes.S n)) with (8 + 8 * Z.of_nat n) by lia. rewrite Z.pow_add_r by lia.
      rewrite Z.rem_mul_r by (try apply Z.pow_nonzero; try apply Z.pow_pos_nonneg; lia). reflexivity. }
    unfold pointer in E. rewrite !P in E by lia. rewrite !Z.mod_small in E by (cbn; lia). exact E.
  - discriminate.
  - vm_compute. discriminate.
  - intros a. split; [intros H; now elim H | discriminate].
  - intros x Nx. destruct x; try contradiction; cbn; lia.
Qed.
Example outer_runs : leads box (fun c => al c = bottom + 8 /\ returned box bottom (lay num) five (snd after) 1 0 entry c)
  (Config 0 0 entry bottom).
Proof.
  exact (compiled_call_computes_partial box layouts known bottom functions c_means box_compiled _ _ _ _ _ _ _ _ outer_applies 1%nat 0%nat entry entry_called).
Qed.
(** The same by running the code: no overflow occurs. *)
Fixpoint steps (n : nat) (c : config Z) : option (config Z) :=
  match n with O => Some c | Datatypes.S n => if 0 <=? gp (st c) Rsp then match next_step box c with Some c => steps n c | None => None end else None end.
Example outer_steps : match steps 125 (Config 0 0 entry bottom) with
  | Some c => (fn c, pc c, al c, gp (st c) Rax, gp (st c) Rsp) = (1%nat, 0%nat, bottom + 8, 5, top)
  | None => False
  end.
Proof. vm_compute. reflexivity. Qed.

(** An odd depth, an argument in memory and a result in memory. *)
Example odd_call :
  (top - 8 * 3 - room (padding_before_stack_args (new_frame [lay triple; lay num] (lay triple) 3)) - rooms [lay triple; lay num]) mod 16 = 0.
Proof. apply (call_stack_aligned layouts [triple; num] triple); try reflexivity; [apply layouts_reached | repeat constructor]. Qed.
Example odd_result : cls (lay triple) = Memory /\ rooms [lay triple; lay num] <= 32.
Proof.
  pose proof (call_result_separate layouts triple [lay triple; lay num] (lay triple) 3 layouts_reached eq_refl) as H. cbv zeta in H.
  assert (E : offset_to_ret_destination (new_frame [lay triple; lay num] (lay triple) 3) = Some 32) by (vm_compute; reflexivity).
  rewrite E in H. tauto.
Qed.

(** A C function with a number, a structure and six more numbers: the structure and the last number
    are on the stack, and the result is in memory, so that [rdi] is taken. *)
Definition many_types : list ct := [num; triple; num; num; num; num; num].
Definition many : list layout := map lay many_types.
Example many_where : map is_stack (c_args many (lay triple)) = [false; true; false; false; false; false; true].
Proof. vm_compute. reflexivity. Qed.
Example many_order : push_order (c_args many (lay triple)) [1; 2; 3; 4; 5; 6; 7] = [7; 2; 6; 5; 4; 3; 1].
Proof. vm_compute. reflexivity. Qed.
Lemma many_typed : Forall2 (fun t l => get layouts t = Ret l) many_types many.
Proof. repeat constructor. Qed.
Example many_aligned :
  (top - 8 * 3 - room (padding_before_stack_args (c_frame (c_args many (lay triple)) (lay triple) 3)) - on_stack (lay triple) many) mod 16 = 0.
Proof. apply (c_call_stack_aligned layouts many_types triple); try reflexivity; [apply layouts_reached | exact many_typed]. Qed.
Example many_result : cls (lay triple) = Memory /\ on_stack (lay triple) many <= 32.
Proof.
  pose proof (c_call_result_separate layouts many_types triple many (lay triple) 4 layouts_reached many_typed eq_refl) as H. cbv zeta in H.
  assert (E : offset_to_ret_destination (c_frame (c_args many (lay triple)) (lay triple) 4) = Some 40) by (vm_compute; reflexivity).
  rewrite E in H. split; [apply H|]. vm_compute. discriminate.
Qed.
Example many_left :
  room (remnants_after_call (c_frame (c_args many (lay triple)) (lay triple) 4)) =
  on_stack (lay triple) many + room (padding_before_stack_args (c_frame (c_args many (lay triple)) (lay triple) 4)) - 24.
Proof. exact (c_call_leaves_result layouts many_types triple many (lay triple) 4 layouts_reached many_typed eq_refl). Qed.

(** Its arguments on the stack: the numbers 1, 3, 4, 5, 6, the structure of 2, 2 and 2, and 7. *)
Definition pushed : state :=
  State (fun x => match x with Rsp => top | _ => 0 end) (fun _ => 0)
    (fun a => nth (Z.to_nat ((a - top) / 8)) [1; 3; 4; 5; 6; 2; 2; 2; 7] 0 * (if (a - top) mod 8 =? 0 then 1 else 0)).
Definition many_args : list (layout * val) :=
  combine many [number 8 1; made [number 8 2; number 8 2; number 8 2]; number 8 3; number 8 4; number 8 5; number 8 6; number 8 7].
Lemma bytes_at_run m a v : forallb (fun p => match snd p with Some z => cell m (a + Z.of_nat (fst p)) =? z | None => true end) (combine (List.seq 0 (List.length v)) v) = true -> bytes_at m a v.
Proof.
  intros H i z Hi. rewrite forallb_forall in H. specialize (H (i, Some z)). cbn [fst snd] in H. apply Z.eqb_eq, H.
  apply nth_error_In with i. rewrite <- (Nat.add_0_l i) at 2. generalize 0%nat as k. clear H. revert i Hi. induction v as [|y v IH]; intros i Hi k; [destruct i; discriminate|].
  cbn [List.length List.seq combine]. destruct i as [|i]; [injection Hi as ->; cbn; now rewrite Nat.add_0_r|]. cbn [nth_error]. rewrite (IH i Hi). do 2 f_equal. lia.
Qed.
Example many_passed : let s' := run (fst (all (map pop_arg (c_args many (lay triple))))) pushed in
  passed (gprs (lay triple)) xmms (gp s' Rsp) many_args s'.
Proof.
  apply (c_call_arguments_passed layouts many_types triple many (lay triple) many_args pushed layouts_reached many_typed eq_refl eq_refl).
  - repeat constructor.
  - change (rev (push_order (c_args many (lay triple)) many_args)) with
      [(lay num, number 8 1); (lay num, number 8 3); (lay num, number 8 4); (lay num, number 8 5); (lay num, number 8 6);
       (lay triple, made [number 8 2; number 8 2; number 8 2]); (lay num, number 8 7)].
    cbn [stacked]. repeat split; apply bytes_at_run; vm_compute; reflexivity.
Qed.
Example many_registers :
  let s' := run (fst (all (map pop_arg (c_args many (lay triple))))) pushed in
  (map (gp s') [Rsi; Rdx; Rcx; R8; R9], gp s' Rsp) = ([1; 3; 4; 5; 6], top + 40).
Proof. vm_compute. reflexivity. Qed.

(** The arguments of [inner] on the stack, the number 9 and the structure of 2, 2 and 2 above it. *)
Definition two_args : list (layout * val) := [(lay triple, made [number 8 2; number 8 2; number 8 2]); (lay num, number 8 9)].
Definition two (a : Z) : Z := nth (Z.to_nat ((a - top) / 8)) [9; 2; 2; 2] 0 * (if (a - top) mod 8 =? 0 then 1 else 0).
Example two_found :
  match Frame.Model.new (type_words layouts) (in_memory layouts) inner with
  | Ret (s, _) => exists p, Frame.Spec.place (type_words layouts) s (10%nat, triple) p /\ bytes_at two (top - 16 + fst p) (made [number 8 2; number 8 2; number 8 2])
  | _ => False
  end.
Proof.
  destruct (Frame.Model.new (type_words layouts) (in_memory layouts) inner) as [[s ret]| |] eqn:E; [|discriminate|discriminate].
  apply (call_arguments_found _ _ _ _ _ two_args two top) with (i := 0%nat) (a := (lay triple, made [number 8 2; number 8 2; number 8 2])) (2 := E); try reflexivity.
  - vm_compute. repeat constructor; cbn; intuition discriminate.
  - repeat constructor.
  - change (rev two_args) with [(lay num, number 8 9); (lay triple, made [number 8 2; number 8 2; number 8 2])].
    cbn [stacked]. repeat split; apply bytes_at_run; vm_compute; reflexivity.
Qed.
