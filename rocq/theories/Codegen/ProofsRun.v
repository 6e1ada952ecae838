(** Running instructions. *)
From Coq Require Import ZArith Lia.
From Verif.Base Require Import Base.
From Verif.Layout Require Import Model.
From Verif.Stack Require Import Machine Model Spec Facts Proofs ProofsValue ProofsMove.
From Verif.Codegen Require Import Alu Model Machine Spec Facts ProofsGen.
Local Open Scope Z_scope.

(** ** Registers that hold numbers of 64 bits *)
Definition narrow (r : gpr) : bool := match r with Rax | Rdx | R10 => true | _ => false end.
Definition norm (s : state) : Prop := forall r, narrow r = true -> 0 <= gp s r < 2 ^ 64.
Definition clean (i : inst) : Prop :=
  match i with
  | Shrq _ n | Shrl _ n => 0 <= n
  | Orq r r' | Movq r r' => narrow r = true -> narrow r' = true
  | MovqGX r _ | Leaq r _ | Addq r _ | Subq r _ => narrow r = false
  | _ => True
  end.

Lemma land_ones_bound v n : 0 <= n <= 64 -> 0 <= Z.land v (Z.ones n) < 2 ^ 64.
Proof.
  intros H. rewrite Z.land_ones by lia. pose proof (Z.mod_pos_bound v (2 ^ n) ltac:(apply Z.pow_pos_nonneg; lia)).
  pose proof (Z.pow_le_mono_r 2 n 64). lia.
Qed.
Lemma bound_bits x : 0 <= x -> (forall k, 64 <= k -> Z.testbit x k = false) -> x < 2 ^ 64.
Proof.
  intros P H. destruct (Z.lt_ge_cases x (2 ^ 64)) as [L|L]; [exact L|]. exfalso.
  assert (0 < x) by lia. pose proof (Z.bit_log2 x ltac:(lia)) as B. rewrite H in B; [discriminate|].
  apply Z.log2_le_pow2; lia.
Qed.
Lemma bits_bound x k : 0 <= x < 2 ^ 64 -> 64 <= k -> Z.testbit x k = false.
Proof.
  intros H K. destruct (Z.eq_dec x 0) as [->|]; [apply Z.bits_0|]. apply Z.bits_above_log2; [lia|].
  pose proof (proj1 (Z.log2_lt_pow2 x 64 ltac:(lia)) (proj2 H)). lia.
Qed.
Lemma lor_bound x y : 0 <= x < 2 ^ 64 -> 0 <= y < 2 ^ 64 -> 0 <= Z.lor x y < 2 ^ 64.
Proof.
  intros X Y. assert (P : 0 <= Z.lor x y) by (apply Z.lor_nonneg; lia). split; [exact P|]. apply bound_bits; [exact P|].
  intros k K. rewrite Z.lor_spec, !bits_bound by assumption. reflexivity.
Qed.
Lemma ldiff_bound x n : 0 <= x < 2 ^ 64 -> 0 <= n -> 0 <= Z.ldiff x (Z.ones n) < 2 ^ 64.
Proof.
  intros X N. assert (P : 0 <= Z.ldiff x (Z.ones n)) by (apply Z.ldiff_nonneg; lia). split; [exact P|]. apply bound_bits; [exact P|].
  intros k K. rewrite Z.ldiff_spec, bits_bound by assumption. reflexivity.
Qed.
Lemma lxor_bound x y : 0 <= x < 2 ^ 64 -> 0 <= y < 2 ^ 64 -> 0 <= Z.lxor x y < 2 ^ 64.
Proof.
  intros X Y. assert (P : 0 <= Z.lxor x y) by (apply Z.lxor_nonneg; lia). split; [exact P|]. apply bound_bits; [exact P|].
  intros k K. rewrite Z.lxor_spec, !bits_bound by assumption. reflexivity.
Qed.
Lemma shiftr_bound x n : 0 <= x < 2 ^ 64 -> 0 <= n -> 0 <= Z.shiftr x n < 2 ^ 64.
Proof.
  intros X N. assert (P : 0 <= Z.shiftr x n) by (apply Z.shiftr_nonneg; lia). split; [exact P|]. apply bound_bits; [exact P|].
  intros k K. rewrite Z.shiftr_spec by lia. apply bits_bound; lia.
Qed.
Lemma read_64 w m a : 0 <= read (bytes w) m a < 2 ^ 64.
Proof.
  pose proof (read_bound (bytes w) m a) as H. assert (E : 2 ^ (8 * Z.of_nat (bytes w)) <= 2 ^ 64).
  { apply Z.pow_le_mono_r; [lia|]. destruct w; cbn; lia. }
  lia.
Qed.

Lemma norm_set s r v : norm s -> (narrow r = true -> 0 <= v < 2 ^ 64) -> norm (set_gp r v s).
Proof.
  intros H V r' N. rewrite gp_set. destruct (gpr_eqb_spec r' r) as [->|]; auto.
Qed.
Lemma norm_other s s' : (forall r, narrow r = true -> gp s' r = gp s r) -> norm s -> norm s'.
Proof. intros E H r N. rewrite E by exact N. auto. Qed.
Lemma step_norm i s : clean i -> norm s -> norm (step i s).
Proof.
  intros C H. destruct i; cbn [step clean] in *; try (apply norm_set; [exact H|]; intros N); try (rewrite N in C; discriminate C).
  - discriminate N.
  - apply norm_set; [apply norm_set; [exact H | discriminate]|]. intros _. apply (read_64 Q).
  - pose proof (read_64 w (mem s) (ea a s)). destruct w; cbn [merge_low]; try assumption; (apply lor_bound; [apply ldiff_bound; [auto | lia] | assumption]).
  - apply read_64.
  - exact H.
  - apply land_ones_bound. lia.
  - apply shiftr_bound; [apply land_ones_bound; lia | exact C].
  - apply shiftr_bound; [apply land_ones_bound; lia | exact C].
  - apply lor_bound; auto.
  - auto.
  - exact H.
Qed.
Lemma run_norm is : Forall clean is -> forall s, norm s -> norm (run is s).
Proof. induction 1 as [|i is Ci _ IH]; intros s H; cbn; [exact H|]. auto using step_norm. Qed.

(** *** The instructions of stack_inst.rs do not disturb them *)
Lemma clean_app (a b : list inst) : Forall clean a -> Forall clean b -> Forall clean (a ++ b).
Proof. intros A B. apply Forall_app. now split. Qed.
Lemma clean_all cs : Forall (fun c : code => Forall clean (fst c)) cs -> Forall clean (fst (all cs)).
Proof. induction 1; cbn; [constructor|]. now apply clean_app. Qed.
Lemma clean_all_map {A} (f : A -> code) xs : (forall x, Forall clean (fst (f x))) -> Forall clean (fst (all (map f xs))).
Proof. intros H. apply clean_all, Forall_map, Forall_forall. auto. Qed.
Ltac clean_now := repeat constructor; cbn; (discriminate || reflexivity || lia || tauto).
Lemma clean_load_gpr r a n : Forall clean (load_gpr r a n).
Proof.
  unfold load_gpr. destruct n as [|p]; [constructor|]. do 4 (try destruct p as [p|p|]); clean_now.
Qed.
Lemma clean_store_gpr a r n : Forall clean (store_gpr a r n).
Proof.
  unfold store_gpr. destruct n as [|p]; [constructor|]. do 4 (try destruct p as [p|p|]); clean_now.
Qed.
Lemma clean_push_eightbyte r : Forall clean (fst (push_eightbyte r)).
Proof. destruct r; clean_now. Qed.
Lemma clean_pop_eightbyte r : Forall clean (fst (pop_eightbyte r)).
Proof. destruct r; clean_now. Qed.
Lemma clean_load_eightbyte r a n : Forall clean (fst (load_eightbyte r a n)).
Proof. destruct r; cbn; [apply clean_load_gpr | | constructor]. apply clean_app; [apply clean_load_gpr | clean_now]. Qed.
Lemma clean_store_eightbyte a r n : Forall clean (fst (store_eightbyte a r n)).
Proof. destruct r; cbn; [apply clean_store_gpr | | constructor]. constructor; [reflexivity | apply clean_store_gpr]. Qed.
Lemma clean_andthen a b : Forall clean (fst a) -> Forall clean (fst b) -> Forall clean (fst (Stack.Model.andthen a b)).
Proof. apply clean_app. Qed.
Lemma clean_push l : Forall clean (fst (push l)).
Proof. unfold push. destruct (last_value l); [|constructor]. apply clean_all_map. intros. apply clean_push_eightbyte. Qed.
Lemma clean_pop l : Forall clean (fst (pop l)).
Proof. unfold pop. destruct (last_value l); [|constructor]. apply clean_all_map. intros. apply clean_pop_eightbyte. Qed.
Lemma clean_load a l : Forall clean (fst (load a l)).
Proof.
  unfold load. destruct (last_value l); [apply clean_all_map; intros; apply clean_load_eightbyte|].
  destruct (is_memory l); [|constructor]. apply clean_all_map. intros. apply clean_andthen; [apply clean_load_eightbyte | apply clean_push_eightbyte].
Qed.
Lemma clean_store a l : Forall clean (fst (store a l)).
Proof.
  unfold store. destruct (last_value l); [apply clean_all_map; intros; apply clean_store_eightbyte|].
  destruct (is_memory l); [|constructor]. apply clean_all_map. intros. apply clean_andthen; [apply clean_pop_eightbyte | apply clean_store_eightbyte].
Qed.
Lemma clean_extend l : Forall clean (fst (extend_stack l)).
Proof. unfold extend_stack. destruct (size l =? 0)%N; clean_now. Qed.
Lemma clean_shrink l : Forall clean (fst (shrink_stack l)).
Proof. unfold shrink_stack. destruct (size l =? 0)%N; clean_now. Qed.
Lemma clean_discard l : Forall clean (fst (discard l)).
Proof. unfold discard. destruct (is_memory l); [apply clean_shrink | constructor]. Qed.
Lemma clean_slide a b l : Forall clean (fst (slide_in_stack a b l)).
Proof.
  assert (O : forall i, Forall clean (fst (slide_one a b l i))).
  { intros i. apply clean_andthen; [apply clean_load_eightbyte | apply clean_store_eightbyte]. }
  unfold slide_in_stack. destruct (a ?= b)%N; [constructor | | ]; apply clean_all_map; exact O.
Qed.
Lemma clean_struct_elem l i c e : struct_elem l i = Ret (c, e) -> Forall clean (fst c).
Proof.
  unfold struct_elem. destruct (composite l) as [[es cs]|]; [|discriminate]. destruct (nth_error es i) as [[o l']|]; [|discriminate].
  destruct (_ || _); intros H; injection H as <- _; [|constructor].
  repeat apply clean_andthen; auto using clean_push, clean_slide, clean_shrink, clean_pop.
Qed.
Lemma clean_reinterpret a b : Forall clean (fst (reinterpret a b)).
Proof.
  unfold reinterpret. repeat apply clean_andthen; auto using clean_push, clean_pop.
  destruct (_ <? _)%N; apply clean_andthen; auto using clean_slide, clean_shrink, clean_extend.
Qed.

(** ** Positions in code *)
Section Run.
Variable M : machine.
Notation config := (config (memo M)).
Notation leads := (leads M).

Definition code_at (F p : nat) (is : list item) : Prop :=
  exists pre post, code_of M F = pre ++ is ++ post /\ List.length pre = p.
Lemma code_at_app F p a b : code_at F p (a ++ b) -> code_at F p a /\ code_at F (p + List.length a) b.
Proof.
  intros (pre & post & E & L). split.
  - exists pre, (b ++ post). split; [now rewrite E, <- app_assoc | exact L].
  - exists (pre ++ a), post. split; [now rewrite E, <- !app_assoc | rewrite app_length; lia].
Qed.
Lemma code_at_cons F p i is : code_at F p (i :: is) -> nth_error (code_of M F) p = Some i /\ code_at F (S p) is.
Proof.
  intros (pre & post & E & <-). split.
  - rewrite E, nth_error_app2, Nat.sub_diag by lia. reflexivity.
  - exists (pre ++ [i]), post. split; [now rewrite E, <- app_assoc | rewrite app_length; cbn; lia].
Qed.
Lemma code_at_label F p n is : code_at F p (Lab n :: is) -> NoDup (labels (code_of M F)) -> find_label n (code_of M F) = Some p.
Proof. intros (pre & post & E & <-) N. rewrite E in *. cbn [app] in *. now apply find_label_at. Qed.

Lemma leads_trans (P Q : config -> Prop) c : leads P c -> (forall c', P c' -> leads Q c') -> leads Q c.
Proof.
  intros L H. induction L as [c Pc | c O | c c' N _ IH]; [auto | now apply leads_overflow | now apply leads_step with c'].
Qed.
Lemma leads_run P F is : forall p s a, code_at F p (map I is) ->
  leads P (Config F (p + List.length is) (run is s) a) -> leads P (Config F p s a).
Proof.
  induction is as [|i is IH]; intros p s a C L.
  - cbn [List.length run] in L. now rewrite Nat.add_0_r in L.
  - cbn [map] in C. apply code_at_cons in C. destruct C as [N C].
    apply leads_step with (Config F (S p) (step i s) a); [unfold next_step; cbn; now rewrite N|].
    apply IH; [exact C|]. cbn [List.length run] in L. now rewrite Nat.add_succ_r in L.
Qed.
Lemma leads_jmp P F p n is s a q : code_at F p (Jmp n :: is) -> find_label n (code_of M F) = Some q ->
  leads P (Config F q s a) -> leads P (Config F p s a).
Proof.
  intros C E L. apply code_at_cons in C. apply leads_step with (Config F q s a); [|exact L].
  unfold next_step, jump. cbn. now rewrite (proj1 C), E.
Qed.
Lemma leads_lab P F p n is s a : code_at F p (Lab n :: is) -> leads P (Config F (S p) s a) -> leads P (Config F p s a).
Proof.
  intros C L. apply code_at_cons in C. apply leads_step with (Config F (S p) s a); [|exact L].
  unfold next_step. cbn. now rewrite (proj1 C).
Qed.
Lemma leads_imm P F p r z is s a : code_at F p (Imm r z :: is) -> leads P (Config F (S p) (set_gp r (wrap z) s) a) -> leads P (Config F p s a).
Proof.
  intros C L. apply code_at_cons in C. eapply leads_step; [|exact L]. unfold next_step. cbn. now rewrite (proj1 C).
Qed.
Lemma leads_emit P F p is s a : code_at F p (map I is) ->
  leads P (Config F (p + List.length (map I is)) (run is s) a) -> leads P (Config F p s a).
Proof. rewrite map_length. apply leads_run. Qed.
Lemma leads_set P F p r z s a : code_at F p [Imm r z] -> leads P (Config F (p + 1) (set_gp r (wrap z) s) a) -> leads P (Config F p s a).
Proof. rewrite Nat.add_1_r. apply leads_imm. Qed.
Lemma leads_address P F p f s a : code_at F p [FunAddr f] -> leads P (Config F (p + 1) (set_gp Rax (address M f 0) s) a) -> leads P (Config F p s a).
Proof. rewrite Nat.add_1_r. intros C L. apply code_at_cons in C. eapply leads_step; [|exact L]. unfold next_step. cbn. now rewrite (proj1 C). Qed.
Lemma leads_flip P F p s a : code_at F p [FlipAl] -> leads P (Config F (p + 1) (set_gp Rax (Z.lxor (gp s Rax) 1) s) a) -> leads P (Config F p s a).
Proof. rewrite Nat.add_1_r. intros C L. apply code_at_cons in C. eapply leads_step; [|exact L]. unfold next_step. cbn. now rewrite (proj1 C). Qed.
Lemma leads_block P F p is s s' a : code_at F p [Block is] -> block is s = Some s' -> leads P (Config F (p + 1) s' a) -> leads P (Config F p s a).
Proof. rewrite Nat.add_1_r. intros C E L. apply code_at_cons in C. eapply leads_step; [|exact L]. unfold next_step. cbn [fn pc st]. rewrite (proj1 C), E. reflexivity. Qed.
Lemma leads_label P F p n s a : code_at F p [Lab n] -> leads P (Config F (p + 1) s a) -> leads P (Config F p s a).
Proof. rewrite Nat.add_1_r. apply leads_lab. Qed.
Lemma leads_zero P F p n s a q : code_at F p [JumpIfZero n] -> find_label n (code_of M F) = Some q ->
  (byte (gp s Rax) 0 = 0 -> leads P (Config F q s a)) -> (byte (gp s Rax) 0 <> 0 -> leads P (Config F (p + 1) s a)) -> leads P (Config F p s a).
Proof.
  rewrite Nat.add_1_r. intros C E L L'. apply code_at_cons in C. destruct C as [C _]. destruct (Z.eqb_spec (byte (gp s Rax) 0) 0) as [H|H].
  - eapply leads_step; [|exact (L H)]. unfold next_step. cbn [fn pc st]. rewrite C. rewrite (proj2 (Z.eqb_eq _ _) H). unfold jump. cbn [fn]. now rewrite E.
  - eapply leads_step; [|exact (L' H)]. unfold next_step. cbn [fn pc st]. rewrite C. now rewrite (proj2 (Z.eqb_neq _ _) H).
Qed.
End Run.
