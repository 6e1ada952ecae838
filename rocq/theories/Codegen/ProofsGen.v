(** The labels and continuations of generated code. *)
From Coq Require Import ZArith Lia.
From Verif.Base Require Import Base.
From Verif.Ir Require Import Model RtInd.
From Verif.Layout Require Import Model.
From Verif.Frame Require Proofs.
From Verif.Stack Require Import Machine Model.
From Verif.Codegen Require Import Model Machine Spec.
Local Open Scope nat_scope.

(** ** Taking programs apart *)
Lemma andthen_inv {A B} (m : res A) (k : A -> gstate -> res B) c o g : andthen m k = Ret (c, o, g) ->
  exists c1 o1 g1, m = Ret (c1, o1, g1) /\
  match o1 with
  | None => c = c1 /\ o = None /\ g = g1
  | Some a => exists c2, k a g1 = Ret (c2, o, g) /\ c = c1 ++ c2
  end.
Proof.
  unfold andthen. intros H. apply Frame.Proofs.bind_ret in H. destruct H as ([[c1 o1] g1] & E & H).
  exists c1, o1, g1. split; [exact E|]. destruct o1 as [a|].
  - apply Frame.Proofs.bind_ret in H. destruct H as ([[c2 o2] g2] & E2 & H). injection H as <- <- <-. eauto.
  - injection H as <- <- <-. auto.
Qed.
Lemma andthen_some {A B} (m : res A) (k : A -> gstate -> res B) c1 a g1 c o g :
  m = Ret (c1, Some a, g1) -> andthen m k = Ret (c, o, g) -> exists c2, k a g1 = Ret (c2, o, g) /\ c = c1 ++ c2.
Proof. intros -> H. apply andthen_inv in H. destruct H as (c' & o' & g' & E & H). injection E as <- <- <-. exact H. Qed.
Lemma need_inv {A} (o : outcome A) g c a g' : need o g = Ret (c, a, g') -> exists x, o = Ret x /\ c = [] /\ a = Some x /\ g' = g.
Proof. unfold need, ret. intros H. apply Frame.Proofs.bind_ret in H. destruct H as (x & -> & H). injection H as <- <- <-. eauto. Qed.

(** ** Labels *)
Fixpoint labels (is : list item) : list nat :=
  match is with [] => [] | Lab n :: is => n :: labels is | _ :: is => labels is end.
Lemma labels_app a b : labels (a ++ b) = labels a ++ labels b.
Proof. induction a as [|i a IH]; [reflexivity|]. destruct i; cbn; now rewrite IH. Qed.
Lemma labels_insts is : labels (map I is) = [].
Proof. induction is; cbn; assumption || reflexivity. Qed.
Lemma labels_jump_if {A} (o : option A) n : labels (jump_if o n) = [].
Proof. destruct o; reflexivity. Qed.

Lemma find_label_none n is : ~ In n (labels is) -> find_label n is = None.
Proof.
  induction is as [|i is IH]; [reflexivity|]. destruct i as [| | | | |k| | | | | |]; cbn; intros H; try (rewrite IH by exact H; reflexivity).
  destruct (Nat.eqb_spec k n); [tauto|]. rewrite IH; tauto.
Qed.
Lemma find_label_at n pre post : NoDup (labels (pre ++ Lab n :: post)) -> find_label n (pre ++ Lab n :: post) = Some (List.length pre).
Proof.
  induction pre as [|i pre IH]; cbn [app]; intros N; [cbn; now rewrite Nat.eqb_refl|].
  destruct i as [| | | | |k| | | | | |]; cbn [labels find_label List.length] in *; try (rewrite IH by exact N; reflexivity).
  inversion N as [|? ? N1 N2]; subst. destruct (Nat.eqb_spec k n) as [->|D].
  - elim N1. rewrite labels_app. apply in_or_app. right. left. reflexivity.
  - now rewrite IH.
Qed.

Lemma nodup_app {A} (a b : list A) : NoDup a -> NoDup b -> (forall x, In x a -> ~ In x b) -> NoDup (a ++ b).
Proof.
  induction a as [|x a IH]; cbn; intros Na Nb D; [exact Nb|]. inversion Na as [|? ? N1 N2]; subst. constructor.
  - rewrite in_app_iff. intros [K|K]; [tauto|]. apply (D x); tauto.
  - apply IH; auto.
Qed.
Lemma nodup_app_inv {A} (a b : list A) : NoDup (a ++ b) -> NoDup a /\ NoDup b /\ (forall x, In x a -> ~ In x b).
Proof.
  induction a as [|x a IH]; cbn; intros N; [repeat split; [constructor | exact N | tauto]|].
  inversion N as [|? ? N1 N2]; subst. destruct (IH N2) as (A1 & A2 & A3). rewrite in_app_iff in N1.
  split; [constructor; tauto|]. split; [exact A2|]. intros y [->|K]; [tauto|auto].
Qed.

(** The labels of [c] are new, and the continuations in scope are the same afterwards. *)
Record static (g : gstate) (c : list item) (g' : gstate) : Prop := Static {
  st_conts : conts g' = conts g;
  st_next : next g <= next g';
  st_labels : forall n, In n (labels c) -> next g <= n < next g';
  st_nodup : NoDup (labels c) }.
Definition steady {A} (g : gstate) (m : res A) : Prop := forall c o g', m = Ret (c, o, g') -> static g c g'.

Lemma static_none g c : labels c = [] -> static g c g.
Proof. intros E. split; rewrite ?E; [reflexivity | lia | intros n [] | constructor]. Qed.
Lemma static_app g c g1 c' g2 : static g c g1 -> static g1 c' g2 -> static g (c ++ c') g2.
Proof.
  intros [C1 N1 L1 D1] [C2 N2 L2 D2]. split; [congruence | lia | |].
  - intros n. rewrite labels_app, in_app_iff. intros [H|H]; [specialize (L1 n H) | specialize (L2 n H)]; lia.
  - rewrite labels_app. apply nodup_app; auto. intros n H H'. specialize (L1 n H). specialize (L2 n H'). lia.
Qed.
Lemma static_depth g c g' d d' : static g c g' -> static (set_depth d g) c (set_depth d' g').
Proof. intros [C N L D]. split; assumption. Qed.
Lemma static_depth_l g c g' d : static (set_depth d g) c g' -> static g c g'.
Proof. intros [C N L D]. split; assumption. Qed.
Lemma static_depth_r g c g' d : static g c g' -> static g c (set_depth d g').
Proof. intros [C N L D]. split; assumption. Qed.
Lemma static_more g c g' n : static g c g' -> static g c (skip_labels n g').
Proof. intros [C N L D]. split; cbn; auto; [lia|]. intros k H. specialize (L k H). lia. Qed.

Lemma steady_andthen {A B} g (m : res A) (k : A -> gstate -> res B) :
  steady g m -> (forall a g1, conts g1 = conts g -> steady g1 (k a g1)) -> steady g (andthen m k).
Proof.
  intros Hm Hk c o g' H. apply andthen_inv in H. destruct H as (c1 & o1 & g1 & E & H). specialize (Hm _ _ _ E).
  destruct o1 as [a|].
  - destruct H as (c2 & H & ->). eapply static_app; [exact Hm|]. eapply Hk; [apply (st_conts _ _ _ Hm) | exact H].
  - destruct H as (-> & _ & ->). exact Hm.
Qed.
Lemma steady_bind {A B} g (m : outcome A) (k : A -> res B) : (forall a, m = Ret a -> steady g (k a)) -> steady g (let* a := m in k a).
Proof. intros H c o g' E. apply Frame.Proofs.bind_ret in E. destruct E as (a & Ea & E). exact (H a Ea _ _ _ E). Qed.
Lemma steady_ret {A} g (a : A) : steady g (ret a g).
Proof. intros c o g' E. injection E as <- _ <-. now apply static_none. Qed.
Lemma steady_none {A} g is : labels is = [] -> @steady A g (Ret (is, None, g)).
Proof. intros L c o g' E. injection E as <- _ <-. now apply static_none. Qed.
Lemma steady_panic {A} g : @steady A g Panic. Proof. discriminate. Qed.
Lemma steady_out g is : labels is = [] -> steady g (out is g).
Proof. intros L c o g' E. injection E as <- _ <-. now apply static_none. Qed.
Lemma steady_emit g c : steady g (emit c g).
Proof. intros c' o g' E. injection E as <- _ <-. apply static_depth_r, static_none, labels_insts. Qed.
Lemma steady_need {A} g (o : outcome A) : steady g (need o g).
Proof. apply steady_bind. intros a _. apply steady_ret. Qed.

Ltac same_conts :=
  cbn [skip_labels set_depth conts];
  repeat match goal with H : conts ?a = conts _ |- incl (map fst (conts ?a)) _ => rewrite H end; assumption.
Ltac steady_step :=
  match goal with
  | |- steady _ (andthen _ _) => apply steady_andthen; [|intros ? ? ?]
  | |- steady _ (ret _ _) => apply steady_ret
  | |- steady _ (emit _ _) => apply steady_emit
  | |- steady _ (need _ _) => apply steady_need
  | |- steady _ (out _ _) => apply steady_out; reflexivity
  | |- steady _ Panic => apply steady_panic
  | |- steady _ (Ret ([], None, _)) => apply steady_none; reflexivity
  | |- steady _ (Ret ([Jmp _], None, _)) => apply steady_none; reflexivity
  | |- steady _ (bind _ _) => apply steady_bind; intros ? ?
  | |- steady _ (match ?x with _ => _ end) => destruct x
  end.

Lemma steady_malloc g : steady g (gen_malloc g).
Proof. unfold gen_malloc. repeat steady_step. Qed.
Lemma steady_builtin f l g : steady g (gen_builtin f l g).
Proof. unfold gen_builtin. repeat steady_step. Qed.
Ltac steady_all := repeat (steady_step || apply steady_builtin).
Lemma steady_unary r o a l g : steady g (gen_unary r o a l g).
Proof. destruct o; cbn [gen_unary]; steady_all. Qed.
Lemma steady_binary r o x l bl g : steady g (gen_binary r o x l bl g).
Proof. destruct o; cbn [gen_binary condition float_condition float_arithmetic]; steady_all. Qed.
Lemma steady_ternary r o x bl g : steady g (gen_ternary r o x bl g).
Proof. destruct o; cbn [gen_ternary]; steady_all. Qed.
Lemma steady_nullary r o g : steady g (gen_nullary r o g).
Proof. destruct o; cbn [gen_nullary]; steady_all. Qed.
Lemma steady_const r c g : steady g (gen_const r c g).
Proof. destruct c; cbn [gen_const]; repeat steady_step. Qed.

(** ** The continuations of a scope *)
Notation name := (fun k : nat * list param * rt => fst (fst k)).

Lemma add_conts_depth cs : forall g, depth (add_conts cs g) = depth g.
Proof. induction cs as [|[[k ps] y] cs IH]; intros g; cbn; [reflexivity|]. now rewrite IH. Qed.
Lemma add_conts_next cs : forall g, next (add_conts cs g) = next g + List.length cs.
Proof. induction cs as [|[[k ps] y] cs IH]; intros g; cbn; [lia|]. rewrite IH. cbn. lia. Qed.
Lemma add_conts_other cs k : forall g, ~ In k (map name cs) -> find (conts (add_conts cs g)) k = find (conts g) k.
Proof.
  induction cs as [|[[i ps] y] cs IH]; intros g H; cbn; [reflexivity|]. cbn in H. rewrite IH by tauto. cbn.
  destruct (Nat.eqb_spec i k); [tauto | reflexivity].
Qed.
Lemma add_conts_ids cs : forall g k, In k (map fst (conts (add_conts cs g))) -> In k (map name cs) \/ In k (map fst (conts g)).
Proof.
  induction cs as [|[[i ps] y] cs IH]; intros g k H; cbn in *; [tauto|]. apply IH in H. cbn in H. tauto.
Qed.
Lemma add_conts_found cs : NoDup (map name cs) -> forall g,
  Forall2 (fun k n => find (conts (add_conts cs g)) (name k) = Some (LocalCont n (map fst (snd (fst k))) (depth g)))
    cs (List.seq (next g) (List.length cs)).
Proof.
  induction cs as [|[[i ps] y] cs IH]; cbn [map List.length List.seq]; intros N g; [constructor|].
  inversion N as [|? ? N1 N2]; subst. cbn [add_conts]. constructor.
  - cbn [fst snd]. rewrite add_conts_other by exact N1. cbn. now rewrite Nat.eqb_refl.
  - specialize (IH N2 (skip_labels 1 (set_conts ((i, LocalCont (next g) (map fst ps) (depth g)) :: conts g) g))).
    cbn [depth next skip_labels set_conts] in IH. rewrite Nat.add_1_r in IH. exact IH.
Qed.

Definition drop (names : list nat) (l : list (nat * local_cont)) : list (nat * local_cont) :=
  filter (fun e => negb (existsb (Nat.eqb (fst e)) names)) l.
Lemma find_filter {A} (l : list (nat * A)) i k : i <> k -> find (filter (fun e => negb (fst e =? i)) l) k = find l k.
Proof.
  intros D. induction l as [|[j a] l IH]; [reflexivity|]. cbn. destruct (Nat.eqb_spec j i) as [->|Dj]; cbn.
  - destruct (Nat.eqb_spec i k); [contradiction | exact IH].
  - destruct (j =? k); [reflexivity | exact IH].
Qed.
Lemma drop_cons i names l : drop names (filter (fun e => negb (fst e =? i)) l) = drop (i :: names) l.
Proof.
  unfold drop. induction l as [|[j a] l IH]; [reflexivity|]. cbn [filter fst existsb]. destruct (Nat.eqb_spec j i) as [->|D]; cbn [negb orb].
  - exact IH.
  - cbn [filter fst]. destruct (existsb (Nat.eqb j) names); cbn; now rewrite IH.
Qed.
Lemma drop_none l : drop [] l = l.
Proof. unfold drop. induction l as [|e l IH]; [reflexivity|]. cbn [filter existsb negb]. f_equal. exact IH. Qed.
Lemma drop_other names l : (forall k, In k names -> ~ In k (map fst l)) -> drop names l = l.
Proof.
  unfold drop. induction l as [|[j a] l IH]; intros H; [reflexivity|]. cbn.
  destruct (existsb (Nat.eqb j) names) eqn:E.
  - apply existsb_exists in E. destruct E as (k & Ik & E). apply Nat.eqb_eq in E. subst k. elim (H j Ik). now left.
  - cbn. rewrite IH; [reflexivity|]. intros k Hk Hl. apply (H k Hk). now right.
Qed.
Lemma drop_added cs : forall g, (forall k, In k (map name cs) -> ~ In k (map fst (conts g))) ->
  drop (map name cs) (conts (add_conts cs g)) = conts g.
Proof.
  intros g D. assert (G : forall names cs g, incl (map name cs) names -> drop names (conts (add_conts cs g)) = drop names (conts g)).
  { intros names. clear. induction cs as [|[[i ps] y] cs IH]; intros g Hi; [reflexivity|]. cbn [add_conts].
    rewrite IH by (intros k Hk; apply Hi; now right). cbn [conts skip_labels set_conts]. unfold drop. cbn [filter fst].
    replace (existsb (Nat.eqb i) names) with true; [reflexivity|]. symmetry. apply existsb_exists.
    exists i. split; [apply Hi; now left | apply Nat.eqb_refl]. }
  rewrite G by apply incl_refl. apply drop_other. exact D.
Qed.
Lemma find_drop names l k : ~ In k names -> find (drop names l) k = find l k.
Proof.
  intros H. unfold drop. induction l as [|[j a] l IH]; [reflexivity|]. cbn. destruct (existsb (Nat.eqb j) names) eqn:E; cbn.
  - apply existsb_exists in E. destruct E as (i & Ii & E). apply Nat.eqb_eq in E. subst i.
    destruct (Nat.eqb_spec j k) as [->|]; [contradiction | exact IH].
  - destruct (j =? k); [reflexivity | exact IH].
Qed.

Section Gen.
Variable r : resolver.
Variable known : nat -> bool.
Variable offsets : list (nat * Z).
Variable balanced : rt -> Prop.
Notation gen := (gen r known offsets).
Notation fine := (fine balanced).

Definition sound (x : rt) : Prop :=
  forall used g, fine used x -> incl (map fst (conts g)) used -> steady g (gen x g).

Lemma steady_each used es : Forall sound es -> Forall (fine used) es -> forall after g, incl (map fst (conts g)) used ->
  steady g (gen_each gen after es g).
Proof.
  induction 1 as [|e es He _ IH]; intros F after g U; destruct after as [|k after]; cbn [gen_each]; try apply steady_ret.
  inversion F as [|? ? F1 F2]; subst. apply steady_andthen; [eapply He; eassumption|].
  intros l g1 E1. apply steady_andthen; [apply steady_need|]. intros c g2 E2. apply steady_andthen; [apply steady_emit|].
  intros u g3 E3. apply IH; [exact F2|]. rewrite E3, E2, E1. exact U.
Qed.
Lemma steady_env used es : Forall sound es -> Forall (fine used) es -> forall o g, incl (map fst (conts g)) used ->
  steady g (gen_env gen o es g).
Proof.
  induction 1 as [|e es He _ IH]; intros F o g U; cbn [gen_env]; [apply steady_ret|].
  inversion F as [|? ? F1 F2]; subst. apply steady_andthen; [eapply He; eassumption|].
  intros l g1 E1. apply steady_andthen; [apply steady_emit|]. intros c g2 E2. apply steady_andthen; [apply steady_emit|].
  intros u g3 E3. apply IH; [exact F2|]. rewrite E3, E2, E1. exact U.
Qed.
Lemma steady_lets used vs : Forall sound (map snd vs) -> Forall (fine used) (map snd vs) -> forall g, incl (map fst (conts g)) used ->
  steady g (gen_lets offsets gen vs g).
Proof.
  induction vs as [|[[id t] e] vs IH]; cbn [map snd gen_lets]; intros S F g U; [apply steady_ret|].
  inversion S as [|? ? S1 S2]; subst. inversion F as [|? ? F1 F2]; subst. apply steady_andthen; [eapply S1; eassumption|].
  intros l g1 E1. apply steady_andthen; [apply steady_need|]. intros c g2 E2. apply steady_andthen; [apply steady_emit|].
  intros u g3 E3. apply IH; [exact S2 | exact F2|]. rewrite E3, E2, E1. exact U.
Qed.
Lemma static_conts used cs merge : Forall sound (map snd cs) -> Forall (fine used) (map snd cs) ->
  forall g ns merged c m g', incl (map fst (conts g)) used -> NoDup (map name cs) ->
  Forall2 (fun k n => exists lc, find (conts g) (name k) = Some lc /\ c_label lc = n) cs ns ->
  NoDup ns -> (forall n, In n ns -> n < next g) ->
  gen_conts gen cs merge merged g = Ret (c, m, g') ->
  conts g' = drop (map name cs) (conts g) /\ next g <= next g' /\
  (forall n, In n (labels c) -> In n ns \/ next g <= n < next g') /\ NoDup (labels c).
Proof.
  induction cs as [|[[i ps] y] cs IH]; intros S F g ns merged c m g' U N A Nn Lt H.
  - cbn in H. injection H as <- <- <-. rewrite drop_none. repeat split; [lia | cbn; tauto | constructor].
  - cbn [map snd] in S, F. inversion S as [|? ? S1 S2]; subst. inversion F as [|? ? F1 F2]; subst.
    inversion A as [|? n ? ns' (lc & Ef & El) A']; subst. cbn [fst] in Ef. inversion N as [|? ? N1 N2]; subst. inversion Nn as [|? ? M1 M2]; subst.
    cbn [gen_conts] in H. rewrite Ef in H.
    set (g0 := set_conts (filter (fun e => negb (fst e =? i)) (conts g)) g) in *.
    apply Frame.Proofs.bind_ret in H. destruct H as ([[c1 o] g1] & E1 & H).
    apply Frame.Proofs.bind_ret in H. destruct H as (mg & _ & H).
    apply Frame.Proofs.bind_ret in H. destruct H as ([[c2 m'] g2] & E2 & H). injection H as <- <- <-.
    assert (U0 : incl (map fst (conts g0)) used).
    { intros k Hk. apply U. cbn [g0 set_conts conts] in Hk. apply in_map_iff in Hk. destruct Hk as (e & <- & He). apply filter_In in He.
      apply in_map, He. }
    destruct (static_depth_l _ _ _ _ (S1 used (set_depth (c_depth lc) g0) F1 U0 _ _ _ E1)) as [C1 L1 B1 D1].
    assert (A2 : Forall2 (fun k n => exists lc, find (conts g1) (name k) = Some lc /\ c_label lc = n) cs ns').
    { rewrite C1. cbn [g0 set_conts conts]. revert A'. assert (K : Forall (fun k => name k <> i) cs).
      { apply Forall_forall. intros k Hk E. apply N1. rewrite <- E. apply (in_map name), Hk. }
      clear -K. induction 1 as [|k n cs ns Hk _ IH]; constructor.
      - inversion K as [|? ? K1 K2]; subst. rewrite find_filter by congruence. exact Hk.
      - apply IH. now inversion K. }
    destruct (IH S2 F2 g1 ns' mg c2 m' g2) as (C2 & L2 & B2 & D2); try assumption.
    { rewrite C1. exact U0. }
    { intros k Hk. cbn in L1. specialize (Lt k (or_intror Hk)). lia. }
    rewrite C2, C1. cbn [g0 set_conts conts next] in *. split; [apply drop_cons|]. split; [lia|].
    cbn [labels]. rewrite !labels_app, labels_jump_if, app_nil_l. split.
    + intros k. cbn [In]. rewrite in_app_iff. intros [<-|[Hk|Hk]]; [tauto | |].
      * specialize (B1 k Hk). lia.
      * destruct (B2 k Hk) as [B|B]; [tauto | lia].
    + constructor.
      * rewrite in_app_iff. specialize (Lt (c_label lc) (or_introl eq_refl)). intros [Hk|Hk].
        -- specialize (B1 _ Hk). lia.
        -- destruct (B2 _ Hk) as [B|B]; [contradiction | lia].
      * apply nodup_app; auto. intros k Hk Hk'. specialize (B1 k Hk). destruct (B2 k Hk') as [B|B]; [|lia].
        specialize (Lt k (or_intror B)). lia.
Qed.

Lemma andthen_need {A B} (c : A) g (k : A -> gstate -> res B) : andthen (need (Ret c) g) k = k c g.
Proof. unfold need, ret, andthen. cbn [bind]. destruct (k c g) as [[[c' o'] g']| |]; reflexivity. Qed.
Lemma pushes_each es : forall g, gen_pushes (map gen es) g = gen_each gen (map (fun _ l => Ret (push l)) es) es g.
Proof.
  induction es as [|e es IH]; intros g; cbn [map gen_pushes gen_each]; [reflexivity|]. unfold andthen at 1 3. destruct (gen e g) as [[[c o] g1]| |]; cbn [bind]; try reflexivity.
  destruct o as [l|]; [|reflexivity]. rewrite andthen_need. unfold andthen, emit. cbn [bind]. now rewrite IH.
Qed.
Lemma push_order_map {A B} (f : A -> B) cs xs : push_order cs (map f xs) = map f (push_order cs xs).
Proof.
  unfold push_order. cbv zeta. rewrite map_map.
  assert (E : forall t : call_arg -> bool, filter (fun p => t (snd p)) (combine (map f xs) cs) = map (fun p => (f (fst p), snd p)) (filter (fun p => t (snd p)) (combine xs cs))).
  { intros t. revert cs. induction xs as [|x xs IH]; intros [|c cs]; cbn [map combine filter]; try reflexivity. cbn [snd]. destruct (t c); cbn [map fst snd]; now rewrite IH. }
  rewrite (E is_stack), (E (fun c => negb (is_stack c))), <- !map_rev, <- map_app, map_map. reflexivity.
Qed.
Lemma push_order_in {A} cs (xs : list A) x : In x (push_order cs xs) -> In x xs.
Proof.
  unfold push_order. cbv zeta. intros H. apply in_map_iff in H. destruct H as ([y c] & <- & H). apply in_app_or in H. cbn [fst].
  destruct H as [H|H]; apply in_rev, filter_In in H; destruct H as [H _]; now apply in_combine_l in H.
Qed.
Lemma steady_c_call used t ls es callee g : Forall sound es -> Forall (fine used) es -> incl (map fst (conts g)) used ->
  (forall g, incl (map fst (conts g)) used -> forall c o g', callee g = Ret (c, o, g') -> static g c g' /\ forall i, o = Some i -> labels [i] = []) ->
  steady g (gen_c_call r t ls (map gen es) callee g).
Proof.
  intros S F U Hc. unfold gen_c_call. apply steady_andthen; [apply steady_need|]. intros l g1 E1. apply steady_andthen; [apply steady_emit|]. intros [] g2 E2.
  apply steady_andthen.
  { rewrite push_order_map, pushes_each. apply steady_each with used.
    - apply Forall_forall. intros y Hy. apply push_order_in in Hy. revert y Hy. now apply Forall_forall.
    - apply Forall_forall. intros y Hy. apply push_order_in in Hy. revert y Hy. now apply Forall_forall.
    - rewrite E2, E1. exact U. }
  intros [] g3 E3. assert (U3 : incl (map fst (conts g3)) used) by (rewrite E3, E2, E1; exact U). intros c o g' H. apply andthen_inv in H.
  destruct H as (c1 & o1 & g4 & E & H). destruct (Hc g3 U3 _ _ _ E) as [Hs Hi]. destruct o1 as [i|]; [|destruct H as (-> & _ & ->); exact Hs].
  destruct H as (c2 & H & ->). apply static_app with g4; [exact Hs|]. revert H. apply steady_andthen; [apply steady_emit|]. intros [] g5 E5.
  apply steady_andthen; [apply steady_emit|]. intros [] g6 E6. apply steady_andthen; [apply steady_out, Hi; reflexivity|]. intros [] g7 E7. repeat steady_step.
Qed.

Lemma fine_children used x : fine used x -> introduced x = [] -> Forall (fine used) (children x).
Proof. intros F E. destruct F as [used x _ F]. now rewrite E in F. Qed.

Lemma finish_static o g o' g' : finish o g = (o', g') -> exists d, g' = set_depth d g.
Proof.
  destruct o as [[l d]|]; cbn; intros H; injection H as <- <-; [now exists d|]. exists (depth g). now destruct g.
Qed.

Lemma gen_sound x : sound x.
Proof.
  induction x as [x IH] using rt_children_ind. intros used g F U.
  assert (Fc : introduced x = [] -> Forall (fine used) (children x)) by (apply fine_children; exact F).
  destruct x as [id t|fn t env|c|f es|lb t es|k a t es|k es t|o|o a|o a b|o a b c|lc a|lc t a|lc es|t i es|t es
    |m a|es a|a b c|a b|a b|a b|a cs|a| |vs b|ks b]; cbn [children introduced] in *; cbn [gen Model.gen];
    try (specialize (Fc eq_refl)); try apply steady_panic.
  - repeat steady_step.
  - destruct fn; try apply steady_panic. apply steady_andthen; [|intros ? ? ?; repeat steady_step].
    destruct env as [a|]; [|repeat steady_step]. inversion IH as [|? ? Ha _]; subst. inversion Fc as [|? ? Fa _]; subst.
    apply steady_andthen; [eapply Ha; eassumption|]. intros ? ? ?. repeat steady_step.
  - apply steady_const.
  - inversion IH as [|? ? Hf Hes]; subst. inversion Fc as [|? ? Ff Fes]; subst.
    apply steady_bind. intros t0 _. destruct t0 as [ [] |]; try (repeat steady_step).
    all: match goal with
      | |- steady _ (gen_each _ _ _ _) => apply steady_each with used; try assumption; same_conts
      | |- steady _ (gen _ _) => eapply Hf; [eassumption|]; same_conts
      | _ => idtac
      end.
  - apply steady_bind. intros [ls|] _; [|unfold gen_seq; repeat steady_step; apply steady_each with used; assumption].
    apply steady_c_call with used; try assumption. intros g0 _ c0 o0 g' H. injection H as <- <- <-. split; [now apply static_none|]. intros i E. now injection E as <-.
  - inversion IH as [|? ? Hf Hes]; subst. inversion Fc as [|? ? Ff Fes]; subst.
    apply steady_bind. intros [ls|] _; [|unfold gen_seq; repeat steady_step; apply steady_each with used; assumption].
    apply steady_c_call with used; try assumption. intros g0 U0 c0 o0 g' H.
    assert (Go : (do _, g <- gen a g0; ret CallRax g) = Ret (c0, o0, g')) by (destruct k as [|[|[|k]]]; [exact H | destruct es; [exact H | discriminate] | destruct es as [|x [|y es]]; [discriminate | exact H | discriminate] | exact H]).
    clear H. apply andthen_inv in Go. destruct Go as (c1 & o1 & g1 & E & H). pose proof (Hf used g0 Ff U0 _ _ _ E) as Hs. destruct o1 as [l|].
    + destruct H as (c2 & H & ->). injection H as <- <- <-. rewrite app_nil_r. split; [exact Hs|]. intros i Ei. now injection Ei as <-.
    + destruct H as (-> & -> & ->). split; [exact Hs|]. discriminate.
  - destruct (find (conts g) k); [|apply steady_panic]. apply steady_andthen; [apply steady_each with used; assumption|].
    intros ? ? ?. repeat steady_step.
  - apply steady_nullary.
  - inversion IH as [|? ? Ha _]; subst. inversion Fc as [|? ? Fa _]; subst. apply steady_andthen; [eapply Ha; eassumption|].
    intros ? ? ?. apply steady_unary.
  - inversion IH as [|? ? Ha Hb]; subst. inversion Hb as [|? ? Hb' _]; subst. inversion Fc as [|? ? Fa Fb]; subst. inversion Fb as [|? ? Fb' _]; subst.
    apply steady_andthen; [eapply Ha; eassumption|]. intros ? ? ?. steady_step; [apply steady_emit|].
    apply steady_andthen; [eapply Hb'; [eassumption|]; same_conts|]. intros ? ? ?. apply steady_binary.
  - inversion IH as [|? ? Ha Hb]; subst. inversion Hb as [|? ? Hb' Hc]; subst. inversion Hc as [|? ? Hc' _]; subst.
    inversion Fc as [|? ? Fa Fb]; subst. inversion Fb as [|? ? Fb' Fcc]; subst. inversion Fcc as [|? ? Fc' _]; subst.
    apply steady_andthen; [eapply Ha; eassumption|]. intros ? ? ?. steady_step; [apply steady_emit|].
    apply steady_andthen; [eapply Hb'; [eassumption|]; same_conts|]. intros ? ? ?. steady_step; [apply steady_emit|].
    apply steady_andthen; [eapply Hc'; [eassumption|]; same_conts|]. intros ? ? ?. apply steady_ternary.
  - inversion IH as [|? ? Ha _]; subst. inversion Fc as [|? ? Fa _]; subst.
    assert (Go : steady g (gen (RAlloc LHeap a) g)).
    { cbn [gen Model.gen]. repeat steady_step; try apply steady_malloc; (eapply Ha; [eassumption|]); same_conts. }
    destruct lc; try exact Go. apply steady_panic.
  - inversion IH as [|? ? Ha _]; subst. inversion Fc as [|? ? Fa _]; subst.
    assert (Go : steady g (gen (RAllocArray LHeap t a) g)).
    { cbn [gen Model.gen]. repeat steady_step; try apply steady_malloc; (eapply Ha; [eassumption|]); same_conts. }
    destruct lc; try exact Go. apply steady_panic.
  - assert (Go : steady g (gen (RConstructEnv LHeap es) g)).
    { cbn [gen Model.gen]. unfold gen_seq. repeat steady_step; try apply steady_malloc; try (apply steady_each with used; assumption).
      apply steady_env with used; try assumption. same_conts. }
    destruct lc; try exact Go. apply steady_panic.
  - repeat steady_step. apply steady_each with used; try assumption; same_conts.
  - apply Forall_app in IH. destruct IH as [Hes Ha]. inversion Ha as [|? ? Ha' _]; subst. apply Forall_app in Fc. destruct Fc as [Fes Fa]. inversion Fa as [|? ? Fa' _]; subst.
    apply steady_andthen; [apply steady_each with used; assumption|]. intros ? ? ?. eapply Ha'; [eassumption|]. same_conts.
  - inversion IH as [|? ? Ha Hb]; subst. inversion Hb as [|? ? Hb' Hc]; subst. inversion Hc as [|? ? Hc' _]; subst.
    inversion Fc as [|? ? Fa Fb]; subst. inversion Fb as [|? ? Fb' Fcc]; subst. inversion Fcc as [|? ? Fc' _]; subst.
    apply steady_andthen; [eapply Ha; eassumption|]. intros l0 g0 E0 ci o g' H. cbv zeta in H.
    apply Frame.Proofs.bind_ret in H. destruct H as ([[c1 o1] g1] & E1 & H).
    apply Frame.Proofs.bind_ret in H. destruct H as ([[c2 o2] g2] & E2 & H).
    apply Frame.Proofs.bind_ret in H. destruct H as (mm & _ & H). destruct (finish mm g2) as [o3 g3] eqn:Ef.
    injection H as <- <- <-. destruct (finish_static _ _ _ _ Ef) as [d ->].
    assert (S1 : static (skip_labels 2 g0) c1 g1) by (eapply Hb'; [exact Fb' | cbn; same_conts | exact E1]).
    assert (S2 : static g1 c2 g2).
    { apply static_depth_l with (depth (skip_labels 2 g0)). eapply Hc'; [exact Fc' | | exact E2]. cbn. rewrite (st_conts _ _ _ S1). cbn. same_conts. }
    destruct S1 as [C1 L1 B1 D1], S2 as [C2 L2 B2 D2]. cbn [skip_labels next conts] in *. split.
    + cbn. congruence.
    + cbn. lia.
    + cbn [labels next set_depth]. rewrite !labels_app, labels_jump_if. cbn [labels app]. rewrite labels_app. cbn [labels].
      intros n Hn. rewrite !in_app_iff in Hn. cbn [In] in Hn. rewrite in_app_iff in Hn. cbn [In] in Hn.
      destruct Hn as [Hn|[Hn|[Hn|[Hn|[]]]]]; try (specialize (B1 n Hn)); try (specialize (B2 n Hn)); lia.
    + cbn [labels]. rewrite !labels_app, labels_jump_if. cbn [labels app]. rewrite labels_app. cbn [labels].
      apply nodup_app; [exact D1 | |].
      * constructor.
        -- rewrite in_app_iff. intros [Hn|[Hn|[]]]; [specialize (B2 _ Hn)|]; lia.
        -- apply nodup_app; [exact D2 | repeat constructor; intros []|]. intros n Hn [<-|[]]. specialize (B2 _ Hn). lia.
      * intros n Hn Hn'. specialize (B1 n Hn). cbn [In] in Hn'. rewrite in_app_iff in Hn'. cbn [In] in Hn'.
        destruct Hn' as [Hn'|[Hn'|[Hn'|[]]]]; try (specialize (B2 n Hn')); lia.
  - inversion IH as [|? ? Ha Hb]; subst. inversion Hb as [|? ? Hb' _]; subst. inversion Fc as [|? ? Fa Fb]; subst. inversion Fb as [|? ? Fb' _]; subst.
    intros ci o g' H. cbv zeta in H. apply andthen_inv in H. destruct H as (c0 & o0 & g0 & E0 & H). injection E0 as <- <- <-.
    destruct H as (c1 & H & ->). apply andthen_inv in H. destruct H as (c2 & o2 & g2 & E2 & H).
    assert (S2 : static (skip_labels 2 g) c2 g2) by (eapply Ha; [exact Fa | exact U | exact E2]).
    assert (S3 : exists c3, c1 = c2 ++ c3 /\ (c3 = [] /\ g' = g2 \/ exists c4, c3 = c4 ++ [Lab (S (next g))] /\ static g2 c4 g')).
    { destruct o2 as [l2|]; [|destruct H as (-> & -> & ->); exists []; split; [symmetry; apply app_nil_r | now left]].
      destruct H as (c3 & H & ->). exists c3. split; [reflexivity|]. right.
      apply andthen_inv in H. destruct H as (cj & oj & gj & Ej & H). injection Ej as <- <- <-. destruct H as (c4 & H & ->).
      apply Frame.Proofs.bind_ret in H. destruct H as ([[c5 o5] g5] & E5 & H). injection H as <- <- <-.
      exists ([JumpIfZero (S (next g))] ++ c5). split; [now rewrite app_assoc|]. apply static_app with g2; [now apply static_none|].
      revert E5. apply steady_andthen.
      - eapply Hb'; [exact Fb'|]. rewrite (st_conts _ _ _ S2). exact U.
      - intros ? ? ?. repeat steady_step. }
    destruct S3 as (c3 & -> & S3). destruct S2 as [C2 L2 B2 D2]. cbn [skip_labels next conts] in *.
    destruct S3 as [[-> ->]|(c4 & -> & [C4 L4 B4 D4])].
    + split; [exact C2 | lia | |]; cbn [app labels]; rewrite app_nil_r.
      * intros n [<-|Hn]; [lia|]. specialize (B2 n Hn). lia.
      * constructor; [|exact D2]. intros Hn. specialize (B2 _ Hn). lia.
    + split; [congruence | lia | |]; cbn [app labels]; rewrite !labels_app; cbn [labels].
      * intros n [<-|Hn]; [lia|]. rewrite !in_app_iff in Hn. cbn [In] in Hn.
        destruct Hn as [Hn|[Hn|[Hn|[]]]]; try (specialize (B2 n Hn)); try (specialize (B4 n Hn)); lia.
      * constructor.
        -- rewrite !in_app_iff. cbn [In]. intros [Hn|[Hn|[Hn|[]]]]; try (specialize (B2 _ Hn)); try (specialize (B4 _ Hn)); lia.
        -- apply nodup_app; [exact D2 | |].
           ++ apply nodup_app; [exact D4 | repeat constructor; intros []|]. intros n Hn [<-|[]]. specialize (B4 _ Hn). lia.
           ++ intros n Hn. rewrite in_app_iff. specialize (B2 n Hn). intros [Hn'|[Hn'|[]]]; try (specialize (B4 _ Hn')); lia.
  - inversion IH as [|? ? Ha _]; subst. inversion Fc as [|? ? Fa _]; subst. apply steady_andthen; [eapply Ha; eassumption|].
    intros ? ? ?. steady_step.
  - steady_step.
  - apply Forall_app in IH. destruct IH as [Hes Ha]. inversion Ha as [|? ? Ha' _]; subst. apply Forall_app in Fc. destruct Fc as [Fes Fa]. inversion Fa as [|? ? Fa' _]; subst.
    apply steady_andthen; [apply steady_lets with used; assumption|]. intros ? ? ?. eapply Ha'; [eassumption|]. same_conts.
  - clear Fc. apply Forall_app in IH. destruct IH as [Hks Hb]. inversion Hb as [|? ? Hb' _]; subst.
    inversion F as [? ? (_ & Nd & Dj) Fc]; subst. cbn [children introduced] in *. apply Forall_app in Fc. destruct Fc as [Fks Fb]. inversion Fb as [|? ? Fb' _]; subst.
    intros ci o g' H. cbv zeta in H. apply Frame.Proofs.bind_ret in H. destruct H as ([[c1 o1] g1] & E1 & H).
    apply Frame.Proofs.bind_ret in H. destruct H as ([[c2 mm] g2] & E2 & H). destruct (finish mm g2) as [o3 g3] eqn:Ef.
    injection H as <- <- <-. destruct (finish_static _ _ _ _ Ef) as [d ->].
    pose proof (add_conts_next ks g) as An.
    assert (Ui : incl (map fst (conts (skip_labels 1 (add_conts ks g)))) (map name ks ++ used)).
    { cbn [skip_labels conts]. intros k Hk. apply in_or_app. apply add_conts_ids in Hk. destruct Hk as [Hk|Hk]; [tauto|]. right. apply U, Hk. }
    assert (S1 : static (skip_labels 1 (add_conts ks g)) c1 g1) by (eapply Hb'; [exact Fb' | exact Ui | exact E1]).
    destruct S1 as [C1 L1 B1 D1]. cbn [skip_labels next conts] in *.
    destruct (static_conts (map name ks ++ used) ks (next (add_conts ks g)) Hks Fks g1 (List.seq (next g) (List.length ks)) (ends o1 g1) c2 mm g2)
      as (C2 & L2 & B2 & D2); try assumption.
    { rewrite C1. exact Ui. }
    { rewrite C1. pose proof (add_conts_found ks Nd g) as Fd. revert Fd. generalize (List.seq (next g) (List.length ks)).
      generalize (conts (add_conts ks g)). clear. intros l ns. induction 1; constructor; eauto. }
    { apply seq_NoDup. }
    { intros n Hn. apply in_seq in Hn. lia. }
    assert (Cg : conts g2 = conts g).
    { rewrite C2, C1. apply drop_added. intros k Hk Hg. apply (Dj k Hk), U, Hg. }
    split; cbn [set_depth conts next]; [exact Cg | lia | |]; rewrite !labels_app, labels_jump_if; cbn [labels app].
    + intros n Hn. rewrite !in_app_iff in Hn. cbn [In] in Hn. destruct Hn as [Hn|[Hn|[Hn|[]]]].
      * specialize (B1 n Hn). lia.
      * destruct (B2 n Hn) as [B|B]; [apply in_seq in B|]; lia.
      * lia.
    + apply nodup_app; [exact D1 | |].
      * apply nodup_app; [exact D2 | repeat constructor; intros []|]. intros n Hn [<-|[]].
        destruct (B2 _ Hn) as [B|B]; [apply in_seq in B|]; lia.
      * intros n Hn. rewrite in_app_iff. specialize (B1 n Hn). intros [Hn'|[Hn'|[]]]; [|lia].
        destruct (B2 _ Hn') as [B|B]; [apply in_seq in B|]; lia.
Qed.
End Gen.
