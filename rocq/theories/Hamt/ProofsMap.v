(** Iterating, copying, and calls on the versions of a map. *)
From Coq Require Import Permutation Lia.
From Verif.Base Require Import Base Buf Vec VecFacts.
From Verif.HashMap Require Import ProofsSpec ProofsMap.
From Verif.Hamt Require Import Model Spec ProofsBits ProofsTree.
Local Open Scope N_scope.
Local Open Scope list_scope.

Section Iter.
Context {K V : Type}.
Notation tree := (tree K V).
Implicit Types (t c : tree) (stack s : list (@frame K V)).

Definition strip (e : (N * K) * V) : K * V := (snd (fst e), snd e).
Definition slot_entries (n : nat) (em cm : N) es cs (j : nat) : list (K * V) :=
  map strip (scontent (content n) (bget em es j) (bget cm cs j)).
Definition rest (n : nat) t (i : nat) : list (K * V) :=
  match n, t with
  | S n, Tree em cm es cs => flat_map (slot_entries n em cm es cs) (seq i (32 - i))
  | _, _ => []
  end.
Lemma rest_all n t : rest n t 0 = map strip (content n t).
Proof.
  destruct n as [|n], t as [em cm es cs|]; try reflexivity; cbn [rest content Nat.sub].
  induction (seq 0 32) as [|i l IH]; [reflexivity|]; cbn [flat_map]; rewrite map_app, IH; f_equal.
  unfold slot_entries; rewrite map_map; reflexivity.
Qed.
Lemma rest_step n em cm es cs i : (i < 32)%nat ->
  rest (S n) (Tree em cm es cs) i = slot_entries n em cm es cs i ++ rest (S n) (Tree em cm es cs) (S i).
Proof. intros H; cbn [rest]; replace (32 - i)%nat with (S (32 - S i)) by lia; reflexivity. Qed.
Lemma strip_gmap h (l : list (K * V)) : map strip (gmap h l) = l.
Proof. unfold gmap; rewrite map_map; induction l as [|[k v] l IH]; [reflexivity|]; cbn [map]; rewrite IH; reflexivity. Qed.

Fixpoint drains stack (l : list (K * V)) : Prop :=
  match l with
  | [] => exists s, conv (fun f => next f stack) (None, s)
  | e :: l => exists s, conv (fun f => next f stack) (Some e, s) /\ drains s l
  end.
Lemma drains_same s s' l : (forall r, conv (fun f => next f s) r -> conv (fun f => next f s') r) -> drains s l -> drains s' l.
Proof. destruct l as [|e l]; cbn [drains]; [intros H (s1 & C)|intros H (s1 & C & D)]; exists s1; auto. Qed.
Lemma drains_ok l : forall s, drains s l -> conv (fun f => drain f s) l.
Proof.
  induction l as [|e l IH]; cbn [drains]; intros s.
  - intros (s' & C); apply (conv_step _ (fun f => let* x := next f s in match fst x with None => Ret [] | Some e => let* l := drain f (snd x) in Ret (e :: l) end)).
    + intros f; cbn [drain]; destruct (next f s) as [[[|] ?]| |]; reflexivity.
    + apply (conv_bind _ (fun x f => match fst x with None => Ret [] | Some e => let* l := drain f (snd x) in Ret (e :: l) end) _ _ C); cbn [fst]; apply conv_ret.
  - intros (s' & C & D); apply (conv_step _ (fun f => let* x := next f s in match fst x with None => Ret [] | Some e => let* l := drain f (snd x) in Ret (e :: l) end)).
    + intros f; cbn [drain]; destruct (next f s) as [[[|] ?]| |]; reflexivity.
    + apply (conv_bind _ (fun x f => match fst x with None => Ret [] | Some e => let* l := drain f (snd x) in Ret (e :: l) end) _ _ C); cbn [fst snd].
      apply (conv_bind _ (fun l f => Ret (e :: l)) _ _ (IH _ D)); apply conv_ret.
Qed.

(** The element a frame is at. *)
Definition here t (i : nat) (j : nat) : outcome (option (K * V)) :=
  match j with
  | O => let* r := search (bit_index (N.of_nat i)) t in
         Ret (match r with Some (FoundElem (_, k, v)) => Some (k, v) | _ => None end)
  | S j => match t with
           | Collision _ _ => Panic
           | Tree _ cmap _ children =>
               let* o := collision_elems (bit_index (N.of_nat i)) cmap children in
               Ret (match o with Some l => nth_error l j | None => None end)
           end
  end.
Lemma next_here f t i j stack : next (S f) ((t, N.of_nat i, j) :: stack) =
  let* e := here t i j in
  match e with
  | Some e => Ret (Some e, (t, N.of_nat i, S j) :: stack)
  | None => let* stack := cursor_push f t (N.of_nat (S i)) stack in next f stack
  end.
Proof. replace (N.of_nat (S i)) with (N.of_nat i + 1) by lia; reflexivity. Qed.
Lemma drains_some t i j stack e l : here t i j = Ret (Some e) -> drains ((t, N.of_nat i, S j) :: stack) l -> drains ((t, N.of_nat i, j) :: stack) (e :: l).
Proof.
  intros H D; exists ((t, N.of_nat i, S j) :: stack); split; [|exact D].
  eapply conv_step; [intros f; rewrite next_here, H; reflexivity|apply conv_ret].
Qed.
Lemma drains_none t i j stack s l : here t i j = Ret None -> conv (fun f => cursor_push f t (N.of_nat (S i)) stack) s -> drains s l ->
  drains ((t, N.of_nat i, j) :: stack) l.
Proof.
  intros H C; apply drains_same; intros r Cr.
  eapply conv_step; [intros f; rewrite next_here, H; reflexivity|cbn [bind]].
  apply (conv_bind _ (fun s f => next f s) _ _ C Cr).
Qed.

Lemma drain_push n : forall t stack l, wf n t -> drains stack l -> forall i, (i <= 32)%nat ->
  exists s, conv (fun f => cursor_push f t (N.of_nat i) stack) s /\ drains s (rest n t i ++ l).
Proof.
  induction n as [|n IH]; [intros t stack l []|]; intros [em cm es cs|] stack l W D; [|contradiction W]; intros i Hi.
  remember (32 - i)%nat as m eqn:Em; revert i Hi Em; induction m as [|m IHm]; intros i Hi Em.
  - exists stack; split; [|replace i with 32%nat by lia; exact D].
    apply (conv_ext _ (fun _ => Ret stack)); [|apply conv_ret].
    intros f; unfold cursor_push; replace i with 32%nat by lia; reflexivity.
  - destruct (IHm (S i) ltac:(lia) ltac:(lia)) as (s1 & C1 & D1); clear IHm.
    assert (Li : (i < 32)%nat) by lia; rewrite (rest_step n em cm es cs i Li), <- app_assoc.
    set (t := Tree em cm es cs) in *; set (l1 := rest (S n) t (S i) ++ l) in *.
    assert (Eb : bit_index (N.of_nat i) = bit i) by (rewrite bit_index_bit, Nat2N.id by lia; reflexivity).
    assert (Ep : forall f, cursor_push f t (N.of_nat i) stack = push f t (N.of_nat i) stack) by (intros f; unfold cursor_push; rewrite (proj2 (N.leb_gt _ _)) by lia; reflexivity).
    pose proof (search_ok n _ _ _ _ _ W Li) as Es; fold t in Es.
    unfold slot_entries; pose proof W as (_ & _ & W'); specialize (W' i Li).
    destruct (bget em es i) as [[[eh ek] ev]|] eqn:Ge.
    + exists ((t, N.of_nat i, O) :: stack); split.
      { apply (conv_ext _ _ _ Ep); eapply conv_step; [intros f; cbn [push]; rewrite Eb, Es; reflexivity|apply conv_ret]. }
      assert (Hg : forall g, (match bget cm cs i with Some (Collision _ l) => l | _ => [] end) = g -> forall p q, skipn p g = q -> drains ((t, N.of_nat i, S p) :: stack) (q ++ l1)).
      { intros g Eg p q; revert p; induction q as [|e q IHq]; intros p Ep'.
        - apply (drains_none _ _ _ _ s1); [|exact C1|exact D1].
          cbn [here t]; rewrite Eb, (collision_ok n _ _ _ _ _ _ W Li Ge); cbn [bind].
          assert (Hp : nth_error g p = None).
          { apply nth_error_None; apply (f_equal (@List.length _)) in Ep'; rewrite skipn_length in Ep'; cbn in Ep'; lia. }
          destruct (bget cm cs i) as [[|num l']|]; [reflexivity| |reflexivity]; rewrite Eg, Hp; reflexivity.
        - assert (Hp : nth_error g p = Some e /\ skipn (S p) g = q).
          { clear - Ep'; revert g Ep'; induction p as [|p IHp]; intros [|x g]; cbn [skipn nth_error]; intros E; try discriminate E.
            - injection E as -> ->; split; reflexivity.
            - apply IHp, E. }
          destruct Hp as [Hp Hq]; cbn [app]; apply drains_some; [|apply IHq, Hq].
          cbn [here t]; rewrite Eb, (collision_ok n _ _ _ _ _ _ W Li Ge); cbn [bind].
          destruct (bget cm cs i) as [[|num l']|]; [contradiction W'|rewrite Eg, Hp; reflexivity|].
          rewrite <- Eg in Hp; destruct p; discriminate Hp. }
      replace (map strip _) with ((ek, ev) :: match bget cm cs i with Some (Collision _ l) => l | _ => [] end).
      2:{ destruct (bget cm cs i) as [[|num l']|]; [contradiction W'| |reflexivity]; cbn [scontent]; rewrite strip_gmap; reflexivity. }
      cbn [app]; apply drains_some; [|apply (Hg _ eq_refl O); reflexivity].
      cbn [here]; rewrite Eb, Es; reflexivity.
    + assert (D0 : drains ((t, N.of_nat i, O) :: stack) l1).
      { apply (drains_none _ _ _ _ s1); [|exact C1|exact D1]; cbn [here]; rewrite Eb, Es; destruct (bget cm cs i); reflexivity. }
      destruct (bget cm cs i) as [c|] eqn:Gc; cbn [scontent].
      * destruct (IH c _ _ (proj1 W') D0 O ltac:(lia)) as (s & Cs & Ds); exists s; split.
        -- apply (conv_ext _ _ _ Ep); eapply conv_step; [intros f; cbn [push]; rewrite Eb, Es; reflexivity|exact Cs].
        -- rewrite rest_all in Ds; exact Ds.
      * exists ((t, N.of_nat i, O) :: stack); split; [|exact D0].
        apply (conv_ext _ _ _ Ep); eapply conv_step; [intros f; cbn [push]; rewrite Eb, Es; reflexivity|apply conv_ret].
Qed.
Lemma elems_ok n len t : wf n t -> conv (fun f => map_elems f (len, t)) (map strip (content n t)).
Proof.
  intros W; assert (D : drains [] []) by (exists []; eapply conv_step; [intros f; reflexivity|apply conv_ret]).
  destruct (drain_push n t [] [] W D O ltac:(lia)) as (s & C & Ds); rewrite rest_all, app_nil_r in Ds.
  unfold map_elems; cbn [snd]; apply (conv_bind _ (fun s f => drain f s) _ _ C (drains_ok _ _ Ds)).
Qed.

(** ** Deep copies *)
Section Copy.
Context (dk : K -> K) (dv : V -> V).
Definition cp (e : (N * K) * V) : (N * K) * V := ((fst (fst e), dk (snd (fst e))), dv (snd e)).
Lemma cp_gmap h l : map cp (gmap h l) = gmap h (map (copy_entry dk dv) l).
Proof. unfold gmap; rewrite !map_map; reflexivity. Qed.
Lemma cp_shift i l : map cp (map (shift i) l) = map (shift i) (map cp l).
Proof. rewrite !map_map; reflexivity. Qed.

Definition copied (n : nat) (oe : option (N * K * V)) (c c' : tree) : Prop :=
  match oe with
  | Some _ => match c with Collision num l => c' = Collision num (map (copy_entry dk dv) l) | Tree _ _ _ _ => False end
  | None => wf n c' /\ content n c' = map cp (content n c) /\ (bigt c -> bigt c')
  end.

Lemma set_next_ok {A} m i (x : A) l : (i < 32)%nat -> List.length l = cnt m i -> set_next m (bit i) x l = Ret (l ++ [x]).
Proof. intros H E; unfold set_next; rewrite bucket_index_cnt, E, Nat.eqb_refl by exact H; reflexivity. Qed.

Lemma copy_slots_ok n em cm es cs rec : wf (S n) (Tree em cm es cs) ->
  (forall i num l, (i < 32)%nat -> bget cm cs i = Some (Collision num l) -> bget em es i <> None -> N.of_nat (List.length l) < w32) ->
  (forall c, wf n c -> (exists i, (i < 32)%nat /\ bget em es i = None /\ bget cm cs i = Some c) -> exists c', rec c = Ret c' /\ copied n None c c') ->
  forall m i es0 cs0, (i + m = 32)%nat ->
  List.length es0 = cnt em i -> List.length cs0 = cnt cm i ->
  (forall j e, (j < i)%nat -> bget em es j = Some e -> nth_error es0 (cnt em j) = Some (copy_elem dk dv e)) ->
  (forall j c, (j < i)%nat -> bget cm cs j = Some c -> exists c', nth_error cs0 (cnt cm j) = Some c' /\ copied n (bget em es j) c c') ->
  exists es' cs', copy_slots dk dv rec em cm es cs m (N.of_nat i) es0 cs0 = Ret (es', cs') /\
    List.length es' = cnt em 32 /\ List.length cs' = cnt cm 32 /\
    (forall j e, (j < 32)%nat -> bget em es j = Some e -> nth_error es' (cnt em j) = Some (copy_elem dk dv e)) /\
    (forall j c, (j < 32)%nat -> bget cm cs j = Some c -> exists c', nth_error cs' (cnt cm j) = Some c' /\ copied n (bget em es j) c c').
Proof.
  intros W Hl Hrec; pose proof W as (Be & Bc & W').
  induction m as [|m IH]; intros i es0 cs0 Ei Le Lc He Hc.
  - rewrite Nat.add_0_r in Ei; subst i; exists es0, cs0; auto.
  - cbn [copy_slots]; assert (Hi : (i < 32)%nat) by lia.
    replace (bit_index (N.of_nat i)) with (bit i) by (rewrite bit_index_bit, Nat2N.id by lia; reflexivity).
    rewrite (exists_bget _ _ _ Be Hi), (exists_bget _ _ _ Bc Hi).
    replace (N.of_nat i + 1) with (N.of_nat (S i)) by lia.
    pose proof (bget_test _ _ _ Be Hi) as Te; pose proof (bget_test _ _ _ Bc Hi) as Tc.
    assert (X1 : exists es1, (if match bget em es i with Some _ => true | None => false end then let* e := buckets_get em (bit i) es in set_next em (bit i) (copy_elem dk dv e) es0 else Ret es0) = Ret es1 /\
       List.length es1 = cnt em (S i) /\ (forall j e, (j < S i)%nat -> bget em es j = Some e -> nth_error es1 (cnt em j) = Some (copy_elem dk dv e))).
    { destruct (bget em es i) as [e|] eqn:Ge.
      - rewrite (get_bget _ _ _ _ Hi Ge); cbn [bind]; rewrite set_next_ok by assumption; eexists; split; [reflexivity|].
        split; [rewrite app_length, Le; cbn [cnt List.length]; rewrite Te; reflexivity|].
        intros j e' Hj Gj; destruct (Nat.eq_dec j i) as [->|Dj].
        + rewrite nth_error_app2, Le, Nat.sub_diag by lia; cbn; congruence.
        + rewrite nth_error_app1; [apply He; trivial; lia|]; rewrite Le; apply cnt_lt; [lia|].
          rewrite (bget_test _ _ _ Be), Gj by lia; reflexivity.
      - eexists; split; [reflexivity|]; split; [cbn [cnt]; rewrite Te, Le; lia|].
        intros j e' Hj Gj; apply He; trivial; destruct (Nat.eq_dec j i) as [->|]; [congruence|lia]. }
    destruct X1 as (es1 & -> & Le1 & He1); cbn [bind].
    assert (X2 : exists cs1, (if match bget cm cs i with Some _ => true | None => false end then
         let* c := buckets_get cm (bit i) cs in
         if match bget em es i with Some _ => true | None => false end then let* l := as_collision c in set_next cm (bit i) (from_collision (map (copy_entry dk dv) l)) cs0
         else let* c := rec c in set_next cm (bit i) c cs0 else Ret cs0) = Ret cs1 /\
       List.length cs1 = cnt cm (S i) /\ (forall j c, (j < S i)%nat -> bget cm cs j = Some c -> exists c', nth_error cs1 (cnt cm j) = Some c' /\ copied n (bget em es j) c c')).
    { destruct (bget cm cs i) as [c|] eqn:Gc.
      - rewrite (get_bget _ _ _ _ Hi Gc); cbn [bind].
        assert (X3 : exists c', (if match bget em es i with Some _ => true | None => false end then let* l := as_collision c in set_next cm (bit i) (from_collision (map (copy_entry dk dv) l)) cs0 else let* c := rec c in set_next cm (bit i) c cs0) = Ret (cs0 ++ [c']) /\ copied n (bget em es i) c c').
        { specialize (W' i Hi); rewrite Gc in W'; destruct (bget em es i) as [[[eh ek] ev]|] eqn:Ge.
          - destruct c as [|num l]; [contradiction W'|]; cbn [swf] in W'; destruct W' as (_ & -> & _).
            cbn [as_collision]; rewrite N.leb_refl, Nat2N.id, firstn_all; cbn [bind].
            rewrite set_next_ok by assumption; eexists; split; [reflexivity|]; cbn [copied].
            rewrite from_collision_ok, map_length by (rewrite map_length; apply (Hl i _ _ Hi Gc); congruence); reflexivity.
          - destruct (Hrec c (proj1 W')) as (c' & -> & Hc'); [eauto|]; cbn [bind]; rewrite set_next_ok by assumption; eauto. }
        destruct X3 as (c' & -> & Hc'); eexists; split; [reflexivity|].
        split; [rewrite app_length, Lc; cbn [cnt List.length]; rewrite Tc; reflexivity|].
        intros j c2 Hj Gj; destruct (Nat.eq_dec j i) as [->|Dj].
        + rewrite nth_error_app2, Lc, Nat.sub_diag by lia; cbn; rewrite Gc in Gj; injection Gj as <-; eauto.
        + rewrite nth_error_app1; [apply Hc; trivial; lia|]; rewrite Lc; apply cnt_lt; [lia|].
          rewrite (bget_test _ _ _ Bc), Gj by lia; reflexivity.
      - eexists; split; [reflexivity|]; split; [cbn [cnt]; rewrite Tc, Lc; lia|].
        intros j c2 Hj Gj; apply Hc; trivial; destruct (Nat.eq_dec j i) as [->|]; [congruence|lia]. }
    destruct X2 as (cs1 & -> & Lc1 & Hc1); cbn [bind].
    apply IH; trivial; lia.
Qed.

Lemma deep_copy_ok n : forall t fuel, (n <= fuel)%nat -> wf n t -> (forall g, N.of_nat (cnth g (content n t)) <= w32) ->
  exists t', deep_copy dk dv fuel t = Ret t' /\ wf n t' /\ content n t' = map cp (content n t) /\ (bigt t -> bigt t').
Proof.
  induction n as [|n IH]; [intros t fuel _ []|]; intros [em cm es cs|] [|fuel] Hf W Hlen; try lia; [|contradiction W].
  cbn [deep_copy]; pose proof W as (Be & Bc & W').
  assert (Hsl : forall i g, (i < 32)%nat -> N.of_nat (cnth g (scontent (content n) (bget em es i) (bget cm cs i))) <= w32).
  { intros i g Hi; destruct (slot_of (fun _ _ => true) ltac:(auto) ltac:(auto) ltac:(auto) n em cm es cs i Hi) as (_ & _ & Hs); specialize (Hs g); specialize (Hlen (g * 32 + N.of_nat i)); lia. }
  destruct (copy_slots_ok n em cm es cs (deep_copy dk dv fuel) W) with (m := 32%nat) (i := O) (es0 := @nil (N * K * V)) (cs0 := @nil tree)
    as (es' & cs' & E & Le & Lc & He & Hc); trivial; try (intros; lia).
  - intros i num l Hi Gc Ge; specialize (W' i Hi); specialize (Hsl i); rewrite Gc in *.
    destruct (bget em es i) as [[[eh ek] ev]|]; [|congruence].
    specialize (Hsl eh Hi); cbn [scontent] in Hsl; rewrite cnth_gmap, N.eqb_refl in Hsl; cbn [List.length] in Hsl; lia.
  - intros c Wc (i & Hi & Ge & Gc); apply IH; [lia|exact Wc|]; intros g; specialize (Hsl i g Hi); rewrite Ge, Gc in Hsl; exact Hsl.
  - change (N.of_nat 0) with 0 in E; rewrite E; cbn [bind].
    rewrite (buckets_length_ok _ _ Be), (buckets_length_ok _ _ Bc), Le, Lc, (proj2 Be), (proj2 Bc), !Nat.eqb_refl; cbn [andb].
    eexists; split; [reflexivity|].
    assert (Ge' : forall j, (j < 32)%nat -> bget em es' j = option_map (copy_elem dk dv) (bget em es j)).
    { intros j Hj; destruct (bget em es j) as [e|] eqn:G.
      - unfold bget; rewrite (bget_test _ _ _ Be Hj), G; cbn [option_map]; apply He; assumption.
      - unfold bget; rewrite (bget_test _ _ _ Be Hj), G; reflexivity. }
    assert (Gc' : forall j, (j < 32)%nat -> match bget cm cs j with Some c => exists c', bget cm cs' j = Some c' /\ copied n (bget em es j) c c' | None => bget cm cs' j = None end).
    { intros j Hj; destruct (bget cm cs j) as [c|] eqn:G.
      - destruct (Hc j c Hj G) as (c' & N' & Cc); exists c'; split; [|exact Cc]; unfold bget; rewrite (bget_test _ _ _ Bc Hj), G; exact N'.
      - unfold bget; rewrite (bget_test _ _ _ Bc Hj), G; reflexivity. }
    assert (Sl : forall j, (j < 32)%nat -> swf n (fun c => wf n c /\ bigt c) (bget em es' j) (bget cm cs' j) /\
       scontent (content n) (bget em es' j) (bget cm cs' j) = map cp (scontent (content n) (bget em es j) (bget cm cs j))).
    { intros j Hj; rewrite (Ge' j Hj); specialize (Gc' j Hj); specialize (W' j Hj).
      destruct (bget em es j) as [[[eh ek] ev]|]; destruct (bget cm cs j) as [c|]; cbn [option_map copy_elem].
      - destruct Gc' as (c' & -> & Cc); cbn [copied] in Cc; destruct c as [|num l]; [contradiction|subst c'].
        cbn [swf] in *; destruct W' as (Hb & -> & Hn); rewrite map_length; repeat split; trivial.
        + destruct l; [contradiction Hn; reflexivity|discriminate].
        + cbn [scontent]; rewrite cp_gmap; reflexivity.
      - rewrite Gc'; split; [exact W'|]; reflexivity.
      - destruct Gc' as (c' & -> & Wc & Cc & Bg); split; [split; [exact Wc|apply Bg, W']|exact Cc].
      - rewrite Gc'; split; [exact Logic.I|reflexivity]. }
    split; [|split].
    + split; [split; [apply Be|exact Le]|]; split; [split; [apply Bc|exact Lc]|]; intros j Hj; apply Sl, Hj.
    + cbn [content].
      assert (In : forall j, In j (seq 0 32) -> (j < 32)%nat) by (intros j J; apply in_seq in J; lia).
      revert In; induction (seq 0 32) as [|j l IHl]; intros In; [reflexivity|]; cbn [flat_map]; rewrite map_app, IHl by (intros; apply In; cbn; auto); f_equal.
      rewrite (proj2 (Sl j (In j (or_introl eq_refl)))), cp_shift; reflexivity.
    + intros [Two|(j & c & Hj & Gj & Cj)]; [left; rewrite Le, <- (proj2 Be); exact Two|]; right.
      specialize (Ge' j Hj); specialize (Gc' j Hj); rewrite Gj in Ge'; rewrite Cj in Gc'; destruct Gc' as (c' & Gc' & _); exists j, c'; auto.
Qed.
End Copy.
End Iter.

(** ** Maps *)
Section Map.
Context {K V : Type} (eqk : K -> K -> bool) (hash : K -> N).
Hypothesis L : lawful eqk hash.
Let Refl : forall a, eqk a a = true := proj1 L.
Let Sym : forall a b, eqk a b = true -> eqk b a = true := proj1 (proj2 L).
Let Trans : forall a b c, eqk a b = true -> eqk b c = true -> eqk a c = true := proj1 (proj2 (proj2 L)).
Notation entries := (list (K * V)).
Notation eqp := (eqp eqk).

Definition good (l : list ((N * K) * V)) : Prop := Forall (fun e => fst (fst e) = hash (snd (fst e))) l.
Lemma eqp_good k k' : eqp (hash k, k) (hash k', k') = eqk k k'.
Proof.
  unfold ProofsTree.eqp; cbn [fst snd]; destruct (eqk k k') eqn:E; [|apply Bool.andb_false_r].
  pose proof L as (_ & _ & _ & H & _); rewrite (H _ _ E), N.eqb_refl; reflexivity.
Qed.
Lemma good_value k l : good l -> value_of eqp (hash k, k) l = value_of eqk k (map strip l).
Proof.
  induction 1 as [|[[h k'] v] l H G IH]; [reflexivity|]; cbn [fst snd] in H; subst h.
  change (map strip (((hash k', k'), v) :: l)) with ((k', v) :: map strip l); rewrite !value_of_cons, eqp_good, IH; reflexivity.
Qed.
Lemma good_put k v l : good l -> good (put eqp (hash k, k) v l) /\ map strip (put eqp (hash k, k) v l) = put eqk k v (map strip l).
Proof.
  induction 1 as [|[[h k'] v'] l H G IH]; [split; [repeat constructor|reflexivity]|]; cbn [fst snd] in H; subst h.
  change (map strip (((hash k', k'), v') :: l)) with ((k', v') :: map strip l); cbn [put]; rewrite eqp_good.
  destruct IH as [G' E]; destruct (eqk k k').
  - split; [constructor; trivial; reflexivity|reflexivity].
  - split; [constructor; trivial; reflexivity|]; cbn [map]; rewrite E; reflexivity.
Qed.
Lemma good_del k l : good l -> good (del eqp (hash k, k) l) /\ map strip (del eqp (hash k, k) l) = del eqk k (map strip l).
Proof.
  induction 1 as [|[[h k'] v'] l H G IH]; [split; [constructor|reflexivity]|]; cbn [fst snd] in H; subst h.
  change (map strip (((hash k', k'), v') :: l)) with ((k', v') :: map strip l); cbn [del filter fst]; rewrite eqp_good.
  fold (del eqk k (map strip l)); fold (del eqp (hash k, k) l).
  destruct IH as [G' E]; destruct (eqk k k'); cbn [negb].
  - split; assumption.
  - split; [constructor; trivial; reflexivity|]; cbn [map]; rewrite E; reflexivity.
Qed.
Lemma good_distinct l : good l -> distinct eqk (map strip l) -> distinct eqp l.
Proof.
  induction 1 as [|[[h k'] v'] l H G IH]; [trivial|]; cbn [fst snd] in H; subst h.
  change (map strip (((hash k', k'), v') :: l)) with ((k', v') :: map strip l); cbn [distinct].
  rewrite good_value by exact G; intuition.
Qed.
Lemma good_cnth g l : good l -> cnth g l = List.length (filter (fun e => hash (fst e) =? g) (map strip l)).
Proof.
  unfold cnth; induction 1 as [|[[h k'] v'] l H G IH]; [reflexivity|]; cbn [fst snd] in H; subst h.
  change (map strip (((hash k', k'), v') :: l)) with ((k', v') :: map strip l); cbn [filter fst].
  destruct (hash k' =? g); cbn [List.length]; now rewrite IH.
Qed.
Lemma good_perm l l' : Permutation l l' -> good l -> good l'.
Proof. intros P; apply Permutation_Forall, P. Qed.
Lemma filter_perm {A} (f : A -> bool) l l' : Permutation l l' -> Permutation (filter f l) (filter f l').
Proof.
  induction 1 as [|x l l' P IH|x y l|l l2 l3 P1 IH1 P2 IH2]; cbn [filter]; [reflexivity| | |etransitivity; eauto].
  - destruct (f x); [now constructor|exact IH].
  - destruct (f x), (f y); try reflexivity; constructor.
Qed.
Lemma fits_perm (l l' : entries) : Permutation l l' -> fits hash l -> fits hash l'.
Proof.
  intros P [A B]; split; [now rewrite <- (Permutation_length P)|intros h; rewrite <- (Permutation_length (filter_perm _ _ _ P)); apply B].
Qed.

(** A map holds entries. *)
Definition holds (m : hmap K V) (l : entries) : Prop :=
  fst m = N.of_nat (List.length l) /\ wf depth (snd m) /\ good (content depth (snd m)) /\
  Permutation (map strip (content depth (snd m))) l /\ distinct eqk l /\ fits hash l.

Lemma holds_bounds m l : holds m l -> distinct eqp (content depth (snd m)) /\ forall g, N.of_nat (cnth g (content depth (snd m))) <= w32.
Proof.
  intros (_ & _ & G & P & D & F); split.
  - apply good_distinct; [exact G|]; exact (distinct_perm eqk hash L _ _ (Permutation_sym P) D).
  - intros g; rewrite good_cnth by exact G; apply (fits_perm _ _ (Permutation_sym P) F).
Qed.
Lemma hash_small k : hash k < 32 ^ N.of_nat depth.
Proof. pose proof L as (_ & _ & _ & _ & H); specialize (H k); eapply N.lt_trans; [exact H|reflexivity]. Qed.
Lemma holds_value m l k : holds m l -> value_of eqp (hash k, k) (content depth (snd m)) = value_of eqk k l.
Proof.
  intros (_ & _ & G & P & D & F); rewrite good_value by exact G.
  apply (value_of_perm eqk hash L); [exact P|]; exact (distinct_perm eqk hash L _ _ (Permutation_sym P) D).
Qed.
Lemma map_get_ok m l k : holds m l -> map_get eqk hash k m = Ret (value_of eqk k l).
Proof.
  intros H; unfold map_get; rewrite (get_ok eqk Refl Sym Trans depth) by (try apply H; auto); f_equal; now apply holds_value.
Qed.

Lemma put_length k v (l : entries) : List.length (put eqk k v l) = match value_of eqk k l with None => S (List.length l) | Some _ => List.length l end.
Proof.
  induction l as [|[k' v'] l IH]; [reflexivity|]; rewrite value_of_cons; cbn [put List.length]; destruct (eqk k k'); [reflexivity|].
  cbn [List.length]; rewrite IH; destruct (value_of eqk k l); reflexivity.
Qed.
Lemma del_length k (l : entries) : distinct eqk l -> List.length l = match value_of eqk k l with None => List.length (del eqk k l) | Some _ => S (List.length (del eqk k l)) end.
Proof.
  intros D; induction l as [|[k' v'] l IH]; [reflexivity|]; rewrite value_of_cons; cbn [List.length del filter fst distinct] in *.
  destruct D as [Hn D]; fold (del eqk k l); destruct (eqk k k') eqn:E; cbn [negb List.length].
  - rewrite del_absent; [reflexivity|]; rewrite (value_of_eqk eqk hash L _ _ _ E); exact Hn.
  - rewrite (IH D); destruct (value_of eqk k l); reflexivity.
Qed.
Lemma cnth_fit m l k v : holds m l -> fits hash (put eqk k v l) ->
  value_of eqp (hash k, k) (content depth (snd m)) = None -> N.of_nat (cnth (hash k) (content depth (snd m))) < w32.
Proof.
  intros H F E; rewrite (holds_value _ _ _ H) in E; pose proof H as (_ & _ & G & P & _).
  rewrite good_cnth, (Permutation_length (filter_perm _ _ _ P)) by exact G.
  destruct F as [_ F]; specialize (F (hash k)); rewrite put_absent, filter_app, app_length in F by exact E; cbn [filter fst] in F.
  rewrite N.eqb_refl in F; cbn [List.length] in F; unfold w32; lia.
Qed.
Lemma map_insert_ok m l k v : holds m l -> fits hash (put eqk k v l) -> exists m', map_insert eqk hash k v m = Ret m' /\ holds m' (put eqk k v l).
Proof.
  intros H F; destruct (holds_bounds _ _ H) as [Dc Bc]; pose proof H as (El & W & G & P & D & _); unfold map_insert.
  destruct (insert_ok eqk Refl Sym Trans depth (snd m) (hash k) k v depth ltac:(auto) W (hash_small k) Bc (cnth_fit _ _ _ _ H F)) as (t' & -> & W' & P' & _).
  cbn [bind]; rewrite (holds_value _ _ _ H); eexists; split; [reflexivity|].
  destruct (good_put k v _ G) as [G' E']; cbn [fst snd].
  split; [|split; [exact W'|split; [exact (good_perm _ _ (Permutation_sym P') G')|split; [|split; [apply (distinct_put eqk hash L), D|exact F]]]]].
  - cbn [fst]; pose proof F as [Fl _]; rewrite put_length in *; rewrite El; destruct (value_of eqk k l); [reflexivity|].
    unfold add64; rewrite N.mod_small by (unfold w64; lia); lia.
  - rewrite P', E'; apply (put_perm eqk hash L); [exact P|]; exact (distinct_perm eqk hash L _ _ (Permutation_sym P) D).
Qed.
Lemma fits_del k (l : entries) : fits hash l -> fits hash (del eqk k l).
Proof.
  assert (Le : forall (f g : K * V -> bool) x, (List.length (filter f (filter g x)) <= List.length (filter f x))%nat).
  { intros f g x; induction x as [|y x IH]; [reflexivity|]; cbn [filter]; destruct (g y); cbn [filter]; destruct (f y); cbn [List.length]; lia. }
  assert (Le1 : forall (g : K * V -> bool) x, (List.length (filter g x) <= List.length x)%nat).
  { intros g x; induction x as [|y x IH]; [reflexivity|]; cbn [filter]; destruct (g y); cbn [List.length]; lia. }
  intros [A B]; unfold del; split; [specialize (Le1 (fun e => negb (eqk k (fst e))) l); lia|].
  intros h; specialize (B h); specialize (Le (fun e => hash (fst e) =? h) (fun e => negb (eqk k (fst e))) l); lia.
Qed.
Lemma map_remove_ok m l k : holds m l -> exists m', map_remove eqk hash k m = Ret m' /\ holds m' (del eqk k l).
Proof.
  intros H; destruct (holds_bounds _ _ H) as [Dc Bc]; pose proof H as (El & W & G & P & D & F); unfold map_remove.
  destruct (remove_all eqk Refl Sym Trans depth (snd m) (hash k) k depth ltac:(auto) ltac:(auto) W Dc Bc) as (r & -> & R); cbn [bind].
  destruct r as [[[v b] t']|].
  - destruct R as (E & W' & P' & _); rewrite (holds_value _ _ _ H) in E; eexists; split; [reflexivity|].
    destruct (good_del k _ G) as [G' E']; split; [|split; [exact W'|split; [exact (good_perm _ _ (Permutation_sym P') G')|split; [|split; [apply (distinct_del eqk hash L), D|apply fits_del, F]]]]].
    + cbn [fst]; pose proof (del_length k l D) as Ln; rewrite E in Ln; rewrite El, Ln; destruct F as [Fl _].
      rewrite sub64_small; lia.
    + cbn [snd]; rewrite P', E'; apply del_perm, P.
  - rewrite (holds_value _ _ _ H) in R; eexists; split; [reflexivity|]; rewrite del_absent by exact R; exact H.
Qed.
Lemma map_copy_ok dk dv m l : (forall k, eqk k (dk k) = true) -> holds m l ->
  exists t', deep_copy dk dv depth (snd m) = Ret t' /\ holds (fst m, t') (map (fun e => (dk (fst e), dv (snd e))) l).
Proof.
  intros Hk H; destruct (holds_bounds _ _ H) as [Dc Bc]; pose proof H as (El & W & G & P & D & F).
  destruct (deep_copy_ok dk dv depth (snd m) depth ltac:(auto) W Bc) as (t' & -> & W' & E' & _); eexists; split; [reflexivity|].
  pose proof L as (_ & _ & _ & Hh & _).
  split; [|split; [exact W'|split; [|split; [|split]]]].
  - cbn [fst]; rewrite map_length; exact El.
  - cbn [snd]; rewrite E'; clear - G Hk Hh; induction G as [|[[h k'] v'] x Hx G IH]; [constructor|]; cbn [map]; constructor; [|exact IH].
    cbn [cp fst snd] in *; rewrite Hx; apply Hh, Hk.
  - cbn [snd]; rewrite E', map_map.
    replace (map (fun x => strip (cp dk dv x)) (content depth (snd m))) with (map (fun e => (dk (fst e), dv (snd e))) (map strip (content depth (snd m)))) by (rewrite map_map; reflexivity).
    now apply Permutation_map.
  - apply (distinct_map eqk hash L); assumption.
  - destruct F as [A B]; split; [now rewrite map_length|]; intros h.
    replace (List.length (filter (fun e => hash (fst e) =? h) (map (fun e => (dk (fst e), dv (snd e))) l))) with (List.length (filter (fun e => hash (fst e) =? h) l)); [apply B|].
    clear - Hh Hk; induction l as [|[k v] l IH]; [reflexivity|]; cbn [map filter fst snd]; rewrite <- (Hh _ _ (Hk k)).
    destruct (hash k =? h); cbn [List.length]; now rewrite IH.
Qed.
Lemma map_elems_ok m l : holds m l -> exists l', conv (fun f => map_elems f m) l' /\ Permutation l' l.
Proof.
  destruct m as [len t]; intros (_ & W & _ & P & _); exists (map strip (content depth t)); split; [|exact P]; now apply elems_ok.
Qed.
Lemma all_in_ok eqv b lb x : holds b lb ->
  all_in eqk hash eqv x b = Ret (forallb (fun e => match value_of eqk (fst e) lb with Some w => eqv (snd e) w | None => false end) x).
Proof.
  intros H; induction x as [|[k v] x IH]; [reflexivity|]; cbn [all_in forallb fst snd]; rewrite (map_get_ok _ _ _ H); cbn [bind].
  destruct (value_of eqk k lb) as [w|]; [|reflexivity]; destruct (eqv v w); [exact IH|reflexivity].
Qed.
Lemma map_eq_ok eqv a la b lb : holds a la -> holds b lb -> conv (fun f => map_eq eqk hash f eqv a b) (equal eqk eqv la lb).
Proof.
  intros Ha Hb; pose proof Ha as (Ea & _ & _ & _ & Da & _); pose proof Hb as (Eb & _ & _ & _ & Db & _).
  destruct (map_elems_ok a la Ha) as (l' & C & P).
  rewrite <- (equal_perm eqk hash L eqv l' la lb lb P (Permutation_refl _) Db).
  apply (conv_ext _ (fun f => if negb (fst a =? fst b) then Ret false else let* l := map_elems f a in all_in eqk hash eqv l b)); [reflexivity|].
  unfold equal; rewrite Ea, Eb, (Permutation_length P).
  destruct (Nat.eqb_spec (List.length la) (List.length lb)) as [E|E].
  - rewrite E, N.eqb_refl; cbn [negb andb].
    apply (conv_bind _ (fun l f => all_in eqk hash eqv l b) _ _ C); rewrite (all_in_ok _ _ _ _ Hb); apply conv_ret.
  - rewrite (proj2 (N.eqb_neq _ _)) by lia; cbn [negb andb]; apply conv_ret.
Qed.

(** ** Calls *)
Lemma on_ok ms ls i (f : hmap K V -> nat -> outcome (answer K V * list (hmap K V))) g :
  Forall2 holds ms ls ->
  (forall m l, holds m l -> In l ls -> exists a ms', conv (f m) (a, ms') /\ agree a (fst (g l)) /\ Forall2 holds ms' (snd (g l))) ->
  exists a ms', conv (fun fuel => on ms i (fun m => f m fuel)) (a, ms') /\ agree a (fst (with_version ls i g)) /\ Forall2 holds ms' (snd (with_version ls i g)).
Proof.
  intros H Hf; unfold on, with_version.
  assert (N : match nth_error ms i, nth_error ls i with Some m, Some l => holds m l /\ In l ls | None, None => True | _, _ => False end).
  { clear Hf; revert i; induction H as [|m l ms ls Hm H IH]; intros [|i]; cbn [nth_error]; trivial; [split; [exact Hm|now left]|].
    specialize (IH i); destruct (nth_error ms i), (nth_error ls i); trivial; destruct IH; split; [assumption|now right]. }
  destruct (nth_error ms i) as [m|], (nth_error ls i) as [l|]; try contradiction.
  - apply Hf; apply N.
  - exists ANoVersion, ms; repeat split; [apply conv_ret|exact H].
Qed.
Lemma spec_step_grows (ls : list entries) c : exists x, snd (spec_step eqk ls c) = ls ++ x.
Proof.
  destruct c; cbn [spec_step]; unfold with_version; destruct (nth_error ls i) as [l|]; cbn [snd]; try (exists []; now rewrite app_nil_r); eauto.
  destruct (nth_error ls j); exists []; now rewrite app_nil_r.
Qed.
Lemma spec_run_grows cs : forall ls : list entries, exists x, snd (spec_run eqk ls cs) = ls ++ x.
Proof.
  induction cs as [|c cs IH]; intros ls; [exists []; cbn; now rewrite app_nil_r|]; cbn [spec_run].
  destruct (spec_step_grows ls c) as [x E]; destruct (spec_step eqk ls c) as [a ls']; cbn [snd] in E; subst ls'.
  destruct (IH (ls ++ x)) as [y E]; destruct (spec_run eqk (ls ++ x) cs) as [r ls']; cbn [snd] in *; exists (x ++ y); rewrite E, app_assoc; reflexivity.
Qed.

Lemma step_ok ms (ls : list entries) c : Forall2 holds ms ls -> proper eqk c -> Forall (fits hash) (snd (spec_step eqk ls c)) ->
  exists a ms', conv (fun f => step eqk hash f ms c) (a, ms') /\ agree a (fst (spec_step eqk ls c)) /\ Forall2 holds ms' (snd (spec_step eqk ls c)).
Proof.
  intros H Pc Hf.
  assert (App : forall m l, holds m l -> Forall2 holds (ms ++ [m]) (ls ++ [l])) by (intros; apply Forall2_app; [exact H|constructor; [assumption|constructor]]).
  destruct c as [i k v|i k|dk dv i|i k|i k|i|i|i|eqv i j]; cbn [step spec_step] in *.
  - unfold with_version in *; unfold on.
    assert (N : match nth_error ms i, nth_error ls i with Some m, Some l => holds m l | None, None => True | _, _ => False end).
    { clear - H; revert i; induction H as [|m l ms ls Hm H IH]; intros [|i]; cbn [nth_error]; trivial; apply IH. }
    destruct (nth_error ms i) as [m|], (nth_error ls i) as [l|]; try contradiction; cbn [fst snd] in *.
    + destruct (map_insert_ok m l k v N) as (m' & -> & Hm'); [apply Forall_app in Hf as [_ Hf]; inversion Hf; assumption|].
      cbn [bind]; exists ADone, (ms ++ [m']); split; [apply conv_ret|]; split; [reflexivity|auto].
    + exists ANoVersion, ms; repeat split; [apply conv_ret|exact H].
  - apply (on_ok ms ls i (fun m _ => let* m := map_remove eqk hash k m in Ret (ADone, ms ++ [m]))); [exact H|]; intros m l Hm _.
    destruct (map_remove_ok m l k Hm) as (m' & -> & Hm'); cbn [bind fst snd]; exists ADone, (ms ++ [m']); split; [apply conv_ret|]; split; [reflexivity|auto].
  - apply (on_ok ms ls i (fun m _ => let* t := deep_copy dk dv depth (snd m) in Ret (ADone, ms ++ [(fst m, t)]))); [exact H|]; intros m l Hm _.
    destruct (map_copy_ok dk dv m l Pc Hm) as (t' & -> & Hm'); cbn [bind fst snd]; exists ADone, (ms ++ [(fst m, t')]); split; [apply conv_ret|]; split; [reflexivity|auto].
  - apply (on_ok ms ls i (fun m _ => let* v := map_get eqk hash k m in Ret (AValue v, ms))); [exact H|]; intros m l Hm _.
    rewrite (map_get_ok m l k Hm); cbn [bind fst snd]; eexists _, ms; split; [apply conv_ret|]; split; [reflexivity|exact H].
  - apply (on_ok ms ls i (fun m _ => let* v := map_get eqk hash k m in Ret (ABool (match v with Some _ => true | None => false end), ms))); [exact H|]; intros m l Hm _.
    rewrite (map_get_ok m l k Hm); cbn [bind fst snd]; eexists _, ms; split; [apply conv_ret|]; split; [reflexivity|exact H].
  - apply (on_ok ms ls i (fun m _ => Ret (ALength (fst m), ms))); [exact H|]; intros m l Hm _.
    eexists _, ms; split; [apply conv_ret|]; split; [cbn; f_equal; apply Hm|exact H].
  - apply (on_ok ms ls i (fun m _ => Ret (ABool (0 =? fst m), ms))); [exact H|]; intros m l Hm _.
    eexists _, ms; split; [apply conv_ret|]; split; [|exact H]; destruct Hm as (-> & _); destruct l; reflexivity.
  - apply (on_ok ms ls i (fun m f => let* l := map_elems f m in Ret (AElems l, ms))); [exact H|]; intros m l Hm _.
    destruct (map_elems_ok m l Hm) as (l' & C & P); exists (AElems l'), ms; split; [|split; [exact P|exact H]].
    apply (conv_bind _ (fun l _ => Ret (AElems l, ms)) _ _ C), conv_ret.
  - apply (on_ok ms ls i (fun a f => on ms j (fun b => let* r := map_eq eqk hash f eqv a b in Ret (ABool r, ms)))); [exact H|]; intros a la Ha _.
    apply (on_ok ms ls j (fun b f => let* r := map_eq eqk hash f eqv a b in Ret (ABool r, ms))); [exact H|]; intros b lb Hb _.
    exists (ABool (equal eqk eqv la lb)), ms; split; [|split; [reflexivity|exact H]].
    apply (conv_bind _ (fun r _ => Ret (ABool r, ms)) _ _ (map_eq_ok eqv a la b lb Ha Hb)), conv_ret.
Qed.

Lemma run_ok cs : forall ms (ls : list entries), Forall2 holds ms ls -> Forall (proper eqk) cs -> Forall (fits hash) (snd (spec_run eqk ls cs)) ->
  exists r ms', conv (fun f => run eqk hash f ms cs) (r, ms') /\ Forall2 agree r (fst (spec_run eqk ls cs)) /\ Forall2 holds ms' (snd (spec_run eqk ls cs)).
Proof.
  induction cs as [|c cs IH]; intros ms ls H Pc Hf.
  - exists [], ms; split; [apply conv_ret|]; split; [constructor|exact H].
  - inversion Pc as [|c' cs' Pc1 Pc2]; subst; cbn [spec_run] in *.
    destruct (step_ok ms ls c H Pc1) as (a & ms1 & C1 & A1 & H1).
    { destruct (spec_step eqk ls c) as [b ls1]; cbn [snd]; destruct (spec_run_grows cs ls1) as [x E].
      destruct (spec_run eqk ls1 cs) as [r ls2]; cbn [snd] in *; rewrite E in Hf; apply Forall_app in Hf; tauto. }
    destruct (spec_step eqk ls c) as [b ls1]; cbn [fst snd] in *.
    destruct (IH ms1 ls1 H1 Pc2) as (r & ms2 & C2 & A2 & H2).
    { destruct (spec_run eqk ls1 cs); exact Hf. }
    destruct (spec_run eqk ls1 cs) as [q ls2]; cbn [fst snd] in *.
    exists (a :: r), ms2; split; [|split; [constructor; assumption|exact H2]].
    apply (conv_ext _ (fun f => let* x := step eqk hash f ms c in let* y := run eqk hash f (snd x) cs in Ret (fst x :: fst y, snd y))).
    + intros f; cbn [run]; destruct (step eqk hash f ms c) as [[? ?]| |]; cbn [bind fst snd]; trivial; destruct (run eqk hash f _ cs) as [[? ?]| |]; reflexivity.
    + apply (conv_bind _ (fun x f => let* y := run eqk hash f (snd x) cs in Ret (fst x :: fst y, snd y)) _ _ C1); cbn [fst snd].
      apply (conv_bind _ (fun y _ => Ret (a :: fst y, snd y)) _ _ C2); apply conv_ret.
Qed.
Lemma holds_empty : holds map_empty [].
Proof.
  split; [reflexivity|]; split; [apply wf_empty|]; cbn [map_empty snd]; rewrite content_empty.
  repeat split; try constructor; intros; discriminate.
Qed.

(** ** Tightness *)
Lemma sum_in (c : tree K V) cs : In c cs -> (elements c <= list_sum (map elements cs))%nat.
Proof.
  unfold list_sum; induction cs as [|d cs IH]; intros []; cbn [map fold_right]; [subst; lia|]; specialize (IH H); lia.
Qed.
Lemma big_elements n : forall t : tree K V, wf n t -> bigt t -> (2 <= elements t)%nat.
Proof.
  induction n as [|n IH]; [intros t []|]; intros [em cm es cs|] W; [|contradiction W]; intros [Two|(j & c & Hj & Ge & Gc)]; cbn [elements]; [lia|].
  destruct W as (Be & Bc & W'); specialize (W' j Hj); rewrite Ge, Gc in W'; destruct W' as [Wc Bg].
  pose proof (sum_in c cs (bget_in _ _ _ _ Gc)); specialize (IH c Wc Bg); lia.
Qed.
Lemma wf_tight n : forall t : tree K V, wf n t -> tight t.
Proof.
  induction n as [|n IH]; [intros t []|]; intros [em cm es cs|] W; [|contradiction W]; destruct W as (Be & Bc & W'); cbn [tight].
  assert (H : forall c, In c cs -> is_tree c = true -> (2 <= elements c)%nat /\ tight c).
  { intros c I T; apply In_nth_error in I as [p I]; destruct (bget_onto _ _ _ _ Bc I) as (j & Hj & _ & G).
    specialize (W' j Hj); rewrite G in W'; destruct (bget em es j) as [[[h k] v]|].
    - destruct c; [contradiction W'|discriminate T].
    - destruct W' as [Wc Bg]; split; [exact (big_elements n c Wc Bg)|exact (IH c Wc)]. }
  clear - H; induction cs as [|c cs IH]; [exact Logic.I|]; split; [apply H; now left|apply IH; intros; apply H; trivial; now right].
Qed.

Theorem run_tight (cs : list (call K V)) : Forall (proper eqk) cs -> Forall (fits hash) (snd (spec_run eqk [[]] cs)) ->
  exists n r ms, (forall fuel, (n <= fuel)%nat -> run eqk hash fuel [map_empty] cs = Ret (r, ms)) /\ Forall (fun m => tight (snd m)) ms.
Proof.
  intros P F; destruct (run_ok cs [map_empty] [[]]) as (r & ms & [n C] & _ & H); trivial; [constructor; [apply holds_empty|constructor]|].
  exists n, r, ms; split; [exact C|]; clear - H; induction H as [|m l ms ls Hm H IH]; constructor; trivial.
  exact (wf_tight _ _ (proj1 (proj2 Hm))).
Qed.

Theorem run_all (cs : list (call K V)) : Forall (proper eqk) cs -> Forall (fits hash) (snd (spec_run eqk [[]] cs)) ->
  exists n r ms, (forall fuel, (n <= fuel)%nat -> run eqk hash fuel [map_empty] cs = Ret (r, ms)) /\ Forall2 agree r (fst (spec_run eqk [[]] cs)).
Proof.
  intros P F; destruct (run_ok cs [map_empty] [[]]) as (r & ms & [n C] & A & _); trivial; [constructor; [apply holds_empty|constructor]|].
  exists n, r, ms; split; [exact C|exact A].
Qed.
Theorem spec_distinct (cs : list (call K V)) : Forall (proper eqk) cs -> Forall (distinct (V := V) eqk) (snd (spec_run eqk [[]] cs)).
Proof.
  assert (H : forall cs ls, Forall (distinct (V := V) eqk) ls -> Forall (proper eqk) cs -> Forall (distinct (V := V) eqk) (snd (spec_run eqk ls cs))).
  { clear cs; induction cs as [|c cs IH]; intros ls H P; [exact H|]; inversion P as [|c' cs' P1 P2]; subst; cbn [spec_run].
    assert (H1 : Forall (distinct (V := V) eqk) (snd (spec_step eqk ls c))).
    { assert (Nth : forall i l, nth_error ls i = Some l -> distinct eqk l) by (intros i l E; rewrite Forall_forall in H; apply H, (nth_error_In _ _ E)).
      destruct c; cbn [spec_step]; unfold with_version; destruct (nth_error ls i) as [l|] eqn:E; cbn [snd]; trivial; try (apply Nth in E).
      - apply Forall_app; split; [exact H|constructor; [|constructor]]; now apply (distinct_put eqk hash L).
      - apply Forall_app; split; [exact H|constructor; [|constructor]]; now apply (distinct_del eqk hash L).
      - apply Forall_app; split; [exact H|constructor; [|constructor]]; now apply (distinct_map eqk hash L).
      - destruct (nth_error ls j); exact H. }
    destruct (spec_step eqk ls c) as [a ls1]; specialize (IH ls1 H1 P2); destruct (spec_run eqk ls1 cs); exact IH. }
  apply H; constructor; [exact Logic.I|constructor].
Qed.
End Map.
