(** * Products and sums *)
From Verif.Base Require Import Base.
From Verif.Ir Require Import Model.
From Verif.Layout Require Import Model Spec.
Local Open Scope N_scope.

Lemma pad_spec s a : a <> 0 -> (a | s + pad s a) /\ pad s a < a.
Proof.
  intro A. unfold pad. split; [|apply N.mod_lt; exact A].
  pose proof (N.mod_lt s a A) as L. pose proof (N.div_mod s a A) as D.
  destruct (N.eq_dec (s mod a) 0) as [Z|Z].
  - rewrite Z, N.sub_0_r, N.mod_same, N.add_0_r by exact A. apply N.mod_divide; assumption.
  - rewrite (N.mod_small (a - s mod a)) by lia. exists (s / a + 1). nia.
Qed.

Lemma divide_2_pow i j : i <= j -> (2 ^ i | 2 ^ j).
Proof. intro L. exists (2 ^ (j - i)). rewrite <- N.pow_add_r. f_equal. lia. Qed.

(** Zero or a power of two. *)
Definition pow2 (a : N) : Prop := a = 0 \/ exists k, a = 2 ^ k.

Lemma pow2_pos k : 2 ^ k <> 0.
Proof. apply N.pow_nonzero. lia. Qed.

Lemma pow2_le a b : pow2 a -> pow2 b -> a <= b -> multiple_of a b.
Proof.
  intros [->|[i ->]] [->|[j ->]] L; try (left; reflexivity).
  - pose proof (pow2_pos i). lia.
  - right. apply divide_2_pow. destruct (N.le_gt_cases i j) as [H|H]; [exact H|].
    assert (2 ^ j < 2 ^ i) by (apply N.pow_lt_mono_r; lia). lia.
Qed.

Lemma pow2_max a b : pow2 a -> pow2 b -> pow2 (N.max a b).
Proof. intros A B. destruct (N.max_spec a b) as [[_ ->]|[_ ->]]; assumption. Qed.

Lemma ok_pow2 l : ok l -> pow2 (align l).
Proof. intros [[_ A]|[_ [K _]]]; [left; exact A|right; exact K]. Qed.

Lemma ok_multiple l : ok l -> multiple_of (align l) (size l).
Proof.
  intros [[_ A]|[_ [[k K] M]]]; [left; exact A|right]. apply N.mod_divide; [|exact M]. rewrite K. apply pow2_pos.
Qed.

(** ** Maxima over lists *)
Section Max.
Variable A : Type.
Variable f : A -> N.
Definition maxl (l : list A) : N := fold_left (fun a e => N.max (f e) a) l 0.

Lemma fold_max l : forall a, fold_left (fun a e => N.max (f e) a) l a = N.max a (maxl l).
Proof.
  unfold maxl. induction l as [|x l IH]; intro a; cbn; [lia|]. rewrite IH, (IH (N.max (f x) 0)). lia.
Qed.

Lemma maxl_cons x l : maxl (x :: l) = N.max (f x) (maxl l).
Proof. unfold maxl at 1. cbn. rewrite fold_max. lia. Qed.

Lemma maxl_ge l x : In x l -> f x <= maxl l.
Proof. induction l as [|y l IH]; intros []; rewrite maxl_cons; subst; [lia|]. specialize (IH H). lia. Qed.

Lemma maxl_pow2 l : Forall (fun x => pow2 (f x)) l -> pow2 (maxl l).
Proof.
  induction 1 as [|x l H _ IH]; [left; reflexivity|]. rewrite maxl_cons. apply pow2_max; assumption.
Qed.

Lemma maxl_in l : maxl l = 0 \/ exists x, In x l /\ f x = maxl l.
Proof.
  induction l as [|x l IH]; [left; reflexivity|]. rewrite maxl_cons.
  destruct (N.max_spec (f x) (maxl l)) as [[_ E]|[_ E]]; rewrite E.
  - destruct IH as [IH|[y [I F]]]; [left; exact IH|]. right. exists y. split; [right; exact I|exact F].
  - right. exists x. split; [left; reflexivity|reflexivity].
Qed.
End Max.

(** ** Placing elements *)

(** The end of the last element. *)
Fixpoint final (offset : N) (ls : list layout) : N :=
  match ls with
  | [] => offset
  | l :: ls => final ((if align l =? 0 then offset else offset + pad offset (align l)) + size l) ls
  end.

Lemma final_fold ls : forall offset,
  fold_left (fun _ e => fst e + size (snd e)) (iter_with_offset offset ls) offset = final offset ls.
Proof.
  induction ls as [|l ls IH]; intro offset; cbn; [reflexivity|]. rewrite <- IH.
  destruct (iter_with_offset _ ls); reflexivity.
Qed.

Lemma final_zero ls : fold_left (fun _ e => fst e + size (snd e)) (iter_with_offset 0 ls) 0 = final 0 ls.
Proof. apply final_fold. Qed.

Lemma final_ge ls : forall offset, offset <= final offset ls.
Proof.
  induction ls as [|l ls IH]; intro offset; cbn; [lia|]. etransitivity; [|apply IH].
  destruct (align l =? 0); lia.
Qed.

Lemma iter_snd ls : forall offset, map snd (iter_with_offset offset ls) = ls.
Proof. induction ls as [|l ls IH]; intro o; cbn; [reflexivity|]. f_equal. apply IH. Qed.

Lemma iter_spec ls : Forall ok ls -> forall offset,
  Forall aligned (iter_with_offset offset ls) /\ in_order (iter_with_offset offset ls) /\
  Forall (fun e => offset <= fst e /\ end_of e <= final offset ls) (iter_with_offset offset ls).
Proof.
  induction 1 as [|l ls Hl _ IH]; intro offset; cbn.
  - repeat split; constructor.
  - set (o := if align l =? 0 then offset else offset + pad offset (align l)).
    assert (O : offset <= o) by (unfold o; destruct (align l =? 0); lia).
    destruct (IH (o + size l)) as (A & B & C).
    split; [|split].
    + constructor; [|exact A]. unfold aligned, o. cbn. destruct (N.eqb_spec (align l) 0) as [Z|Z]; [left; exact Z|].
      right. apply pad_spec, Z.
    + constructor; [|exact B]. eapply Forall_impl; [|exact C]. intros e [E _]. unfold end_of. cbn. exact E.
    + constructor.
      * cbn. split; [exact O|]. unfold end_of. cbn. apply final_ge.
      * eapply Forall_impl; [|exact C]. intros e [E F]. split; [lia|exact F].
Qed.

(** ** Products *)

Definition p_align (ls : list layout) : N := maxl _ align ls.

Lemma product_align ls : align (product ls) = p_align ls.
Proof.
  unfold product, new, with_composite, p_align, maxl. cbn [align].
  rewrite <- (iter_snd ls 0) at 2. generalize (iter_with_offset 0 ls) as es. intro es. generalize 0 as a.
  induction es as [|e es IH]; intro a; cbn; [reflexivity|apply IH].
Qed.

Lemma product_size ls : size (product ls) =
  if p_align ls =? 0 then final 0 ls else final 0 ls + pad (final 0 ls) (p_align ls).
Proof.
  rewrite <- product_align. unfold product, new, with_composite. cbn [align size]. rewrite final_zero. reflexivity.
Qed.

Lemma product_composite ls : composite (product ls) =
  Some (iter_with_offset 0 ls, flat_map components_of (iter_with_offset 0 ls)).
Proof. reflexivity. Qed.

Lemma product_ge ls : final 0 ls <= size (product ls).
Proof. rewrite product_size. destruct (p_align ls =? 0); lia. Qed.

Lemma final_all_zero ls : Forall ok ls -> p_align ls = 0 -> final 0 ls = 0.
Proof.
  unfold p_align. induction 1 as [|l ls H _ IH]; [reflexivity|]. rewrite maxl_cons. intro E.
  assert (A : align l = 0) by lia. assert (B : maxl _ align ls = 0) by lia. cbn. rewrite A. cbn.
  destruct H as [[-> _]|[_ [[k K] _]]]; [apply IH, B|]. rewrite A in K. symmetry in K. now apply pow2_pos in K.
Qed.

Lemma ok_align_zero l : ok l -> (align l = 0 <-> size l = 0).
Proof.
  intros [[S A]|[S [[k K] _]]]; [tauto|]. rewrite K. split; intro H; [|lia]. now apply pow2_pos in H.
Qed.

Lemma forall_align ls : Forall ok ls -> Forall (fun x => pow2 (align x)) ls.
Proof. apply Forall_impl. apply ok_pow2. Qed.

Lemma final_size ls l : Forall ok ls -> In l ls -> size l <= final 0 ls.
Proof.
  intros F I. destruct (iter_spec ls F 0) as (_ & _ & C). rewrite Forall_forall in C.
  rewrite <- (iter_snd ls 0) in I. apply in_map_iff in I. destruct I as (e & <- & I).
  destruct (C e I) as [_ E]. unfold end_of in E. lia.
Qed.

Lemma product_ok ls : Forall ok ls -> ok (product ls).
Proof.
  intro F. destruct (N.eq_dec (p_align ls) 0) as [Z|Z].
  - left. rewrite product_align, product_size, Z. cbn. split; [apply final_all_zero; assumption|reflexivity].
  - right. rewrite product_align, product_size. rewrite (proj2 (N.eqb_neq _ _) Z).
    destruct (maxl_pow2 _ align ls (forall_align ls F)) as [K|K]; [contradiction|]. split; [|split; [exact K|]].
    + destruct (maxl_in _ align ls) as [M|(x & I & M)]; [contradiction|].
      assert (size x <> 0).
      { intro S. apply Z. unfold p_align. rewrite <- M. apply ok_align_zero; [|exact S].
        rewrite Forall_forall in F. apply F, I. }
      pose proof (final_size ls x F I). lia.
    + apply N.mod_divide; [exact Z|]. apply pad_spec, Z.
Qed.

Lemma product_placed ls : Forall ok ls -> placed (product ls) (iter_with_offset 0 ls).
Proof.
  intro F. destruct (iter_spec ls F 0) as (A & B & C). split; [exact A|]. split; [exact B|].
  rewrite Forall_forall in C |- *. intros e I. destruct (C e I) as [_ E].
  pose proof (product_ge ls). split; [lia|]. rewrite product_align.
  assert (In (snd e) ls) by (rewrite <- (iter_snd ls 0); apply in_map, I).
  rewrite Forall_forall in F. apply pow2_le.
  - apply ok_pow2, F. assumption.
  - apply maxl_pow2, forall_align, Forall_forall, F.
  - apply (maxl_ge _ align). assumption.
Qed.

(** ** Layouts built from leaves by products *)

Inductive good : layout -> Prop :=
| good_leaf l : ok l -> class_ok l -> composite l = None -> good l
| good_product ls : Forall good ls -> good (product ls).

Lemma good_ind2 (Q : layout -> Prop) :
  (forall l, ok l -> class_ok l -> composite l = None -> Q l) ->
  (forall ls, Forall good ls -> Forall Q ls -> Q (product ls)) ->
  forall l, good l -> Q l.
Proof.
  intros HL HP. fix IH 2. intros l [l' O C N|ls F].
  - apply HL; assumption.
  - apply HP; [exact F|]. induction F as [|x xs Hx _ IHF]; constructor; [apply IH, Hx|exact IHF].
Qed.

Lemma good_ok l : good l -> ok l.
Proof. revert l. apply good_ind2; [auto|]. intros ls _. apply product_ok. Qed.

(** The undivided parts. *)
Definition parts (l : layout) : list (N * layout) :=
  match composite l with Some (_, cs) => cs | None => [(0, l)] end.

Lemma components_parts o l : components_of (o, l) = map (fun c => (o + fst c, snd c)) (parts l).
Proof.
  unfold components_of, parts. cbn. destruct (composite l) as [[es cs]|]; [reflexivity|]. cbn. now rewrite N.add_0_r.
Qed.

Record parts_ok (l : layout) : Prop := {
  po_placed : placed l (parts l);
  po_leaf : forall p f, In (p, f) (parts l) <-> leaf l p f;
  po_good : forall p f, In (p, f) (parts l) -> good f /\ composite f = None;
  po_first : 0 < size l -> exists f, In (0, f) (parts l) /\ 0 < size f;
  po_last : 0 < size l -> exists p f, In (p, f) (parts l) /\ size l < p + size f + align l /\ 0 < size f;
  po_align : align l <> 0 -> exists p f, In (p, f) (parts l) /\ align f = align l }.

Lemma in_order_app a b : in_order a -> in_order b ->
  (forall x y, In x a -> In y b -> end_of x <= fst y) -> in_order (a ++ b).
Proof.
  induction 1 as [|e es F _ IH]; intros B H; [exact B|]. cbn. constructor.
  - apply Forall_app. split; [exact F|]. apply Forall_forall. intros y I. apply H; [left; reflexivity|exact I].
  - apply IH; [exact B|]. intros x y I J. apply H; [right; exact I|exact J].
Qed.

Lemma in_order_shift o es : in_order es -> in_order (map (fun c => (o + fst c, snd c)) es).
Proof.
  induction 1 as [|e es F _ IH]; cbn; constructor; [|exact IH].
  rewrite Forall_map. eapply Forall_impl; [|exact F]. unfold end_of. cbn. intros e' E. lia.
Qed.

Lemma multiple_trans a b c : multiple_of a b -> multiple_of b c -> b <> 0 -> multiple_of a c.
Proof.
  intros [A|A] [B|B] N; try (left; exact A); [contradiction|]. right. eapply N.divide_trans; eauto.
Qed.

Lemma part_elem l p f : parts_ok l -> good l -> In (p, f) (parts l) ->
  p + size f <= size l /\ multiple_of (align f) p /\ multiple_of (align f) (align l).
Proof.
  intros [(A & B & C) _ _ _ _ _] _ I. rewrite Forall_forall in A, C. destruct (C _ I) as [C1 C2].
  split; [exact C1|]. split; [exact (A _ I)|exact C2].
Qed.

Lemma flat_order es : in_order es -> Forall (fun e => good (snd e) /\ parts_ok (snd e)) es ->
  in_order (flat_map components_of es).
Proof.
  induction 1 as [|[o l] es F _ IH]; intro G; cbn; [constructor|]. inversion G as [|? ? [Gl Pl] Gs]; subst. cbn in Gl, Pl.
  apply in_order_app; [|apply IH, Gs|].
  - rewrite components_parts. apply in_order_shift, (po_placed _ Pl).
  - intros x y Ix Iy. rewrite components_parts in Ix. apply in_map_iff in Ix. destruct Ix as ([p f] & <- & Ip).
    apply in_flat_map in Iy. destruct Iy as ([o' l'] & Io' & Iy). rewrite Forall_forall in F, Gs.
    specialize (F _ Io'). destruct (Gs _ Io') as [Gl' Pl']. rewrite components_parts in Iy.
    apply in_map_iff in Iy. destruct Iy as ([p' f'] & <- & Ip').
    destruct (part_elem l p f Pl Gl Ip) as [E _]. unfold end_of in *. cbn in *. lia.
Qed.

(** The last element that is not empty ends where the whole ends before it is padded. *)
Lemma last_elem ls : Forall ok ls -> forall offset, offset < final offset ls ->
  exists o l, In (o, l) (iter_with_offset offset ls) /\ 0 < size l /\ o + size l = final offset ls.
Proof.
  induction 1 as [|l ls Hl F IH]; intros offset L; cbn in *; [lia|].
  set (o := if align l =? 0 then offset else offset + pad offset (align l)) in *.
  destruct (N.eq_dec (final (o + size l) ls) (o + size l)) as [E|E].
  - exists o, l. split; [left; reflexivity|]. split; [|symmetry; exact E].
    destruct (N.eq_dec (size l) 0) as [Z|Z]; [|lia]. apply (ok_align_zero _ Hl) in Z as A.
    unfold o in *. rewrite A in *. cbn in *. lia.
  - pose proof (final_ge ls (o + size l)). destruct (IH (o + size l) ltac:(lia)) as (o' & l' & I & P & Q).
    exists o', l'. split; [right; exact I|]. split; assumption.
Qed.

(** The first element that is not empty is at the start. *)
Lemma first_elem ls : Forall ok ls -> 0 < final 0 ls -> exists l, In (0, l) (iter_with_offset 0 ls) /\ 0 < size l.
Proof.
  induction 1 as [|l ls Hl F IH]; intro L; cbn in *; [lia|].
  assert (O : (if align l =? 0 then 0 else pad 0 (align l)) = 0).
  { destruct (N.eqb_spec (align l) 0) as [Z|Z]; [reflexivity|]. unfold pad.
    rewrite N.mod_0_l, N.sub_0_r, N.mod_same by exact Z. reflexivity. }
  rewrite O in *. destruct (N.eq_dec (size l) 0) as [Z|Z].
  - rewrite Z in *. destruct (IH L) as (x & I & P). exists x. split; [right; exact I|exact P].
  - exists l. split; [left; reflexivity|lia].
Qed.

Lemma parts_product ls : Forall good ls -> Forall parts_ok ls -> parts_ok (product ls).
Proof.
  intros G P.
  assert (F : Forall ok ls) by (eapply Forall_impl; [|exact G]; apply good_ok).
  set (es := iter_with_offset 0 ls).
  assert (E : Forall (fun e => good (snd e) /\ parts_ok (snd e)) es).
  { apply Forall_forall. intros e I. assert (J : In (snd e) ls) by (rewrite <- (iter_snd ls 0); apply in_map, I).
    rewrite Forall_forall in G, P. auto. }
  pose proof (product_placed ls F) as (PA & PB & PC). fold es in PA, PB, PC.
  assert (Parts : parts (product ls) = flat_map components_of es) by reflexivity.
  assert (In_parts : forall q f, In (q, f) (parts (product ls)) <->
            exists o l p, In (o, l) es /\ In (p, f) (parts l) /\ q = o + p).
  { intros q f. rewrite Parts, in_flat_map. split.
    - intros ([o l] & I & J). rewrite components_parts in J. apply in_map_iff in J.
      destruct J as ([p f'] & K & J). injection K as <- <-. cbn. eauto 6.
    - intros (o & l & p & I & J & ->). exists (o, l). split; [exact I|]. rewrite components_parts.
      apply in_map_iff. exists (p, f). split; [reflexivity|exact J]. }
  rewrite Forall_forall in E, PA, PC.
  split.
  - split; [|split].
    + apply Forall_forall. intros [q f] I. apply In_parts in I. destruct I as (o & l & p & I & J & ->).
      destruct (E _ I) as [Gl Pl]. cbn in Gl, Pl. destruct (part_elem l p f Pl Gl J) as (_ & A & B).
      unfold aligned. cbn. specialize (PA _ I). unfold aligned in PA. cbn in PA.
      destruct (N.eq_dec (align f) 0) as [Z|Z]; [left; exact Z|]. right.
      destruct A as [A|A]; [contradiction|]. apply N.divide_add_r; [|exact A].
      destruct B as [B|B]; [contradiction|]. destruct PA as [PA|PA].
      * rewrite PA in B.
        assert (size l = 0) by (apply ok_align_zero; [apply good_ok, Gl|exact PA]).
        destruct (part_elem l p f Pl Gl J) as (Ez & _ & _).
        assert (Sf : size f = 0) by lia. destruct (po_good _ Pl _ _ J) as [Gf _].
        apply (ok_align_zero f (good_ok f Gf)) in Sf. contradiction.
      * eapply N.divide_trans; eauto.
    + rewrite Parts. apply flat_order; [exact PB|]. apply Forall_forall. exact E.
    + apply Forall_forall. intros [q f] I. apply In_parts in I. destruct I as (o & l & p & I & J & ->).
      destruct (E _ I) as [Gl Pl]. cbn in Gl, Pl. destruct (part_elem l p f Pl Gl J) as (A & _ & B).
      destruct (PC _ I) as [C D]. unfold end_of in *. cbn in *. split; [lia|].
      destruct (N.eq_dec (align l) 0) as [Z|Z].
      * assert (size l = 0) by (apply ok_align_zero; [apply good_ok, Gl|exact Z]).
        left. apply ok_align_zero; [apply good_ok; apply (po_good _ Pl _ _ J)|lia].
      * eapply multiple_trans; eauto.
  - intros q f. rewrite In_parts. split.
    + intros (o & l & p & I & J & ->). destruct (E _ I) as [Gl Pl]. cbn in Gl, Pl.
      eapply leaf_elem; [apply product_composite|exact I|]. apply (po_leaf _ Pl), J.
    + intro L. inversion L as [? C|? es0 cs0 o e p ? C I J]; subst; [discriminate C|].
      rewrite product_composite in C. injection C as <- <-. exists o, e, p. split; [exact I|]. split; [|reflexivity].
      destruct (E _ I) as [_ Pl]. apply (po_leaf _ Pl), J.
  - intros q f I. apply In_parts in I. destruct I as (o & l & p & I & J & ->).
    destruct (E _ I) as [_ Pl]. exact (po_good _ Pl _ _ J).
  - intro S. assert (L : 0 < final 0 ls).
    { destruct (N.eq_dec (p_align ls) 0) as [Z|Z].
      - rewrite product_size, Z in S. cbn in S. exact S.
      - destruct (maxl_in _ align ls) as [M|(x & I & M)]; [contradiction|].
        pose proof (final_size ls x F I). rewrite Forall_forall in F.
        destruct (N.eq_dec (size x) 0) as [W|W]; [|lia]. apply (ok_align_zero x (F x I)) in W.
        unfold p_align in Z. congruence. }
    destruct (first_elem ls F L) as (l & I & Sl). destruct (E _ I) as [_ Pl]. cbn in Pl.
    destruct (po_first _ Pl Sl) as (f & J & Sf). exists f. split; [|exact Sf]. apply In_parts.
    exists 0, l, 0. split; [exact I|]. split; [exact J|reflexivity].
  - intro S. pose proof (product_size ls) as Sz.
    assert (L : 0 < final 0 ls).
    { destruct (N.eq_dec (p_align ls) 0) as [Z|Z].
      - rewrite product_size, Z in S. cbn in S. exact S.
      - destruct (maxl_in _ align ls) as [M|(x & I & M)]; [contradiction|].
        pose proof (final_size ls x F I). rewrite Forall_forall in F.
        destruct (N.eq_dec (size x) 0) as [W|W]; [|lia]. apply (ok_align_zero x (F x I)) in W.
        unfold p_align in Z. congruence. }
    destruct (last_elem ls F 0 L) as (o & l & I & Sl & En).
    destruct (E _ I) as [Gl Pl]. cbn in Gl, Pl. destruct (po_last _ Pl Sl) as (p & f & J & Lt & Sf).
    exists (o + p), f. split; [apply In_parts; eauto 6|]. split; [|exact Sf].
    rewrite product_align. destruct (PC _ I) as [_ D]. rewrite product_align in D. cbn in D.
    assert (Al : align l <> 0) by (intro Z; apply (ok_align_zero l (good_ok l Gl)) in Z; lia).
    destruct D as [D|D]; [contradiction|].
    assert (Z : p_align ls <> 0).
    { intro Z. rewrite (final_all_zero ls F Z) in L. lia. }
    rewrite (proj2 (N.eqb_neq _ _) Z) in Sz.
    (* what is added is less than the alignment by at least that of the last element *)
    assert (Mo : (align l | o)) by (destruct (PA _ I) as [K|K]; [contradiction|exact K]).
    assert (Ms : (align l | size l)) by (destruct (ok_multiple l (good_ok l Gl)) as [K|K]; [contradiction|exact K]).
    assert (Mf : (align l | final 0 ls)) by (rewrite <- En; apply N.divide_add_r; assumption).
    destruct (pad_spec (final 0 ls) (p_align ls) Z) as [Mp Lp].
    assert (Mq : (align l | pad (final 0 ls) (p_align ls))).
    { apply (N.divide_add_cancel_r _ (final 0 ls)); [exact Mf|]. eapply N.divide_trans; [exact D|exact Mp]. }
    assert (Lq : pad (final 0 ls) (p_align ls) + align l <= p_align ls).
    { destruct Mq as [a Ea]. destruct D as [b Eb]. rewrite Ea, Eb in *.
      assert (a < b) by nia. nia. }
    lia.
  - intro A. rewrite product_align in A. destruct (maxl_in _ align ls) as [M|(x & I & M)]; [contradiction|].
    rewrite <- (iter_snd ls 0) in I. apply in_map_iff in I. destruct I as ([o l] & Ex & I). cbn in Ex. subst x.
    destruct (E _ I) as [_ Pl]. cbn in Pl. fold (p_align ls) in M.
    destruct (po_align _ Pl ltac:(congruence)) as (p & f & J & Ef). exists (o + p), f.
    split; [apply In_parts; eauto 6|]. rewrite product_align. congruence.
Qed.

Lemma good_parts l : good l -> parts_ok l.
Proof.
  revert l. apply good_ind2; [|apply parts_product].
  intros l O C N. assert (Pt : parts l = [(0, l)]) by (unfold parts; now rewrite N).
  split; rewrite ?Pt.
  - split; [|split].
    + constructor; [|constructor]. right. apply N.divide_0_r.
    + repeat constructor.
    + constructor; [|constructor]. unfold end_of. cbn. split; [lia|]. right. apply N.divide_refl.
  - intros p f. split.
    + intros [E|[]]. injection E as <- <-. constructor. exact N.
    + intro L. inversion L; subst; [left; reflexivity|congruence].
  - intros p f [E|[]]. injection E as <- <-. split; [apply good_leaf; assumption|exact N].
  - intro S. exists l. split; [left; reflexivity|exact S].
  - intro S. exists 0, l. split; [left; reflexivity|].
    split; [|exact S]. destruct O as [[Z _]|[_ [[k K] _]]]; [lia|]. rewrite K. pose proof (pow2_pos k). lia.
  - intros _. exists 0, l. split; [left; reflexivity|reflexivity].
Qed.
