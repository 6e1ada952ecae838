(** * Classes and eightbytes *)
From Verif.Base Require Import Base.
From Verif.Ir Require Import Model.
From Verif.Layout Require Import Model Spec Proofs.
Local Open Scope N_scope.

Definition joins (cs : list class) : class := fold_right merge Void cs.

Lemma merge_comm a b : merge a b = merge b a.
Proof. destruct a, b; reflexivity. Qed.

Lemma merge_assoc a b c : merge a (merge b c) = merge (merge a b) c.
Proof. destruct a, b, c; reflexivity. Qed.

Lemma merge_void a : merge a Void = a.
Proof. destruct a; reflexivity. Qed.

Lemma fold_joins {A} (f : A -> class) es : forall c,
  fold_left (fun c e => merge c (f e)) es c = merge c (joins (map f es)).
Proof.
  induction es as [|e es IH]; intro c; cbn; [symmetry; apply merge_void|]. rewrite IH. symmetry. apply merge_assoc.
Qed.

Lemma fold_joins' {A} (f : A -> class) es : forall c,
  fold_left (fun c e => merge (f e) c) es c = merge c (joins (map f es)).
Proof.
  induction es as [|e es IH]; intro c; cbn; [symmetry; apply merge_void|]. rewrite IH, (merge_comm (f e) c).
  symmetry. apply merge_assoc.
Qed.

Lemma joins_cons c cs : joins (c :: cs) = merge c (joins cs).
Proof. reflexivity. Qed.

Lemma joins_in cs : In (joins cs) cs \/ (cs = [] /\ joins cs = Void).
Proof.
  induction cs as [|c cs IH]; [right; auto|]. left. rewrite joins_cons. destruct IH as [IH|[-> _]].
  - destruct c, (joins cs); cbn in *; auto.
  - left. destruct c; reflexivity.
Qed.

Definition rank (c : class) : nat := match c with Void => 0 | FloatingPoint => 1 | Integer => 2 | Memory => 3 end.

Lemma joins_ge cs c : In c cs -> (rank c <= rank (joins cs))%nat.
Proof.
  induction cs as [|d cs IH]; intros []; rewrite joins_cons.
  - subst. destruct c, (joins cs); cbn; lia.
  - specialize (IH H). destruct d, (joins cs); cbn in *; lia.
Qed.

(** ** The class of a product *)

Lemma product_cls ls : cls (product ls) =
  if size (product ls) =? 0 then Void else if 16 <? size (product ls) then Memory else joins (map cls ls).
Proof.
  unfold product at 1, new, with_composite. cbn [cls]. rewrite final_zero.
  pose proof (product_align ls) as A. unfold product, new, with_composite in A. cbn [align] in A. rewrite A.
  rewrite <- product_size. rewrite (fold_joins' (fun e => cls (snd e))). cbn [merge].
  rewrite <- (map_map snd cls), iter_snd. destruct (joins (map cls ls)); reflexivity.
Qed.

Lemma size_cases (n : N) : n = 0 \/ (0 < n /\ n <= 16) \/ 16 < n.
Proof. lia. Qed.

Lemma product_class ls : Forall ok ls -> Forall class_ok ls -> class_ok (product ls).
Proof.
  intros F C. unfold class_ok. rewrite product_cls.
  destruct (size_cases (size (product ls))) as [Z|[[L U]|B]].
  - rewrite Z. cbn. split; split; intro H; try discriminate; try reflexivity; lia.
  - rewrite (proj2 (N.eqb_neq _ _)) by lia. rewrite (proj2 (N.ltb_ge _ _)) by lia.
    rewrite Forall_forall in C.
    assert (Small : forall l, In l ls -> cls l <> Memory).
    { intros l I M. apply (C l I) in M. pose proof (final_size ls l F I). pose proof (product_ge ls). lia. }
    assert (Big : exists l, In l ls /\ cls l <> Void).
    { assert (Z : p_align ls <> 0).
      { intro Z. pose proof (final_all_zero ls F Z) as E. rewrite product_size, Z in L. cbn in L. lia. }
      destruct (maxl_in _ align ls) as [M|(x & I & M)]; [contradiction|]. exists x. split; [exact I|].
      intro V. apply (C x I) in V. rewrite Forall_forall in F. apply (ok_align_zero x (F x I)) in V.
      unfold p_align in Z. congruence. }
    split; split; intro H; try lia.
    + destruct (joins_in (map cls ls)) as [I|[_ E]]; [|congruence].
      rewrite H in I. apply in_map_iff in I. destruct I as (l & E & I). now apply Small in I.
    + destruct Big as (l & I & V). pose proof (joins_ge (map cls ls) (cls l) (in_map cls ls l I)) as G.
      rewrite H in G. destruct (cls l); cbn in G; try lia. now contradiction V.
  - rewrite (proj2 (N.eqb_neq _ _)) by lia. rewrite (proj2 (N.ltb_lt _ _) B).
    split; split; intro H; try discriminate; try reflexivity; lia.
Qed.

Lemma good_class l : good l -> class_ok l.
Proof.
  revert l. apply good_ind2; [auto|]. intros ls G C. apply product_class; [|exact C].
  eapply Forall_impl; [|exact G]. apply good_ok.
Qed.

(** ** The classes of eightbytes *)

Lemma class_small l : class_ok l -> 0 < size l -> size l <= 16 -> cls l = Integer \/ cls l = FloatingPoint.
Proof.
  intros [M V] L U. destruct (cls l); auto.
  - pose proof (proj1 V eq_refl). lia.
  - pose proof (proj1 M eq_refl). lia.
Qed.

(** Some part that is not empty reaches into each eightbyte. *)
Lemma touched l i : good l -> 0 < size l -> size l <= 16 -> 8 * i < size l ->
  exists p f, In (p, f) (parts l) /\ touches (8 * i) p f /\ 0 < size f.
Proof.
  intros G L U I. pose proof (good_parts l G) as P. pose proof (good_ok l G) as O.
  assert (Ci : i = 0 \/ i = 1) by lia. destruct Ci as [->| ->].
  - destruct (po_first l P L) as (f & J & S). exists 0, f. split; [exact J|]. unfold touches. split; [lia|exact S].
  - destruct O as [[Z _]|[_ [[k K] M]]]; [lia|].
    assert (A0 : align l <> 0) by (rewrite K; apply pow2_pos).
    apply N.mod_divide in M; [|exact A0]. destruct M as [m M].
    destruct (N.le_gt_cases (align l) 8) as [A|A].
    + destruct (po_last l P L) as (p & f & J & Lt & S). exists p, f. split; [exact J|].
      destruct (part_elem l p f P G J) as (E & _ & _).
      assert (D : (align l | 8)).
      { rewrite K in *. change 8 with (2 ^ 3). apply divide_2_pow. destruct (N.le_gt_cases k 3) as [H|H]; [exact H|].
        assert (2 ^ 3 < 2 ^ k) by (apply N.pow_lt_mono_r; lia). change (2 ^ 3) with 8 in *. lia. }
      destruct D as [d D]. assert (d < m) by nia. assert (8 + align l <= size l) by nia.
      unfold touches. split; [split; lia|exact S].
    + destruct (po_align l P A0) as (p & f & J & Ef). destruct (part_elem l p f P G J) as (E & _ & _).
      destruct (po_good l P p f J) as [Gf _]. pose proof (good_ok f Gf) as Of.
      assert (A16 : 16 <= align l).
      { rewrite K in *. change 16 with (2 ^ 4). apply N.pow_le_mono_r; [lia|].
        destruct (N.le_gt_cases 4 k) as [H|H]; [exact H|].
        assert (2 ^ k <= 2 ^ 3) by (apply N.pow_le_mono_r; lia). change (2 ^ 3) with 8 in *. lia. }
      destruct Of as [[_ Z]|[Sf [_ Mf]]]; [lia|]. rewrite Ef in Mf. apply N.mod_divide in Mf; [|exact A0].
      apply N.divide_pos_le in Mf; [|exact Sf]. exists p, f. split; [exact J|]. unfold touches. split; [|exact Sf]. lia.
Qed.

Lemma eightbyte_class_parts l o : class_ok l -> 0 < size l -> o < size l ->
  eightbyte_class l o =
  joins (map (fun e => cls (snd e))
    (filter (fun e => (o <? size (snd e) + fst e) && (fst e <? o + 8)) (parts l))).
Proof.
  intros _ L B. unfold eightbyte_class, parts. destruct (composite l) as [[es cs]|].
  - rewrite (fold_joins (fun e => cls (snd e))). destruct (joins _); reflexivity.
  - cbn. rewrite N.add_0_r. rewrite (proj2 (N.ltb_lt _ _) B). rewrite (proj2 (N.ltb_lt _ _)) by lia. cbn.
    destruct (cls l); reflexivity.
Qed.

Lemma eightbyte_has_class l i : good l -> 0 < size l -> size l <= 16 -> 8 * i < size l ->
  has_class l (8 * i) (eightbyte_class l (8 * i)).
Proof.
  intros G L U B. rewrite (eightbyte_class_parts l (8 * i) (good_class l G) L B).
  pose proof (good_parts l G) as P. destruct (touched l i G L U B) as (p0 & f0 & I0 & T0 & S0).
  set (touching := filter _ (parts l)).
  assert (In_t : forall p f, In (p, f) touching <-> (leaf l p f /\ touches (8 * i) p f)).
  { intros p f. unfold touching. rewrite filter_In. cbn. rewrite (po_leaf l P). unfold touches.
    rewrite andb_true_iff, !N.ltb_lt. split; intros [A C]; (split; [exact A|lia]). }
  set (cs := map (fun e => cls (snd e)) touching).
  assert (C0 : forall p f, leaf l p f -> touches (8 * i) p f -> In (cls f) cs).
  { intros p f A C. unfold cs. apply in_map_iff. exists (p, f). split; [reflexivity|]. apply In_t. auto. }
  assert (Small : forall p f, leaf l p f -> class_ok f /\ size f <= 16).
  { intros p f A. apply (po_leaf l P) in A. split; [apply good_class, (po_good l P p f A)|].
    destruct (part_elem l p f P G A) as [E _]. lia. }
  apply (po_leaf l P) in I0.
  destruct (Small p0 f0 I0) as [Cf0 Uf0]. pose proof (C0 p0 f0 I0 T0) as In0.
  pose proof (joins_ge cs (cls f0) In0) as G0.
  destruct (joins_in cs) as [J|[E _]]; [|rewrite E in In0; destruct In0].
  unfold cs in J at 2. apply in_map_iff in J. destruct J as ([p f] & E & J). cbn in E. apply In_t in J.
  destruct J as [A T]. destruct (Small p f A) as [Cf Uf].
  destruct (joins cs) eqn:Ej; cbn.
  - destruct (class_small f0 Cf0 S0 Uf0) as [E0|E0]; rewrite E0 in G0; cbn in G0; lia.
  - exists p, f. auto.
  - split; [exists p, f; auto|]. intros q g Aq Tq Sq. destruct (Small q g Aq) as [Cg Ug].
    destruct (class_small g Cg Sq Ug) as [Eg|Eg]; [|exact Eg]. pose proof (joins_ge cs (cls g) (C0 q g Aq Tq)) as Gg.
    rewrite Ej, Eg in Gg. cbn in Gg. lia.
  - apply Cf in E. lia.
Qed.

Lemma cover_from l n : forall i, N.of_nat n = (size l - 8 * N.of_nat i + 7) / 8 -> 8 * N.of_nat i <= size l ->
  eightbytes_cover (8 * N.of_nat i)
    (map (fun i => let offset := N.of_nat i * 8 in
        Eightbyte offset (N.min (size l - offset) 8) (eightbyte_class l offset)) (List.seq i n)) (size l).
Proof.
  induction n as [|n IH]; intros i E L; cbn [List.seq map].
  - cbn [eightbytes_cover]. destruct (N.eq_dec (size l - 8 * N.of_nat i) 0) as [Z|Z]; [lia|].
    assert (1 <= (size l - 8 * N.of_nat i + 7) / 8) by (apply N.div_le_lower_bound; lia). lia.
  - set (rest := size l - 8 * N.of_nat i) in *.
    assert (R : rest <> 0) by (intro Z; rewrite Z in E; cbn in E; lia).
    cbn [eightbytes_cover e_offset e_size]. split; [lia|]. split; [lia|].
    destruct (N.le_gt_cases rest 8) as [Sm|Sm].
    + assert (n = O).
      { assert ((rest + 7) / 8 < 2) by (apply N.div_lt_upper_bound; lia). lia. }
      subst n. split; [left; reflexivity|]. cbn [map List.seq eightbytes_cover]. unfold rest in *. lia.
    + split; [right; unfold rest in *; lia|].
      replace (8 * N.of_nat i + N.min (size l - N.of_nat i * 8) 8) with (8 * N.of_nat (S i)) by (unfold rest in *; lia).
      apply IH; [|unfold rest in *; lia].
      replace (rest + 7) with (size l - 8 * N.of_nat (S i) + 7 + 1 * 8) in E by (unfold rest in *; lia).
      rewrite N.div_add in E by lia. lia.
Qed.

Lemma eightbytes_cover_all l : eightbytes_cover 0 (eightbytes l) (size l).
Proof.
  apply (cover_from l (N.to_nat (num_eightbytes l)) 0); [|lia]. rewrite N2Nat.id. cbn. rewrite N.sub_0_r. reflexivity.
Qed.

Lemma eightbytes_have_class l : good l -> 0 < size l <= 16 ->
  Forall (fun e => has_class l (e_offset e) (e_class e)) (eightbytes l).
Proof.
  intros G [L U]. unfold eightbytes. rewrite Forall_map. apply Forall_forall. intros i I. apply in_seq in I.
  cbn. rewrite N.mul_comm. apply eightbyte_has_class; try assumption.
  assert (B : N.of_nat i < (size l + 7) / 8) by (unfold num_eightbytes in I; lia).
  pose proof (N.mul_div_le (size l + 7) 8 ltac:(lia)). nia.
Qed.

(** ** Structures and unions *)

Lemma packed_iter al total ls : forall offset, final offset ls <= total ->
  (total = final offset ls \/ total < final offset ls + al) ->
  packed al offset (iter_with_offset offset ls) total.
Proof.
  induction ls as [|l ls IH]; intros offset A B; cbn in *; [auto|].
  set (o := if align l =? 0 then offset else offset + pad offset (align l)) in *.
  split; [unfold o; destruct (align l =? 0); lia|]. split; [|apply IH; assumption].
  unfold o. destruct (N.eqb_spec (align l) 0) as [Z|Z]; [left; reflexivity|right].
  destruct (pad_spec offset (align l) Z). lia.
Qed.

Lemma product_struct ls : Forall good ls -> struct_layout ls (product ls).
Proof.
  intro G. assert (F : Forall ok ls) by (eapply Forall_impl; [|exact G]; apply good_ok).
  pose proof (good_parts _ (good_product ls G)) as P. split.
  - rewrite product_align. destruct (maxl_in _ align ls) as [M|(x & I & M)]; [left; exact M|right].
    unfold p_align. rewrite <- M. apply in_map, I.
  - exists (iter_with_offset 0 ls), (parts (product ls)).
    split; [reflexivity|]. split; [apply iter_snd|]. split; [apply product_placed, F|].
    split; [|split; [apply (po_placed _ P)|apply (po_leaf _ P)]].
    apply packed_iter; rewrite product_size; [destruct (p_align ls =? 0); lia|].
    rewrite product_align. destruct (N.eqb_spec (p_align ls) 0) as [Z|Z]; [left; reflexivity|right].
    destruct (pad_spec (final 0 ls) (p_align ls) Z). lia.
Qed.

Definition s_size (ls : list layout) : N := maxl _ size ls.

Lemma sum_align ls : align (sum ls) = p_align ls.
Proof. reflexivity. Qed.

Lemma sum_size ls : size (sum ls) =
  if p_align ls =? 0 then s_size ls else s_size ls + pad (s_size ls) (p_align ls).
Proof. reflexivity. Qed.

Lemma sum_zero ls : Forall ok ls -> p_align ls = 0 -> s_size ls = 0.
Proof.
  intros F Z. destruct (maxl_in _ size ls) as [M|(x & I & M)]; [exact M|]. unfold s_size. rewrite <- M.
  rewrite Forall_forall in F. apply (ok_align_zero x (F x I)). pose proof (maxl_ge _ align ls x I).
  unfold p_align in Z. lia.
Qed.

Lemma sum_ok ls : Forall ok ls -> ok (sum ls).
Proof.
  intro F. destruct (N.eq_dec (p_align ls) 0) as [Z|Z].
  - left. rewrite sum_align, sum_size, Z. cbn. split; [apply sum_zero; assumption|reflexivity].
  - right. rewrite sum_align, sum_size. rewrite (proj2 (N.eqb_neq _ _) Z).
    destruct (maxl_pow2 _ align ls (forall_align ls F)) as [K|K]; [contradiction|]. split; [|split; [exact K|]].
    + destruct (maxl_in _ align ls) as [M|(x & I & M)]; [contradiction|].
      assert (size x <> 0).
      { intro S. apply Z. unfold p_align. rewrite <- M. rewrite Forall_forall in F.
        apply ok_align_zero; [apply F, I|exact S]. }
      pose proof (maxl_ge _ size ls x I). unfold s_size. lia.
    + apply N.mod_divide; [exact Z|]. apply pad_spec, Z.
Qed.

Lemma sum_cls ls : cls (sum ls) =
  if size (sum ls) =? 0 then Void else if 16 <? size (sum ls) then Memory else merge Integer (joins (map cls ls)).
Proof.
  unfold sum at 1, new. cbn [cls]. rewrite (fold_joins' cls). reflexivity.
Qed.

Lemma sum_class ls : Forall class_ok ls -> class_ok (sum ls).
Proof.
  intro C. unfold class_ok. rewrite sum_cls. destruct (size_cases (size (sum ls))) as [Z|[[L U]|B]].
  - rewrite Z. cbn. split; split; intro H; try discriminate; try reflexivity; lia.
  - rewrite (proj2 (N.eqb_neq _ _)) by lia. rewrite (proj2 (N.ltb_ge _ _)) by lia.
    assert (M : joins (map cls ls) <> Memory).
    { intro M. destruct (joins_in (map cls ls)) as [I|[_ E]]; [|congruence].
      rewrite M in I. apply in_map_iff in I. destruct I as (l & E & I). rewrite Forall_forall in C. apply (C l I) in E.
      pose proof (maxl_ge _ size ls l I). rewrite sum_size in U. unfold s_size in U. destruct (p_align ls =? 0); lia. }
    destruct (joins (map cls ls)); cbn [merge]; (split; split; intro H; try discriminate; try lia; congruence).
  - rewrite (proj2 (N.eqb_neq _ _)) by lia. rewrite (proj2 (N.ltb_lt _ _) B).
    split; split; intro H; try discriminate; try reflexivity; lia.
Qed.

Lemma sum_good ls : Forall good ls -> good (sum ls).
Proof.
  intro G. apply good_leaf; [apply sum_ok|apply sum_class|reflexivity]; (eapply Forall_impl; [|exact G]).
  - apply good_ok.
  - apply good_class.
Qed.

Lemma sum_union ls : Forall good ls -> union_layout ls (sum ls).
Proof.
  intro G. assert (F : Forall ok ls) by (eapply Forall_impl; [|exact G]; apply good_ok).
  split; [|split; [|split; [|reflexivity]]].
  - rewrite sum_align. destruct (maxl_in _ align ls) as [M|(x & I & M)]; [left; exact M|right].
    unfold p_align. rewrite <- M. apply in_map, I.
  - apply Forall_forall. intros a I. split.
    + rewrite sum_size. pose proof (maxl_ge _ size ls a I). unfold s_size. destruct (p_align ls =? 0); lia.
    + rewrite sum_align. rewrite Forall_forall in F. apply pow2_le; [apply ok_pow2, F, I| |apply (maxl_ge _ align), I].
      apply maxl_pow2, forall_align, Forall_forall, F.
  - rewrite sum_align, sum_size. destruct (N.eqb_spec (p_align ls) 0) as [Z|Z].
    + left. apply sum_zero; assumption.
    + right. destruct (pad_spec (s_size ls) (p_align ls) Z) as [_ L].
      destruct (maxl_in _ size ls) as [M|(x & I & M)].
      * destruct (maxl_in _ align ls) as [M'|(x & I & M')]; [contradiction|]. exists x. split; [exact I|].
        unfold s_size in *. rewrite M in *. pose proof (maxl_ge _ size ls x I). lia.
      * exists x. split; [exact I|]. unfold s_size in *. lia.
Qed.
