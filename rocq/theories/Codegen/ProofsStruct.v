(** Structures. *)
From Coq Require Import ZArith Lia.
From Verif.Base Require Import Base.
From Verif.Ir Require Import Model RtInd.
From Verif.Layout Require Import Model Spec Proofs ProofsResolve.
From Verif.Frame Require Model.
From Verif.Frame Require Spec Proofs.
From Verif.Stack Require Import Machine Model Spec Facts Proofs ProofsValue ProofsMove.
From Verif.Codegen Require Import Model Machine Spec Facts ProofsGen ProofsFrame ProofsRun ProofsInv ProofsStatic ProofsEval ProofsSimple ProofsHeap ProofsAlloc ProofsEach.
Local Open Scope Z_scope.

Section Cases.
Variable M : machine.
Variable r : resolver.
Variable known : nat -> bool.
Variable start : Z.
Variable F : nat.
Variable b : Z.
Variable offs : list (nat * Z).
Hypothesis X : setting M r start F b.

Notation heap_ok := (heap_ok start).
Notation leads := (leads M).
Notation code_at := (code_at M F).
Notation chain := (chain (type_words r) offs).
Notation placed := (placed (type_words r) offs).
Notation placed_lets := (placed_lets (type_words r) offs).
Notation kept := (kept start b).
Notation lev := (lev b).
Notation vars_ok := (vars_ok start b offs).
Notation konts_ok := (konts_ok M r F offs).
Notation Inv := (Inv M r start F b offs).
Notation At := (At M r start F b offs).
Notation leaves := (leaves M start F b offs).
Notation gen := (gen r known offs).
Notation fine := (fine (balanced r)).
Notation world := (world (memo M)).
Notation fun_address := (fun f => address M f 0).

Notation Dyn := (Dyn M r start F b offs).
Notation Peval := (Peval M r start F b offs known).
Ltac setting := let a := fresh "Xb" in let c := fresh "Xs" in pose proof (x_below X) as a; pose proof (x_start X) as c.
Ltac pos := repeat rewrite app_length; cbn [fst keep map List.length]; unfold at_rdi; lia.

(** ** Structures *)
Lemma nth_patch (o : nat) (u v : val) i : (o + List.length u <= List.length v)%nat ->
  nth_error (firstn o v ++ u ++ skipn (o + List.length u) v) i =
  if (o <=? i)%nat && (i <? o + List.length u)%nat then nth_error u (i - o) else nth_error v i.
Proof.
  intros L. pose proof (firstn_length o v) as L1. destruct (Nat.leb_spec o i) as [A|A]; cbn [andb].
  - rewrite nth_error_app2 by lia. replace (i - List.length (firstn o v))%nat with (i - o)%nat by lia. destruct (Nat.ltb_spec i (o + List.length u)).
    + rewrite nth_error_app1 by lia. reflexivity.
    + rewrite nth_error_app2 by lia. rewrite nth_skipn. f_equal. lia.
  - rewrite nth_error_app1 by lia. rewrite nth_firstn. destruct (Nat.ltb_spec i o); [reflexivity | lia].
Qed.
Lemma patch_length o u v : (N.to_nat o + List.length u <= List.length v)%nat -> List.length (patch o u v) = List.length v.
Proof. intros L. unfold patch. rewrite !app_length, firstn_length, skipn_length. lia. Qed.
Lemma holds_patch m m' a o u v : (N.to_nat o + List.length u <= List.length v)%nat -> holds m a v -> holds m' (a + Z.of_N o) u ->
  (forall x, x < a + Z.of_N o \/ a + Z.of_N o + Z.of_nat (List.length u) <= x -> m' x = m x) -> holds m' a (patch o u v).
Proof.
  intros L Hv Hu Hs i z Hi. unfold patch in Hi. rewrite nth_patch in Hi by exact L. destruct (Nat.leb_spec (N.to_nat o) i) as [A|A]; cbn [andb] in Hi.
  - destruct (Nat.ltb_spec i (N.to_nat o + List.length u)).
    + specialize (Hu _ _ Hi). replace (a + Z.of_nat i) with (a + Z.of_N o + Z.of_nat (i - N.to_nat o)) by lia. exact Hu.
    + unfold cell. rewrite Hs by lia. apply Hv, Hi.
  - unfold cell. rewrite Hs by lia. apply Hv, Hi.
Qed.
Lemma patches_snoc o l u : forall es vs v, List.length es = List.length vs -> patches (es ++ [(o, l)]) (vs ++ [u]) v = patch o u (patches es vs v).
Proof.
  induction es as [|[o' l'] es IH]; intros [|u' vs] v L; cbn in L; try discriminate; [reflexivity|]. cbn [app patches]. apply IH. congruence.
Qed.
Lemma firstn_snoc {A} (l : list A) i x : nth_error l i = Some x -> firstn (Datatypes.S i) l = firstn i l ++ [x].
Proof.
  revert i. induction l as [|y l IH]; intros [|i] H; cbn in H; try discriminate; [injection H as ->; reflexivity|]. cbn [firstn app]. f_equal. now apply IH.
Qed.

Lemma set_field_static o l : usable l -> 8 * snd (set_field o l) = - taken l.
Proof. intros U. unfold set_field. cbn [Stack.Model.andthen keep snd]. pose proof (store_static at_rdi l U (rdi_ok 0)). lia. Qed.
Lemma after_fields (elems : list (N * layout)) i k l cc : nth_error (map (fun e l => Ret (set_field (fst e) l)) elems) i = Some k -> k l = Ret cc ->
  exists o l', nth_error elems i = Some (o, l') /\ cc = set_field o l.
Proof. intros H. rewrite nth_error_map in H. destruct (nth_error elems i) as [[o l']|]; [|discriminate]. injection H as <-. intros H. exists o, l'. split; [reflexivity|]. cbn in H. congruence. Qed.

(** The area [b - 8 * d] up to [b - 8 * depth g0] holds [v]. *)
Lemma field_step K G ks n m g0 s0 lt d v o l u g (w : world) s : At K G ks n m g0 s0 g w s -> 8 * depth g = 8 * d + taken l -> 8 * d = 8 * depth g0 + room lt ->
  good l -> has l u s -> (o + size l <= size lt)%N -> holds (mem s) (b - 8 * d) v -> List.length v = length_of lt ->
  let cc := set_field o l in
  At K G ks n m g0 s0 (set_depth (depth g + snd cc) g) w (run (fst cc) s) /\ depth g + snd cc = d /\
  holds (mem (run (fst cc) s)) (b - 8 * d) (patch o u v).
Proof.
  intros A De Dd Gl V Lo Hv Lv cc. setting. destruct (top X A) as (T1 & T2 & T3 & T4 & T5 & T6). pose proof (good_usable l Gl) as U.
  pose proof (has_length l u s V) as Lu. unfold length_of in *. pose proof (room_size lt) as Rm. pose proof (taken_bounds l) as Tb.
  set (z := b - 8 * d + Z.of_N o). set (s1 := set_gp Rdi z s).
  assert (E1 : run (fst cc) s = run (fst (store at_rdi l)) s1).
  { unfold cc, set_field. cbn [Stack.Model.andthen keep fst]. cbn [run app]. f_equal. unfold s1. cbn [step]. f_equal.
    unfold ea. cbn [at_rsp base index disp]. pose proof (value_taken l). unfold z. lia. }
  assert (A1 : At K G ks n m g0 s0 g w s1) by (apply (at_set X); [exact A | reflexivity | discriminate]).
  assert (V1 : has l u s1) by now apply has_set.
  assert (Ea : ea at_rdi s1 = z) by (unfold ea; cbn [at_rdi base index disp]; change (gp s1 Rdi) with z; lia).
  assert (R1 : gp s1 Rsp = gp s Rsp) by reflexivity.
  destruct (store_has at_rdi l u s1 U (rdi_ok 0) V1) as (H1 & H2 & H3 & H4 & H5).
  { rewrite Ea, R1. intros x Hx. unfold z in Hx. lia. }
  rewrite Ea in *. set (s' := run (fst (store at_rdi l)) s1) in *.
  assert (Es : snd cc = snd (store at_rdi l)) by reflexivity.
  rewrite E1. split; [|split; [lia|]].
  - eapply at_stack; [lia | exact A1 | exact H4 | unfold z; lia | apply rest_same, H5 | apply run_norm; [apply clean_store | apply A1] | | | reflexivity]; cbn [set_depth depth]; lia.
  - eapply holds_patch; [lia | exact Hv | exact H1|]. intros x Hx. unfold z in *. apply H4. lia.
Qed.

Section Struct.
Variables (G : env) (ks : Frame.Spec.conts) (t : ct) (es : list rt) (l : layout) (elems : list (N * layout)) (cs : list (N * layout)).
Variables (vs : list (layout * val)) (w w' : world) (x : option result).
Hypothesis Hg : get r t = Ret l.
Hypothesis Hc : composite l = Some (elems, cs).
Hypothesis Hl : List.length es = List.length elems.
Hypothesis Hm : map fst vs = firstn (List.length vs) (map snd elems).
Hypothesis E : Evs M r known start F b offs G ks es w w' vs x.

Lemma struct_good : good l. Proof. eapply layout_good; eassumption. Qed.
Lemma struct_elem_of i l' v o l'' : nth_error vs i = Some (l', v) -> nth_error elems i = Some (o, l'') -> l'' = l' /\ good l' /\ (o + size l' <= size l)%N.
Proof.
  intros Hv He. assert (l'' = l') as ->.
  { pose proof (nth_bound _ _ _ Hv) as Bv. apply (map_nth_error fst) in Hv. cbn in Hv. rewrite Hm in Hv. rewrite nth_firstn in Hv.
    destruct (Nat.ltb_spec i (List.length vs)); [|discriminate]. apply (map_nth_error snd) in He. cbn in He. congruence. }
  split; [reflexivity|]. exact (good_elem _ _ _ _ _ struct_good Hc (nth_error_In _ _ He)).
Qed.
Lemma struct_static used g c og g' : gen_each gen (map (fun e l => Ret (set_field (fst e) l)) elems) es g = Ret (c, og, g') -> Forall (fine used) es -> incl (map fst (conts g)) used ->
  match x with
  | None => og = Some tt /\ depth g' = depth g /\ conts g' = conts g
  | Some o => is_jump o -> ~ Forall jumpless es
  end.
Proof.
  intros H Fi Iu. apply (each_static _ _ _ _ _ _ _ _ _ _ _ _ _ _ E _ (fun _ => depth g) used _ _ _ _ H); [rewrite map_length; congruence | exact Fi | exact Iu | reflexivity|].
  intros i k l' v cc Hk Hv Gl Hcc. destruct (after_fields _ _ _ _ _ Hk Hcc) as (o & l'' & He & ->). pose proof (set_field_static o l' (good_usable _ Gl)). lia.
Qed.
Lemma struct_ok used g c og g' K n m g0 s0 p s : gen_each gen (map (fun e l => Ret (set_field (fst e) l)) elems) es g = Ret (c, og, g') -> Forall (fine used) es -> incl (map fst (conts g)) used ->
  code_at p c -> Forall (placed n m) es -> At K G ks n m g0 s0 g w s -> 8 * depth g = 8 * depth g0 + room l ->
  leads (fun cf => match x with
                   | None => exists s', cf = Config F (p + List.length c) s' (fst w') /\ At K G ks n m g0 s0 g' w' s' /\
                      holds (mem s') (b - 8 * depth g) (patches elems (map snd vs) (undefined (length_of l))) /\ List.length (patches elems (map snd vs) (undefined (length_of l))) = length_of l
                   | Some o => leaves K n o w' s0 cf
                   end) (Config F p s (fst w)).
Proof.
  intros H Fi Iu C Pl A D. set (d := depth g) in *. setting.
  set (val_at := fun i => patches (firstn i elems) (firstn i (map snd vs)) (undefined (length_of l))).
  eapply leads_trans; [refine (each_ok _ _ _ _ _ _ _ _ _ _ _ _ _ _ E _ used _ _ _ _ H _ Fi Iu K n m p s
    (fun i g w s => At K G ks n m g0 s0 g w s /\ depth g = d /\ holds (mem s) (b - 8 * d) (val_at i) /\ List.length (val_at i) = length_of l) C Pl _ _ _)|].
  - rewrite map_length. congruence.
  - intros i g1 w1 s1 [A1 _]. apply A1.
  - intros i k l' v cc g1 w1 s1 g2 w2 s2 Hk Hv Gl Hcc (A1 & D1 & Ho1 & L1) A2 De V.
    destruct (after_fields _ _ _ _ _ Hk Hcc) as (o & l'' & He & ->). destruct (struct_elem_of _ _ _ _ _ Hv He) as (-> & _ & Lo).
    pose proof (map_nth_error snd _ _ Hv) as Hv'. cbn [snd] in Hv'.
    assert (Ev : val_at (Datatypes.S i) = patch o v (val_at i)).
    { unfold val_at. rewrite (firstn_snoc _ _ _ He), (firstn_snoc _ _ _ Hv'). apply patches_snoc.
      pose proof (nth_bound _ _ _ He). pose proof (nth_bound _ _ _ Hv'). rewrite !firstn_length. lia. }
    assert (Ho2 : holds (mem s2) (b - 8 * d) (val_at i)).
    { pose proof (top X A1) as (T1 & T2 & T3 & T4 & T5 & T6). pose proof (room_size l). unfold length_of in L1.
      eapply (holds_kept X); [apply (a_kept A2) | exact Ho1 | lia | rewrite L1; lia | apply (i_levels (a_inv A1))]. }
    destruct (field_step _ _ _ _ _ _ _ l d _ o l' v _ _ _ (at_trans A1 A2) ltac:(lia) ltac:(lia) Gl V Lo Ho2 L1) as (A3 & D3 & Ho3).
    split; [exact A3|]. split; [exact D3|]. rewrite Ev. split; [exact Ho3|]. rewrite patch_length; [exact L1|].
    pose proof (has_length _ _ _ V). unfold length_of in *. lia.
  - split; [exact A|]. split; [reflexivity|]. unfold val_at. cbn [firstn patches]. split; [|apply repeat_length].
    intros i z Hi. apply nth_error_In in Hi. apply repeat_spec in Hi. discriminate.
  - intros cf Hcf. apply leads_here. destruct x as [o|].
    + destruct Hcf as (i & g1 & w1 & s1 & (A1 & _) & Hlv). eapply leaves_from; eassumption.
    + destruct Hcf as (s' & -> & A1 & _ & Ho1 & L2). exists s'. split; [reflexivity|]. split; [exact A1|].
      unfold val_at in Ho1, L2. pose proof (Evs_length _ _ _ _ _ _ _ _ _ _ _ _ _ E) as L1. rewrite !firstn_all2 in Ho1, L2 by (rewrite ?map_length; lia). auto.
Qed.
End Struct.

Lemma map_fst_combine {A B} (xs : list A) (ys : list B) : List.length ys = List.length xs -> map fst (combine xs ys) = xs.
Proof. revert ys. induction xs as [|x xs IH]; intros [|y ys] L; cbn in *; try discriminate; [reflexivity|]. f_equal. apply IH. congruence. Qed.
Lemma map_snd_combine {A B} (xs : list A) (ys : list B) : List.length ys = List.length xs -> map snd (combine xs ys) = ys.
Proof. revert ys. induction xs as [|x xs IH]; intros [|y ys] L; cbn in *; try discriminate; [reflexivity|]. f_equal. apply IH. congruence. Qed.

Lemma struct_code t es g c og g' l elems cs : gen (RConstructStruct t es) g = Ret (c, og, g') -> get r t = Ret l -> composite l = Some (elems, cs) ->
  exists ce oe ge c', c = map I (fst (extend_stack l)) ++ ce ++ c' /\
  gen_each gen (map (fun e l => Ret (set_field (fst e) l)) elems) es (set_depth (depth g + snd (extend_stack l)) g) = Ret (ce, oe, ge) /\
  (oe = Some tt -> og = Some l /\ g' = set_depth (depth ge + snd (pop l)) ge /\ c' = map I (fst (pop l))).
Proof.
  intros H Hg Hc. cbn [Model.gen] in H. apply need_then in H. destruct H as (l' & El & H). rewrite Hg in El. injection El as <-.
  apply emit_then in H. destruct H as (c1 & H & ->). apply need_then in H. destruct H as (elems' & Ee & H). rewrite Hc in Ee. injection Ee as <-.
  apply andthen_inv in H. destruct H as (ce & oe & ge & He & H). exists ce, oe, ge. destruct oe as [[]|].
  - destruct H as (c2 & H & ->). exists c2. split; [reflexivity|]. split; [exact He|]. intros _. apply emit_then in H. destruct H as (c3 & H & ->).
    apply ret_inv in H. destruct H as (-> & -> & ->). rewrite app_nil_r. auto.
  - destruct H as (-> & _ & _). exists []. rewrite app_nil_r. split; [reflexivity|]. split; [exact He | discriminate].
Qed.
Lemma ev_struct G ks t es l elems cs ls vs w w' : get r t = Ret l -> composite l = Some (elems, cs) -> ls = map snd elems ->
  Evs M r known start F b offs G ks es w w' (combine ls vs) None -> List.length vs = List.length ls ->
  Peval G ks (RConstructStruct t es) w w' (OVal l (patches elems vs (undefined (length_of l)))).
Proof.
  intros Hg Hc -> E Lv used g c og g' H Fi Iu. destruct (struct_code _ _ _ _ _ _ _ _ _ H Hg Hc) as (ce & oe & ge & c' & -> & He & Hr).
  assert (Le : List.length es = List.length elems). { pose proof (Evs_length _ _ _ _ _ _ _ _ _ _ _ _ _ E) as L1. rewrite combine_length, map_length in *. lia. }
  assert (Hm : map fst (combine (map snd elems) vs) = firstn (List.length (combine (map snd elems) vs)) (map snd elems)).
  { rewrite map_fst_combine by exact Lv. rewrite combine_length, firstn_all2 by lia. reflexivity. }
  assert (Fe : Forall (fine used) es). { apply Forall_forall. intros y Hy. apply (fine_of y Fi eq_refl Hy). }
  destruct (struct_static _ _ _ _ _ _ _ _ Le E _ _ _ _ _ He Fe Iu) as (-> & D1 & Co). destruct (Hr eq_refl) as (-> & -> & ->).
  pose proof (layout_good X Hg) as Gl. pose proof (extend_static l) as Es. pose proof (pop_static l (good_usable _ Gl)) as Po. cbn [set_depth depth] in D1. split.
  - cbn [stat]. split; [reflexivity|]. split; [exact Gl|]. cbn [set_depth depth]. lia.
  - apply by_value. intros K n m q s Q C P A HQ. apply code_at_app in C. destruct C as [C C1]. apply code_at_app in C1. destruct C1 as [C1 C2]. apply plain in P; [|reflexivity].
    destruct (at_extend X l A) as (A1 & DA & _). eapply leads_emit; [exact C|].
    eapply leads_trans; [eapply (struct_ok _ _ t _ _ _ _ _ _ _ _ Hg Hc Le Hm E used); [exact He | exact Fe | exact Iu | exact C1 | exact P | exact A1 | exact DA]|].
    rewrite map_snd_combine by exact Lv. intros cf (s2 & -> & A2 & Ho & Lp). eapply leads_emit; [exact C2|].
    destruct (at_pop X l _ A2 Gl Lp) as (A3 & D3 & V3 & _).
    { rewrite D1. exact Ho. }
    { pose proof (taken_bounds l). lia. }
    eapply leads_pos; [|apply (HQ _ A3 V3)]. pos.
Qed.
Lemma ev_struct_abrupt G ks t es l elems cs vs w w' o : get r t = Ret l -> composite l = Some (elems, cs) -> List.length es = List.length elems ->
  Evs M r known start F b offs G ks es w w' vs (Some o) -> map fst vs = firstn (List.length vs) (map snd elems) ->
  Peval G ks (RConstructStruct t es) w w' o.
Proof.
  intros Hg Hc Le E Hm used g c og g' H Fi Iu. destruct (struct_code _ _ _ _ _ _ _ _ _ H Hg Hc) as (ce & oe & ge & c' & -> & He & _).
  pose proof (Evs_abrupt _ _ _ _ _ _ _ _ _ _ _ _ _ _ E) as Ab.
  assert (Fe : Forall (fine used) es). { apply Forall_forall. intros y Hy. apply (fine_of y Fi eq_refl Hy). }
  pose proof (struct_static _ _ _ _ _ _ _ _ Le E _ _ _ _ _ He Fe Iu) as St. cbn in St. split.
  - apply stat_abrupt; [exact Ab|]. intros J N. apply (St J). apply Forall_forall. intros y Hy. eapply jumpless_child; [exact N | exact Hy].
  - apply by_abrupt; [exact Ab|]. intros K n m q s C P A. apply code_at_app in C. destruct C as [C C1]. apply code_at_app in C1. destruct C1 as [C1 C2]. apply plain in P; [|reflexivity].
    destruct (at_extend X l A) as (A1 & DA & _). eapply leads_emit; [exact C|].
    exact (struct_ok _ _ t _ _ _ _ _ _ _ _ Hg Hc Le Hm E used _ _ _ _ _ _ _ _ _ _ _ He Fe Iu C1 P A1 DA).
Qed.
End Cases.
