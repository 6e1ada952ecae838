(** * The pass over all data types *)
From Verif.Base Require Import Base VecFacts.
From Verif.Ir Require Import Model Spec.
From Verif.Topo Require Spec Properties.
From Verif.Data Require Import Model Spec Proofs ProofsTypes.

Lemma get_in m id x : get m id = Some x -> In (id, x) m.
Proof.
  induction m as [|[i y] m IH]; cbn; [discriminate|]. destruct (Nat.eqb_spec i id) as [->|].
  - intro H. injection H as <-. now left.
  - intro H. right. auto.
Qed.

Lemma get_none m id : get m id = None <-> ~ In id (map fst m).
Proof.
  induction m as [|[i y] m IH]; cbn; [tauto|]. destruct (Nat.eqb_spec i id) as [->|].
  - split; [discriminate|tauto].
  - rewrite IH. tauto.
Qed.

Lemma computed_total d named e : c_compatible d -> exists x e', compute_data_expansion d named e = Ret (x, e').
Proof.
  unfold c_compatible, compute_data_expansion. destruct d as [repr kons]. cbn [d_cons d_repr]. intro C.
  destruct kons as [|f [|g kons]].
  - eauto.
  - unfold boxed_struct_on, struct_on, c_struct_on.
    destruct repr, f as [|t [|]], named; try destruct (add_def e _); eexists _, _; reflexivity.
  - set (ks := f :: g :: kons) in *.
    assert (Fin : forall b e1, exists x e', match repr with DBoxed => Ret (boxed_tagged_on e1 (List.length ks) b)
                    | _ => Ret (tagged_on e1 (List.length ks) b) end = Ret (x, e')).
    { intros b e1. unfold boxed_tagged_on, tagged_on. destruct repr; destruct (add_def e1 _); eexists _, _; reflexivity. }
    destruct repr; [| |specialize (C eq_refl); cbn in C; lia].
    all: set (c := List.length (filter _ ks)) in *; destruct c as [|[|c']] eqn:K; subst c; eauto.
    all: try (destruct (find_nonempty_spec ks 0 K) as (i & u & -> & Hi & Nu & O);
      cbn [bind Nat.add]; destruct u as [|t [|t2 u]]; [contradiction|apply Fin|];
      destruct (add_def e _); apply Fin).
    all: destruct (union_on e ks); apply Fin.
Qed.

Lemma computed_fresh d named e x e' : compute_data_expansion d named e = Ret (x, e') ->
  (exists t, x = EAlias t /\ named = false /\ d_cons d = [[t]]) \/
  forall u, In u (uses (to_ct x)) -> (next e <= u)%nat.
Proof.
  intro H. assert (F := proj1 (computed_defined _ _ _ _ _ H)). revert H.
  unfold compute_data_expansion. destruct d as [repr kons]. cbn [d_cons d_repr]. intro H.
  destruct kons as [|f [|g kons]].
  - injection H as <- <-. right. intros u [].
  - unfold boxed_struct_on, struct_on, c_struct_on in H.
    destruct repr, f as [|t [|]], named; injection H as <- <-; try (right; cbn; lia); left; eauto.
  - right. set (ks := f :: g :: kons) in *.
    assert (Fin : forall b e1, (next e <= next e1)%nat ->
       match repr with DBoxed => Ret (boxed_tagged_on e1 (List.length ks) b)
                    | _ => Ret (tagged_on e1 (List.length ks) b) end = Ret (x, e') ->
       forall u, In u (uses (to_ct x)) -> (next e <= u)%nat).
    { intros b e1 Le E u. unfold boxed_tagged_on, tagged_on in E.
      destruct repr; injection E as <- <-; cbn; lia. }
    destruct repr; [| |discriminate H].
    all: set (c := List.length (filter _ ks)) in *; destruct c as [|[|c']] eqn:K; subst c.
    all: try (injection H as <- <-; cbn; intros u []).
    all: try (destruct (find_nonempty_spec ks 0 K) as (i & u & E & Hi & Nu & O); rewrite E in H;
      cbn [bind Nat.add] in H; destruct u as [|t [|t2 u]]; [contradiction|eapply Fin; [|exact H]; lia|];
      unfold add_def in H; (eapply Fin; [|exact H]); cbn; lia).
    all: unfold union_on in H; destruct (add_structs e ks) as [ids e1] eqn:A;
      pose proof (proj1 (proj1 (proj1 (add_structs_fine _ _ _ _ A)))) as L;
      unfold add_def in H; (eapply Fin; [|exact H]); cbn; lia.
Qed.

(** [x] was computed for [id], in a group of [gs], between [e] and [e']. *)
Definition origin (gs : list (list (nat * data))) (e e' : Model.env) (id : nat) (x : expansion) : Prop :=
  exists g d named e0 e1, In g gs /\ In (id, d) g /\ should_be_named g = Ret named /\
    compute_data_expansion d named e0 = Ret (x, e1) /\ fine e e0 /\ fine e1 e'.

Lemma expand_group_spec named : forall g m e, Forall (fun p => c_compatible (snd p)) g ->
  exists m' e', expand_group named g m e = Ret (m', e') /\ fine e e' /\
    (forall i, In i (map fst m') <-> In i (map fst g) \/ In i (map fst m)) /\
    forall id x, In (id, x) m' -> In (id, x) m \/
      exists d e0 e1, In (id, d) g /\ compute_data_expansion d named e0 = Ret (x, e1) /\ fine e e0 /\ fine e1 e'.
Proof.
  induction g as [|[id d] g IH]; intros m e C; cbn [expand_group].
  - exists m, e. split; [reflexivity|]. split; [apply fine_refl|]. split; [cbn; tauto|auto].
  - inversion C as [|p l C1 C2]; subst. destruct (computed_total d named e C1) as (x & e1 & E). rewrite E.
    cbn [bind]. destruct (IH ((id, x) :: m) e1 C2) as (m' & e' & -> & F & K & O).
    pose proof (proj1 (computed_defined _ _ _ _ _ E)) as F1.
    exists m', e'. split; [reflexivity|]. split; [eapply fine_trans; eauto|]. split.
    + intro i. rewrite K. cbn. tauto.
    + intros i y I. destruct (O i y I) as [[Eq|I']|(d' & a & b & I' & E' & Fa & Fb)].
      * injection Eq as <- <-. right. exists d, e, e1. split; [now left|]. split; [exact E|]. split; [apply fine_refl|exact F].
      * now left.
      * right. exists d', a, b. split; [now right|]. split; [exact E'|]. split; [eapply fine_trans; eauto|exact Fb].
Qed.

Lemma expand_groups_spec : forall gs m e, Forall (fun g => g <> []) gs ->
  Forall (Forall (fun p => c_compatible (snd p))) gs ->
  exists m' e', expand_groups gs m e = Ret (m', e') /\ fine e e' /\
    (forall i, In i (map fst m') <-> In i (map fst (List.concat gs)) \/ In i (map fst m)) /\
    forall id x, In (id, x) m' -> In (id, x) m \/ origin gs e e' id x.
Proof.
  induction gs as [|g gs IH]; intros m e N C; cbn [expand_groups].
  - exists m, e. split; [reflexivity|]. split; [apply fine_refl|]. split; [cbn; tauto|auto].
  - inversion N as [|g' l N1 N2]; inversion C as [|g'' l' C1 C2]; subst.
    assert (S : exists named, should_be_named g = Ret named).
    { destruct g as [|? [|]]; [contradiction|cbn; eauto|cbn; eauto]. }
    destruct S as [named S]. rewrite S. cbn [bind].
    destruct (expand_group_spec named g m e C1) as (m1 & e1 & -> & F1 & K1 & O1). cbn [bind].
    destruct (IH m1 e1 N2 C2) as (m' & e' & -> & F2 & K2 & O2).
    exists m', e'. split; [reflexivity|]. split; [eapply fine_trans; eauto|]. split.
    + intro i. rewrite K2, K1. cbn [List.concat]. rewrite map_app, in_app_iff. tauto.
    + intros id x I. destruct (O2 id x I) as [I1|(g' & d & nm & a & b & Ig & Id & Sn & E & Fa & Fb)].
      * destruct (O1 id x I1) as [I0|(d & a & b & Id & E & Fa & Fb)]; [now left|]. right.
        exists g, d, named, a, b. split; [now left|]. split; [exact Id|]. split; [exact S|].
        split; [exact E|]. split; [exact Fa|]. exact (fine_trans _ _ _ Fb F2).
      * right. exists g', d, nm, a, b. split; [now right|]. split; [exact Id|]. split; [exact Sn|].
        split; [exact E|]. split; [eapply fine_trans; eauto|exact Fb].
Qed.

Definition keyed (dts : list (nat * data)) : list (nat * (nat * data)) := map (fun x => (fst x, x)) dts.
Definition dep (x : nat * data) : list nat := data_uses (snd x).

Lemma keyed_keys dts : map fst (keyed dts) = map fst dts.
Proof. unfold keyed. rewrite map_map. reflexivity. Qed.

Lemma keyed_nth dts i k v : nth_error (keyed dts) i = Some (k, v) -> k = fst v /\ nth_error dts i = Some v.
Proof.
  unfold keyed. rewrite nth_error_map. destruct (nth_error dts i) as [w|]; cbn; [|discriminate].
  intro H. injection H as <- <-. auto.
Qed.

Lemma forall2_nth {A B} (R : A -> B -> Prop) l m a x : Forall2 R l m -> nth_error l a = Some x ->
  exists y, nth_error m a = Some y /\ R x y.
Proof.
  intro F. revert a. induction F; intros [|a] H0; try discriminate H0; cbn in *.
  - injection H0 as <-. eauto.
  - auto.
Qed.

Lemma forall2_nth_r {A B} (R : A -> B -> Prop) l m a y : Forall2 R l m -> nth_error m a = Some y ->
  exists x, nth_error l a = Some x /\ R x y.
Proof.
  intro F. revert a. induction F; intros [|a] H0; try discriminate H0; cbn in *.
  - injection H0 as <-. eauto.
  - auto.
Qed.

(** The items of a group are items of the input, at a position of that group. *)
Lemma group_item dts gs pos a g v :
  Topo.Spec.positions (keyed dts) gs pos -> nth_error gs a = Some g -> In v g ->
  exists i, Topo.Spec.in_group pos a i /\ nth_error dts i = Some v.
Proof.
  intros P Hg Hv. destruct (forall2_nth _ _ _ _ _ P Hg) as (q & Hq & F).
  apply In_nth_error in Hv. destruct Hv as [b Hb].
  destruct (forall2_nth _ _ _ _ _ F Hb) as (i & Hi & k & Hk).
  exists i. split; [exists q; split; [exact Hq|eapply nth_error_In; exact Hi]|].
  apply keyed_nth in Hk. tauto.
Qed.

(** Every input item is in a group. *)
Lemma item_group dts gs pos i v :
  Topo.Spec.positions (keyed dts) gs pos ->
  Permutation.Permutation (List.concat pos) (List.seq 0 (List.length (keyed dts))) ->
  nth_error dts i = Some v ->
  exists a g, Topo.Spec.in_group pos a i /\ nth_error gs a = Some g /\ In v g.
Proof.
  intros P Pm Hi.
  assert (I : In i (List.concat pos)).
  { eapply Permutation.Permutation_in; [apply Permutation.Permutation_sym; exact Pm|].
    apply in_seq. unfold keyed. rewrite map_length.
    assert (i < List.length dts)%nat by (apply nth_error_Some; congruence). lia. }
  apply in_concat in I. destruct I as (q & Iq & Ii).
  apply In_nth_error in Iq. destruct Iq as [a Ha].
  destruct (forall2_nth_r _ _ _ _ _ P Ha) as (g & Hg & F).
  exists a, g. split; [exists q; auto|]. split; [exact Hg|].
  apply In_nth_error in Ii. destruct Ii as [b Hb].
  destruct (forall2_nth_r _ _ _ _ _ F Hb) as (w & Hw & k & Hk).
  apply keyed_nth in Hk. destruct Hk as [_ Hk]. rewrite Hi in Hk. injection Hk as ->.
  eapply nth_error_In; exact Hw.
Qed.

Lemma nodup_position (dts : list (nat * data)) i j id d d' : NoDup (map fst dts) ->
  nth_error dts i = Some (id, d) -> nth_error dts j = Some (id, d') -> i = j.
Proof.
  intros N Hi Hj. eapply NoDup_nth_error; [exact N| |].
  - rewrite map_length. apply nth_error_Some. congruence.
  - rewrite !nth_error_map, Hi, Hj. reflexivity.
Qed.

(** Everything about [compute]. *)
Lemma compute_spec dts e :
  NoDup (map fst dts) -> Forall (fun p => c_compatible (snd p)) dts ->
  exists gs m e', Topo.Spec.sorted_by_dependencies dep (keyed dts) gs /\
    compute dts e = Ret (m, e') /\ fine e e' /\
    (forall i, In i (map fst m) <-> In i (map fst dts)) /\
    (forall g v, In g gs -> In v g -> In v dts) /\
    forall id x, get m id = Some x -> origin gs e e' id x.
Proof.
  intros N C.
  destruct (Topo.Properties.topological_sort_correct nat (nat * data) Nat.eqb dep Nat.eqb_eq (keyed dts))
    as (gs & R & S); [rewrite keyed_keys; exact N|].
  pose proof S as (pos & P & Pm & Ne & _).
  assert (Sub : forall g v, In g gs -> In v g -> In v dts).
  { intros g v Ig Iv. apply In_nth_error in Ig. destruct Ig as [a Ha].
    destruct (group_item _ _ _ _ _ _ P Ha Iv) as (i & _ & Hi). eapply nth_error_In; exact Hi. }
  destruct (expand_groups_spec gs [] e) as (m & e' & E & F & K & O).
  - clear - P Ne. induction P as [|g q gs pos F P IH]; inversion Ne; subst; constructor; auto.
    intros ->. inversion F; subst. tauto.
  - apply Forall_forall. intros g Ig. apply Forall_forall. intros v Iv.
    rewrite Forall_forall in C. apply C. eauto.
  - exists gs, m, e'. split; [exact S|]. split.
    { unfold compute. fold (keyed dts). change (fun x : nat * data => data_uses (snd x)) with dep.
      rewrite R. exact E. }
    split; [exact F|]. split; [|split; [exact Sub|]].
    + intro i. rewrite K. cbn. split.
      * intros [I|[]]. apply in_map_iff in I. destruct I as (v & <- & I).
        apply in_concat in I. destruct I as (g & Ig & Iv). apply in_map. eauto.
      * intro I. left. apply in_map_iff in I. destruct I as (v & <- & I).
        apply In_nth_error in I. destruct I as [j Hj].
        destruct (item_group _ _ _ _ _ P Pm Hj) as (a & g & _ & Hg & Ig).
        apply in_map. apply in_concat. exists g. split; [eapply nth_error_In; exact Hg|exact Ig].
    + intros id x G. apply get_in in G. destruct (O id x G) as [[]|O']. exact O'.
Qed.

(** ** Expanding types *)

Section Terminates.
Variable m : list (nat * expansion).

Definition finite (t : ct) : Prop :=
  exists t', conv (fun n => expand_ct n m t) t' /\ stands_for m t t'.

Lemma expand_step t r :
  conv (fun n => expand_ct (S n) m t) r -> conv (fun n => expand_ct n m t) r.
Proof. intro H. eapply conv_step; [|exact H]. reflexivity. Qed.

Lemma each_finite ts : Forall finite ts ->
  exists ts', conv (fun n => each (expand_ct n m) ts) ts' /\ Forall2 (stands_for m) ts ts'.
Proof.
  induction 1 as [|t ts (t' & C & S) F (ts' & Cs & Ss)]; [exists []; split; [apply conv_ret|constructor]|].
  exists (t' :: ts'). split; [|constructor; assumption]. cbn [each].
  apply (conv_bind (fun n => expand_ct n m t) (fun t n => let* ts := each (expand_ct n m) ts in Ret (t :: ts)) t'); [exact C|].
  apply (conv_bind (fun n => each (expand_ct n m) ts) (fun ts _ => Ret (t' :: ts)) ts'); [exact Cs|].
  apply conv_ret.
Qed.

Lemma wrap (f : ct -> ct) t t' :
  conv (fun n => expand_ct n m t) t' -> conv (fun n => let* t := expand_ct n m t in Ret (f t)) (f t').
Proof.
  intro C. apply (conv_bind (fun n => expand_ct n m t) (fun t _ => Ret (f t)) t'); [exact C|]. apply conv_ret.
Qed.

Lemma finite_if : forall t, (forall u, In u (uses t) -> get m u <> None -> finite (CtId u)) -> finite t.
Proof.
  fix IH 1.
  assert (IHs : forall ts, (forall u, In u (flat_map uses ts) -> get m u <> None -> finite (CtId u)) ->
    Forall finite ts).
  { fix IHs 1. intros [|t ts] H; constructor.
    - apply IH. intros u I. apply H. cbn. apply in_or_app. now left.
    - apply IHs. intros u I. apply H. cbn. apply in_or_app. now right. }
  intros t H. destruct t as [id|f args|t id|t|args r| | | | | | |t| | | |t]; cbn [uses] in H.
  1: { destruct (get m id) as [x|] eqn:G.
    - apply H; [now left|congruence].
    - exists (CtId id). split; [|now apply stands_id]. apply expand_step. cbn. rewrite G. apply conv_ret. }
  1: { destruct (IH f) as (f' & Cf & Sf); [intros u I; apply H; apply in_or_app; now left|].
    destruct (each_finite args) as (a' & Ca & Sa).
    { apply IHs. intros u I. apply H. apply in_or_app. now right. }
    exists (CtGenericInst f' a'). split; [|now constructor]. apply expand_step. cbn [expand_ct].
    apply (conv_bind (fun n => expand_ct n m f) (fun f n => let* args := each (expand_ct n m) args in Ret (CtGenericInst f args)) f'); [exact Cf|].
    apply (conv_bind (fun n => each (expand_ct n m) args) (fun args _ => Ret (CtGenericInst f' args)) a'); [exact Ca|].
    apply conv_ret. }
  1: { destruct (IH t H) as (t' & C & S). exists (CtTableGet t' id). split; [|now constructor].
    apply expand_step. exact (wrap (fun t => CtTableGet t id) _ _ C). }
  1: { destruct (IH t H) as (t' & C & S). exists (CtPtr t'). split; [|now constructor].
    apply expand_step. exact (wrap CtPtr _ _ C). }
  1: { destruct (IH r) as (r' & Cr & Sr); [intros u I; apply H; apply in_or_app; now right|].
    destruct (each_finite args) as (a' & Ca & Sa).
    { apply IHs. intros u I. apply H. apply in_or_app. now left. }
    exists (CtClos a' r'). split; [|now constructor]. apply expand_step. cbn [expand_ct].
    apply (conv_bind (fun n => each (expand_ct n m) args) (fun args n => let* r := expand_ct n m r in Ret (CtClos args r)) a'); [exact Ca|].
    exact (wrap (CtClos a') _ _ Cr). }
  7: { destruct (IH t H) as (t' & C & S). exists (CtArray t'). split; [|now constructor].
    apply expand_step. exact (wrap CtArray _ _ C). }
  10: { destruct (IH t H) as (t' & C & S). exists (CtSyntax t'). split; [|now constructor].
    apply expand_step. exact (wrap CtSyntax _ _ C). }
  all: eexists; split; [apply expand_step; apply conv_ret|now apply stands_other].
Qed.
End Terminates.

Lemma all_finite dts e m e' :
  NoDup (map fst dts) -> Forall (fun p => c_compatible (snd p)) dts ->
  (forall id, In id (map fst dts) -> (id < next e)%nat) ->
  compute dts e = Ret (m, e') -> forall t, finite m t.
Proof.
  intros N C B E t.
  destruct (compute_spec dts e N C) as (gs & m0 & e0 & S & E0 & F & K & Sub & O).
  rewrite E in E0. injection E0 as <- <-. destruct S as (pos & P & Pm & _ & D).
  apply finite_if. intros u _ G.
  assert (Item : forall u, get m u <> None -> exists i d a, nth_error dts i = Some (u, d) /\
    Topo.Spec.in_group pos a i).
  { intros w Gw. destruct (in_dec Nat.eq_dec w (map fst m)) as [I|I]; [|apply get_none in I; contradiction].
    apply K in I. apply in_map_iff in I. destruct I as ([w' d] & Ew & I). cbn in Ew. subst w'.
    apply In_nth_error in I. destruct I as [i Hi].
    destruct (item_group _ _ _ _ _ P Pm Hi) as (a & g & Ia & _). eauto. }
  destruct (Item u G) as (i & d & a & Hi & Ia). clear G. revert u i d Hi Ia.
  induction a as [a IH] using (well_founded_induction Wf_nat.lt_wf). intros u i d Hi Ia.
  destruct (get m u) as [x|] eqn:Gx.
  2:{ exists (CtId u). split; [|now apply stands_id]. apply expand_step. cbn. rewrite Gx. apply conv_ret. }
  assert (Fx : finite m (to_ct x)).
  { destruct (O u x Gx) as (g & d' & named & e1 & e2 & Ig & Id & Sn & Ec & F1 & _).
    apply In_nth_error in Ig. destruct Ig as [a' Ha'].
    destruct (group_item _ _ _ _ _ _ P Ha' Id) as (i' & Ia' & Hi').
    assert (i' = i) by (eapply nodup_position; eauto). subst i'.
    rewrite Hi in Hi'. injection Hi' as <-.
    assert (a' = a) by (apply (D a' a i i Ia' Ia); split; constructor). subst a'.
    apply finite_if. intros w Iw Gw. destruct (Item w Gw) as (j & dw & b & Hj & Ib).
    destruct (computed_fresh _ _ _ _ _ Ec) as [(t0 & -> & -> & Kd)|Fr].
    - assert (Iu : In w (data_uses d)).
      { unfold data_uses. rewrite Kd. cbn in Iw |- *. rewrite !app_nil_r. exact Iw. }
      assert (Dp : Topo.Spec.depends dep (keyed dts) i j).
      { exists u, (u, d), w, (w, dw). unfold keyed. rewrite !nth_error_map, Hi, Hj. cbn. auto. }
      pose proof (proj2 (D a b i j Ia Ib) Dp) as Le.
      apply (IH b) with (i := j) (d := dw); [|exact Hj|exact Ib].
      enough (b <> a) by lia. intros ->.
      assert (Sing : g = [(u, d)]).
      { destruct g as [|v [|]]; cbn in Sn; [discriminate| |discriminate]. destruct Id as [->|[]]. reflexivity. }
      subst g. cbn in Sn. injection Sn as Sn.
      destruct (forall2_nth _ _ _ _ _ P Ha') as (q & Hq & Fq).
      inversion Fq as [|v p vs ps Hp Hps]; subst. inversion Hps; subst.
      destruct Ia as (q1 & Hq1 & Iq1). destruct Ib as (q2 & Hq2 & Iq2).
      rewrite Hq in Hq1, Hq2. injection Hq1 as <-. injection Hq2 as <-.
      destruct Iq1 as [->|[]]. destruct Iq2 as [->|[]]. rewrite Hi in Hj. injection Hj as <- <-.
      unfold has_recursion in Sn. cbn [fst snd] in Sn.
      enough (existsb (Nat.eqb u) (data_uses d) = true) by congruence.
      apply existsb_exists. exists u. split; [exact Iu|apply Nat.eqb_refl].
    - exfalso. specialize (Fr w Iw). apply nth_error_In in Hj. apply (in_map fst) in Hj.
      specialize (B _ Hj). destruct F1 as [[L _] _]. cbn in B. lia. }
  destruct Fx as (t' & Cx & Sx). exists t'. split; [|eapply stands_data; eauto].
  apply expand_step. cbn [expand_ct]. rewrite Gx. exact Cx.
Qed.

Lemma found dts e m e' id d :
  NoDup (map fst dts) -> Forall (fun p => c_compatible (snd p)) dts ->
  compute dts e = Ret (m, e') -> In (id, d) dts ->
  exists x named e0 e1, get m id = Some x /\
    compute_data_expansion d named e0 = Ret (x, e1) /\ fine e e0 /\ fine e1 e'.
Proof.
  intros N C E I.
  destruct (compute_spec dts e N C) as (gs & m0 & e0 & S & E0 & F & K & Sub & O).
  rewrite E in E0. injection E0 as <- <-.
  destruct (get m id) as [x|] eqn:G.
  2:{ apply get_none in G. exfalso. apply G. apply K. apply (in_map fst) in I. exact I. }
  destruct (O id x G) as (g & d' & named & e1 & e2 & Ig & Id & _ & Ec & F1 & F2).
  apply In_nth_error in I. destruct I as [i Hi].
  pose proof (Sub _ _ Ig Id) as I'. apply In_nth_error in I'. destruct I' as [j Hj].
  assert (i = j) by (eapply nodup_position; eauto). subst j. rewrite Hi in Hj. injection Hj as <-.
  exists x, named, e1, e2. auto.
Qed.

Lemma compute_total dts e :
  NoDup (map fst dts) -> Forall (fun p => c_compatible (snd p)) dts ->
  exists m e', compute dts e = Ret (m, e') /\ env_grows e e' /\ (env_wf e -> env_wf e') /\
    forall id, get m id <> None <-> In id (map fst dts).
Proof.
  intros N C. destruct (compute_spec dts e N C) as (gs & m & e' & S & E & F & K & Sub & O).
  exists m, e'. split; [exact E|]. split; [apply F|]. split; [apply F|].
  intro id. rewrite <- K. rewrite get_none. destruct (in_dec Nat.eq_dec id (map fst m)); tauto.
Qed.

Lemma build_match scoped round32 prim funs :
  (forall t h, exists v, prim (QNullary (NUninitialized t)) h [] = Some (h, v)) ->
  forall dts e m e', NoDup (map fst dts) -> Forall (fun p => c_compatible (snd p)) dts ->
  compute dts e = Ret (m, e') ->
  forall id d, In (id, d) dts -> (N.of_nat (List.length (d_cons d)) <= 2 ^ 64)%N ->
  exists x, get m id = Some x /\
  forall i fi, nth_error (d_cons d) i = Some fi ->
  forall h env es h1 vs, List.length es = List.length fi ->
    evs scoped round32 prim funs h env es h1 (inl vs) ->
  exists made h2 w, to_rt x i es = Ret made /\
    ev scoped round32 prim funs h env made h2 (RsVal w) /\ unchanged h1 h2 /\
    forall j fj ps, nth_error (d_cons d) j = Some fj -> List.length ps = List.length fj ->
    exists p, to_rt_pat x j ps = Ret p /\
      forall h3, still_holds h1 h2 h3 ->
        pmatch round32 h3 p w =
        if (j =? i)%nat then pmatch_fields (pmatch round32 h3) ps vs else MNo.
Proof.
  intros U dts e m e' N C E id d I L.
  destruct (found _ _ _ _ _ _ N C E I) as (x & named & e0 & e1 & G & Ec & _ & _).
  exists x. split; [exact G|]. intros i fi Hi h env es h1 vs Le Ev.
  eapply data_exact; eauto. eapply computed_for; exact Ec.
Qed.

Lemma definitions_agree dts e m e' :
  NoDup (map fst dts) -> Forall (fun p => c_compatible (snd p)) dts ->
  compute dts e = Ret (m, e') ->
  forall id d x, In (id, d) dts -> get m id = Some x ->
  forall i fi, nth_error (d_cons d) i = Some fi ->
  (forall field es y, Forall2 field es fi -> to_rt x i es = Ret y -> made (defs e') field y (to_ct x)) /\
  (forall field ps p, Forall2 field ps fi -> to_rt_pat x i ps = Ret p -> fits (defs e') field p (to_ct x)).
Proof.
  intros N C E id d x I G i fi Hi.
  destruct (found _ _ _ _ _ _ N C E I) as (x' & named & e0 & e1 & G' & Ec & _ & F).
  rewrite G in G'. injection G' as <-.
  pose proof (computed_for _ _ _ _ _ Ec) as X.
  pose proof (defined_grows _ _ _ _ (proj1 F) (proj2 (computed_defined _ _ _ _ _ Ec))) as D.
  split; intros field es y Fe Ey; [eapply expansion_made|eapply expansion_fits]; eauto.
Qed.
