(** * Labels: what a writer knows of its history *)
From Coq Require Import NArith ZArith.
From Verif.Base Require Import Base Vec.
From Verif.Asm Require Model Table.
From Verif.Obj Require Import Model Spec.
Local Open Scope Z_scope.

Inductive reached : writer -> list event -> Prop :=
| reached_new : reached new []
| reached_step w es c w' a : reached w es -> step w c = Ret (w', a) -> reached w' (es ++ [Event c a (position w)]).

Lemma bind_ret {A B} (m : outcome A) (f : A -> outcome B) r : bind m f = Ret r -> exists a, m = Ret a /\ f a = Ret r.
Proof. destruct m; cbn; intro H; try discriminate H. eauto. Qed.

Lemma run_reached : forall cs w es w' es', reached w es -> run w cs = Ret (w', es') -> reached w' (es ++ es').
Proof.
  induction cs as [|c cs IH]; intros w es w' es' R H; cbn [run] in H.
  - injection H as <- <-. now rewrite app_nil_r.
  - apply bind_ret in H. destruct H as ([w1 a] & S1 & H). apply bind_ret in H. destruct H as ([w2 es2] & S2 & H).
    injection H as <- <-. cbn [fst snd] in *. pose proof (IH _ _ _ _ (reached_step _ _ _ _ _ R S1) S2) as R'.
    now rewrite <- app_assoc in R'.
Qed.

Lemma run_new cs w es : run new cs = Ret (w, es) -> reached w es.
Proof. intro H. exact (run_reached cs new [] w es reached_new H). Qed.

(** ** Vectors *)

Lemma vget_some {A} (l : list A) i x : vget l i = Ret x <-> nth_error l i = Some x.
Proof. unfold vget. destruct (nth_error l i); split; intro H; congruence. Qed.

Lemma vset_spec {A} : forall (l : list A) i x, (i < List.length l)%nat -> exists l', vset l i x = Ret l' /\ List.length l' = List.length l /\
  forall j, nth_error l' j = if Nat.eqb j i then Some x else nth_error l j.
Proof.
  induction l as [|y l IH]; intros i x L; [cbn in L; lia|]. destruct i as [|i]; cbn [vset].
  - exists (x :: l). split; [reflexivity|]. split; [reflexivity|]. intros [|j]; reflexivity.
  - destruct (IH i x) as (l' & -> & L' & N); [cbn in L; lia|]. exists (y :: l'). cbn. split; [reflexivity|]. split; [lia|].
    intros [|j]; cbn; [reflexivity|apply N].
Qed.

(** ** The effect of one call on each part of the writer *)

Lemma position_append w (c : content) bs (s : section) : position (append c bs w) s =
  position w s + if section_dec s c then Z.of_nat (List.length bs) else 0.
Proof.
  destruct s as [c'|]; cbn [position append w_buffers w_bss]; [|destruct (section_dec Bss c); [discriminate|lia]].
  destruct (section_dec c' c) as [E|E]; destruct c, c'; try discriminate E; try congruence; cbn; rewrite ?app_length; lia.
Qed.

Lemma buffer_append w (c : content) bs (c' : content) : buffer c' (w_buffers (append c bs w)) =
  buffer c' (w_buffers w) ++ if section_dec c' c then bs else [].
Proof.
  cbn [append w_buffers]. destruct (section_dec c' c) as [E|E]; destruct c, c'; try discriminate E; try congruence; cbn; now rewrite ?app_nil_r.
Qed.

Lemma to_nat_sub a r : 0 <= r -> Z.to_nat (Z.of_nat a - r) = (a - Z.to_nat r)%nat.
Proof. lia. Qed.

Lemma align_amount p a : 0 < a -> to_multiple p a (if p mod a =? 0 then 0 else a - p mod a).
Proof.
  intro A. pose proof (Z.mod_pos_bound p a A) as B. unfold to_multiple. destruct (Z.eqb_spec (p mod a) 0) as [E|E].
  - split; [lia|]. now rewrite Z.add_0_r.
  - split; [lia|]. pose proof (Z.div_mod p a ltac:(lia)) as D.
    replace (p + (a - p mod a)) with ((p / a + 1) * a) by lia. apply Z.mod_mul. lia.
Qed.

Lemma allocate_defs s n w : w_defs (allocate s n w) = w_defs w /\ w_uses (allocate s n w) = w_uses w /\ w_names (allocate s n w) = w_names w.
Proof. destruct s; cbn; auto. Qed.

Lemma align_spec s a w w' : align s a w = Ret w' -> 0 < a /\
  exists k, to_multiple (position w s) a k /\ (w' = allocate s k w \/ (k = 0 /\ w' = w)).
Proof.
  unfold align. destruct (Z.leb_spec a 0) as [L|L]; [discriminate|]. intro H. injection H as <-. split; [lia|].
  exists (if position w s mod a =? 0 then 0 else a - position w s mod a). split; [apply align_amount; lia|].
  destruct (position w s mod a =? 0); auto.
Qed.

Lemma use_relative_spec c d l a ty w w' : use_relative c d l a ty w = Ret w' -> 0 <= position w c + d /\
  w' = use_ (Use (Loc c (position w c + d)) l a ty) w.
Proof.
  unfold use_relative, offset, location_. cbn [l_pos l_section]. destruct (Z.leb_spec 0 (position w c + d)) as [L|L]; [|discriminate].
  intro H. injection H as <-. auto.
Qed.

(** What a call does to the definitions, the names and the uses. *)
Lemma step_rest w c w' a : step w c = Ret (w', a) ->
  w_uses w' = w_uses w ++ uses_by (Event c a (position w)) /\
  match c with
  | CIssue => w_defs w' = w_defs w ++ [None] /\ w_names w' = w_names w /\ a = ALabel (List.length (w_defs w))
  | CGet n =>
      match lookup n (w_names w) with
      | Some l => w_defs w' = w_defs w /\ w_names w' = w_names w /\ a = ALabel l
      | None => w_defs w' = w_defs w ++ [None] /\ w_names w' = w_names w ++ [(n, List.length (w_defs w))] /\ a = ALabel (List.length (w_defs w))
      end
  | CDefine s l g => nth_error (w_defs w) l = Some None /\ List.length (w_defs w') = List.length (w_defs w) /\
      (forall j, nth_error (w_defs w') j = if Nat.eqb j l then Some (Some (Def g (Loc s (position w s)))) else nth_error (w_defs w) j) /\
      w_names w' = w_names w /\ a = ALocation (Loc s (position w s))
  | _ => w_defs w' = w_defs w /\ w_names w' = w_names w /\ a = ANothing
  end.
Proof.
  destruct c as [|n|s l g|c bs|s n|s al|loc l ad ty|c d l ad ty|c i]; cbn [step uses_by e_call e_before]; intro H.
  - injection H as <- <-. cbn. now rewrite app_nil_r.
  - unfold get_label in H. destruct (lookup n (w_names w)); cbn in H; injection H as <- <-; cbn; now rewrite app_nil_r.
  - apply bind_ret in H. destruct H as ([w1 loc] & D & H). injection H as <- <-. cbn [fst snd]. unfold define in D.
    apply bind_ret in D. destruct D as (d & G & D). destruct d as [d|]; [discriminate D|]. apply vget_some in G.
    destruct (vset_spec (w_defs w) l (Some (Def g (location_ w s)))) as (ds & E & L & N).
    { apply nth_error_Some. congruence. }
    rewrite E in D. cbn in D. injection D as <- <-. cbn. rewrite app_nil_r. repeat split; auto.
  - injection H as <- <-. cbn. now rewrite app_nil_r.
  - injection H as <- <-. destruct (allocate_defs s n w) as (-> & -> & ->). now rewrite app_nil_r.
  - apply bind_ret in H. destruct H as (w1 & A & H). injection H as <- <-. apply align_spec in A. destruct A as (_ & k & _ & [->|[_ ->]]).
    + destruct (allocate_defs s k w) as (-> & -> & ->). now rewrite app_nil_r.
    + now rewrite app_nil_r.
  - injection H as <- <-. cbn. auto.
  - apply bind_ret in H. destruct H as (w1 & U & H). injection H as <- <-. apply use_relative_spec in U. destruct U as [_ ->]. cbn. auto.
  - apply bind_ret in H. destruct H as (w1 & U & H). injection H as <- <-. unfold write_label_inst in U.
    apply bind_ret in U. destruct U as (bs & E & U). apply use_relative_spec in U. destruct U as [_ ->]. rewrite E. cbn [use_ w_uses w_defs w_names append].
    repeat split; auto. f_equal. f_equal. f_equal. f_equal. rewrite position_append. destruct (section_dec c c); [reflexivity|congruence].
Qed.

(** What a call writes. *)
Lemma step_writes w c w' a : step w c = Ret (w', a) -> forall ct, exists bs,
  buffer ct (w_buffers w') = buffer ct (w_buffers w) ++ bs /\ writes c ct (position w ct) bs.
Proof.
  intros H ct. assert (alloc : forall s n, exists bs, buffer ct (w_buffers (allocate s n w)) = buffer ct (w_buffers w) ++ bs /\
    ((s = In_ ct /\ bs = repeat (filler ct) (Z.to_nat n)) \/ (s <> In_ ct /\ bs = []))).
  { intros s n. destruct s as [c'|]; cbn [allocate].
    - rewrite buffer_append. destruct (section_dec ct c') as [E|E]; [injection E as ->; eauto|]. exists []. split; [reflexivity|]. right. split; congruence.
    - exists []. cbn. rewrite app_nil_r. split; [reflexivity|]. right. split; congruence. }
  destruct c as [|n|s l g|c bs|s n|s al|loc l ad ty|c d l ad ty|c i]; cbn [step] in H.
  - injection H as <- <-. exists []. cbn. rewrite app_nil_r. split; [reflexivity|]. now apply writes_nothing.
  - unfold get_label in H. destruct (lookup n (w_names w)); cbn in H; injection H as <- <-; exists []; cbn; rewrite app_nil_r;
      (split; [reflexivity|]; now apply writes_nothing).
  - apply bind_ret in H. destruct H as ([w1 loc] & D & H). injection H as <- <-. cbn [fst snd]. unfold define in D.
    apply bind_ret in D. destruct D as (d & G & D). destruct d as [d|]; [discriminate D|]. apply bind_ret in D. destruct D as (ds & E & D).
    injection D as <- <-. exists []. cbn. rewrite app_nil_r. split; [reflexivity|]. now apply writes_nothing.
  - injection H as <- <-. rewrite buffer_append. destruct (section_dec ct c) as [E|E].
    + injection E as ->. exists bs. split; [reflexivity|constructor].
    + exists []. split; [reflexivity|]. apply writes_nothing. cbn. congruence.
  - injection H as <- <-. destruct (alloc s n) as (bs & -> & [[-> ->]|[N ->]]); eexists; split; try reflexivity; [constructor|]. now apply writes_nothing.
  - apply bind_ret in H. destruct H as (w1 & A & H). injection H as <- <-. apply align_spec in A. destruct A as (P & k & M & C).
    destruct (section_dec s (In_ ct)) as [->|N].
    + exists (repeat (filler ct) (Z.to_nat k)). split; [|now constructor]. destruct C as [->|[-> ->]].
      * destruct (alloc (In_ ct) k) as (bs & -> & [[_ ->]|[N _]]); [reflexivity|congruence].
      * cbn. now rewrite app_nil_r.
    + exists []. split; [|now apply writes_nothing]. destruct C as [->|[-> ->]].
      * destruct (alloc s k) as (bs & -> & [[E _]|[_ ->]]); [congruence|reflexivity].
      * now rewrite app_nil_r.
  - injection H as <- <-. exists []. cbn. rewrite app_nil_r. split; [reflexivity|]. now apply writes_nothing.
  - apply bind_ret in H. destruct H as (w1 & U & H). injection H as <- <-. apply use_relative_spec in U. destruct U as [_ ->].
    exists []. cbn. rewrite app_nil_r. split; [reflexivity|]. now apply writes_nothing.
  - apply bind_ret in H. destruct H as (w1 & U & H). injection H as <- <-. unfold write_label_inst in U.
    apply bind_ret in U. destruct U as (bs & E & U). apply use_relative_spec in U. destruct U as [_ ->]. cbn [use_ w_buffers].
    rewrite buffer_append. destruct (section_dec ct c) as [Ec|N].
    + injection Ec as ->. exists bs. split; [reflexivity|]. now constructor.
    + exists []. split; [reflexivity|]. apply writes_nothing. cbn. congruence.
Qed.

Lemma step_bss w c w' a : step w c = Ret (w', a) -> exists k, w_bss w' = w_bss w + k /\ reserves c (w_bss w) k.
Proof.
  intro H. assert (alloc : forall s n, exists k, w_bss (allocate s n w) = w_bss w + k /\ ((s = Bss /\ k = n) \/ (s <> Bss /\ k = 0))).
  { intros s n. destruct s as [c'|]; cbn; [exists 0|exists n]; split; auto; try lia. right. split; congruence. }
  destruct c as [|n|s l g|c bs|s n|s al|loc l ad ty|c d l ad ty|c i]; cbn [step] in H.
  - injection H as <- <-. exists 0. cbn. split; [lia|]. now apply reserves_nothing.
  - unfold get_label in H. destruct (lookup n (w_names w)); cbn in H; injection H as <- <-; exists 0; cbn;
      (split; [lia|]; now apply reserves_nothing).
  - apply bind_ret in H. destruct H as ([w1 loc] & D & H). injection H as <- <-. cbn [fst snd]. unfold define in D.
    apply bind_ret in D. destruct D as (d & G & D). destruct d as [d|]; [discriminate D|]. apply bind_ret in D. destruct D as (ds & E & D).
    injection D as <- <-. exists 0. cbn. split; [lia|]. now apply reserves_nothing.
  - injection H as <- <-. exists 0. cbn. split; [lia|]. apply reserves_nothing. discriminate.
  - injection H as <- <-. destruct (alloc s n) as (k & -> & [[-> ->]|[N ->]]); eexists; split; try reflexivity; [constructor|]. now apply reserves_nothing.
  - apply bind_ret in H. destruct H as (w1 & A & H). injection H as <- <-. apply align_spec in A. destruct A as (P & k & M & C).
    destruct (section_dec s Bss) as [->|N].
    + exists k. split; [|constructor; exact M]. destruct C as [->|[-> ->]]; cbn; lia.
    + exists 0. split; [|now apply reserves_nothing]. destruct C as [->|[-> ->]]; [|lia].
      destruct (alloc s k) as (k' & -> & [[E _]|[_ ->]]); [congruence|reflexivity].
  - injection H as <- <-. exists 0. cbn. split; [lia|]. now apply reserves_nothing.
  - apply bind_ret in H. destruct H as (w1 & U & H). injection H as <- <-. apply use_relative_spec in U. destruct U as [_ ->].
    exists 0. cbn. split; [lia|]. now apply reserves_nothing.
  - apply bind_ret in H. destruct H as (w1 & U & H). injection H as <- <-. unfold write_label_inst in U.
    apply bind_ret in U. destruct U as (bs & E & U). apply use_relative_spec in U. destruct U as [_ ->]. exists 0. cbn. split; [lia|].
    apply reserves_nothing. discriminate.
Qed.

Lemma reached_contents w es : reached w es -> forall c, contents es c (buffer c (w_buffers w)).
Proof.
  induction 1 as [|w es c w' a R IH S]; intro ct; [destruct ct; constructor|].
  destruct (step_writes _ _ _ _ S ct) as (bs & -> & W). now constructor.
Qed.

Lemma reached_bss w es : reached w es -> bss_size es (w_bss w).
Proof.
  induction 1 as [|w es c w' a R IH S]; [constructor|]. destruct (step_bss _ _ _ _ S) as (k & -> & W). now constructor.
Qed.

Lemma reached_uses w es : reached w es -> w_uses w = uses es.
Proof.
  induction 1 as [|w es c w' a R IH S]; [reflexivity|]. destruct (step_rest _ _ _ _ S) as [-> _]. rewrite IH.
  unfold uses. now rewrite flat_map_app; cbn; rewrite app_nil_r.
Qed.

(** ** Definitions *)

Lemma defined_snoc es e l g loc : defined (es ++ [e]) l g loc <->
  defined es l g loc \/ exists s, e_call e = CDefine s l g /\ loc = Loc s (e_before e s).
Proof.
  unfold defined. split.
  - intros (s & a & b & I & ->). apply in_app_iff in I. destruct I as [I|[->|[]]]; [left; eauto 7|right; cbn; eauto].
  - intros [(s & a & b & I & ->)|(s & E & ->)].
    + exists s, a, b. split; [|reflexivity]. apply in_app_iff. auto.
    + destruct e as [c a b]. cbn in *. subst c. exists s, a, b. split; [|reflexivity]. apply in_app_iff. right. now left.
Qed.

Lemma reached_defined w es : reached w es -> forall l g loc,
  defined es l g loc <-> nth_error (w_defs w) l = Some (Some (Def g loc)).
Proof.
  induction 1 as [|w es c w' a R IH S]; intros l g loc.
  - unfold defined. split; [intros (s & a & b & [] & _)|]. cbn. destruct l; discriminate.
  - rewrite defined_snoc, IH. cbn [e_call e_before]. destruct (step_rest _ _ _ _ S) as [_ C].
    assert (same : (forall s l' g', c <> CDefine s l' g') -> (w_defs w' = w_defs w \/ w_defs w' = w_defs w ++ [None]) ->
      (nth_error (w_defs w) l = Some (Some (Def g loc)) \/ (exists s, c = CDefine s l g /\ loc = Loc s (position w s))) <->
      nth_error (w_defs w') l = Some (Some (Def g loc))).
    { intros N E. split.
      - intros [H|(s & E' & _)]; [|destruct (N _ _ _ E')]. destruct E as [-> | ->]; [exact H|].
        rewrite nth_error_app1; [exact H|]. apply nth_error_Some. congruence.
      - intro H. left. destruct E as [E|E]; rewrite E in H; [exact H|]. destruct (Nat.lt_ge_cases l (List.length (w_defs w))) as [L|L].
        + now rewrite nth_error_app1 in H.
        + rewrite nth_error_app2 in H by exact L. destruct (l - List.length (w_defs w))%nat as [|[|]]; cbn in H; discriminate H. }
    destruct c as [|n|s l0 g0|c bs|s n|s al|loc0 l0 ad ty|c d l0 ad ty|c i]; try (apply same; [discriminate|]; destruct C as (-> & _); auto; fail).
    + apply same; [discriminate|]. destruct (lookup n (w_names w)); destruct C as (-> & _); auto.
    + destruct C as (N0 & L & N & _ & _). rewrite N. destruct (Nat.eqb_spec l l0) as [->|D].
      * split.
        -- intros [H|(s' & E & ->)]; [congruence|]. now injection E as <- <-.
        -- intro H. injection H as <- <-. right. eauto.
      * split; [intros [H|(s' & E & _)]; [exact H|congruence]|auto].
Qed.

(** ** Names *)

Record names_ok (w : writer) : Prop := {
  no_lookup : forall n l, lookup n (w_names w) = Some l <-> In (n, l) (w_names w);
  no_names : NoDup (map fst (w_names w));
  no_labels : NoDup (map snd (w_names w));
  no_range : forall n l, In (n, l) (w_names w) -> (l < List.length (w_defs w))%nat }.

Lemma lookup_none n : forall l, lookup n l = None <-> ~ In n (map fst l).
Proof.
  induction l as [|[m x] l IH]; cbn; [tauto|]. destruct (String.eqb_spec n m) as [->|N]; [split; [discriminate|tauto]|]. rewrite IH. intuition congruence.
Qed.

Lemma lookup_in : forall l n x, NoDup (map fst l) -> (lookup n l = Some x <-> In (n, x) l).
Proof.
  induction l as [|[m y] l IH]; intros n x D; cbn; [split; [discriminate|tauto]|]. cbn in D. inversion D as [|? ? N D']; subst.
  destruct (String.eqb_spec n m) as [->|E].
  - split; [intro H; injection H as ->; auto|]. intros [H|H]; [congruence|]. destruct N. apply in_map_iff. exists (m, x). auto.
  - rewrite (IH n x D'). split; [auto|]. intros [H|H]; [congruence|exact H].
Qed.

Lemma NoDup_snoc {A} (l : list A) x : NoDup l -> ~ In x l -> NoDup (l ++ [x]).
Proof.
  induction l as [|y l IH]; cbn; intros D N; [constructor; [tauto|constructor]|]. inversion D as [|? ? Ny D']; subst. constructor.
  - rewrite in_app_iff. cbn. intuition congruence.
  - apply IH; tauto.
Qed.

Lemma reached_names_ok w es : reached w es -> NoDup (map fst (w_names w)) /\ NoDup (map snd (w_names w)) /\
  (forall n l, In (n, l) (w_names w) -> (l < List.length (w_defs w))%nat).
Proof.
  induction 1 as [|w es c w' a R (D1 & D2 & B) S].
  - cbn. repeat split; try constructor. tauto.
  - destruct (step_rest _ _ _ _ S) as [_ C].
    destruct c as [|n|s l0 g0|c bs|s n|s al|loc0 l0 ad ty|c d l0 ad ty|c i]; try (destruct C as (-> & -> & _); auto; fail).
    + destruct C as (-> & -> & _). repeat split; auto. intros n l I. rewrite app_length. specialize (B n l I). lia.
    + destruct (lookup n (w_names w)) eqn:E; destruct C as (-> & -> & _); auto.
      apply lookup_none in E. rewrite !map_app, app_length. cbn. repeat split.
      * now apply NoDup_snoc.
      * apply NoDup_snoc; [exact D2|]. intro I. apply in_map_iff in I. destruct I as ((m, l) & E2 & I). cbn in E2. subst l. specialize (B _ _ I). lia.
      * intros m l I. apply in_app_iff in I. destruct I as [I|[I|[]]]; [specialize (B _ _ I); lia|]. injection I as _ <-. lia.
    + destruct C as (_ & L & _ & -> & _). rewrite L. auto.
Qed.

Lemma named_snoc es e n l : named (es ++ [e]) n l <-> named es n l \/ (e_call e = CGet n /\ e_answer e = ALabel l).
Proof.
  unfold named. split.
  - intros (b & I). apply in_app_iff in I. destruct I as [I|[->|[]]]; [left; eauto|right; auto].
  - intros [(b & I)|[E A]].
    + exists b. apply in_app_iff. auto.
    + destruct e as [c a b]. cbn in *. subst. exists b. apply in_app_iff. right. now left.
Qed.

Lemma reached_named w es : reached w es -> forall n l, named es n l <-> In (n, l) (w_names w).
Proof.
  induction 1 as [|w es c w' a R IH S]; intros n l.
  - unfold named. split; [intros (b & [])|intros []].
  - rewrite named_snoc, IH. cbn [e_call e_answer]. destruct (step_rest _ _ _ _ S) as [_ C].
    destruct (reached_names_ok w es R) as (D1 & D2 & B).
    destruct c as [|n0|s l0 g0|c bs|s n0|s al|loc0 l0 ad ty|c d l0 ad ty|c i]; try (destruct C as (_ & -> & _); intuition congruence).
    + destruct (lookup n0 (w_names w)) as [l1|] eqn:E; destruct C as (_ & -> & ->).
      * apply (lookup_in _ _ _ D1) in E. split; [|auto]. intros [H|[H1 H2]]; [exact H|]. congruence.
      * rewrite in_app_iff. split.
        -- intros [H|[H1 H2]]; [auto|]. injection H1 as ->. injection H2 as ->. right. now left.
        -- intros [H|[H|[]]]; [auto|]. injection H as -> <-. auto.
    + destruct C as (_ & _ & _ & -> & ->). intuition congruence.
Qed.

Lemma known_snoc es e l : known (es ++ [e]) l <-> known es l \/ e_answer e = ALabel l.
Proof.
  unfold known. split.
  - intros (c & b & I). apply in_app_iff in I. destruct I as [I|[->|[]]]; [left; eauto|right; auto].
  - intros [(c & b & I)|A].
    + exists c, b. apply in_app_iff. auto.
    + destruct e as [c a b]. cbn in *. subst. exists c, b. apply in_app_iff. right. now left.
Qed.

Lemma reached_known w es : reached w es -> forall l, known es l <-> (l < List.length (w_defs w))%nat.
Proof.
  induction 1 as [|w es c w' a R IH S]; intro l.
  - unfold known. cbn. split; [intros (c & b & [])|lia].
  - rewrite known_snoc, IH. cbn [e_answer]. destruct (step_rest _ _ _ _ S) as [_ C].
    destruct (reached_names_ok w es R) as (D1 & D2 & B).
    assert (J : forall x y : label, ALabel x = ALabel y <-> x = y) by (intros; split; congruence).
    destruct c as [|n0|s l0 g0|c bs|s n0|s al|loc0 l0 ad ty|c d l0 ad ty|c i]; try (destruct C as (-> & _ & ->); intuition congruence).
    + destruct C as (-> & _ & ->). rewrite app_length, J. cbn. lia.
    + destruct (lookup n0 (w_names w)) as [l1|] eqn:E; destruct C as (-> & _ & ->); rewrite J.
      * apply (lookup_in _ _ _ D1), B in E. lia.
      * rewrite app_length. cbn. lia.
    + destruct C as (_ & -> & _ & _ & ->). intuition congruence.
Qed.

(** Names and labels correspond. *)
Lemma named_same w es n m l k : reached w es -> named es n l -> named es m k -> (n = m <-> l = k).
Proof.
  intros R N M. pose proof (reached_names_ok w es R) as (D1 & D2 & B). apply (reached_named w es R) in N, M.
  revert N M D1 D2. generalize (w_names w). clear. induction l0 as [|[x y] t IH]; cbn; intros N M D1 D2; [contradiction|].
  inversion D1 as [|? ? N1 D1']; inversion D2 as [|? ? N2 D2']; subst.
  assert (out1 : forall p q, In (p, q) t -> In p (map fst t)) by (intros p q I; apply in_map_iff; exists (p, q); auto).
  assert (out2 : forall p q, In (p, q) t -> In q (map snd t)) by (intros p q I; apply in_map_iff; exists (p, q); auto).
  destruct N as [N|N], M as [M|M].
  - rewrite N in M. injection M as -> ->. tauto.
  - injection N as -> ->. split; intro; subst; exfalso; [eapply N1, out1|eapply N2, out2]; eassumption.
  - injection M as -> ->. split; intro; subst; exfalso; [eapply N1, out1|eapply N2, out2]; eassumption.
  - now apply IH.
Qed.

(** An issued label is nobody else's. *)
Lemma issued_once w es : reached w es -> forall i j b c b' l,
  nth_error es i = Some (Event CIssue (ALabel l) b) -> nth_error es j = Some (Event c (ALabel l) b') -> i = j.
Proof.
  intro R. assert (A : forall i j ei ej l, nth_error es i = Some ei -> nth_error es j = Some ej -> e_answer ei = ALabel l -> e_answer ej = ALabel l ->
    i = j \/ exists n, e_call ei = CGet n /\ e_call ej = CGet n).
  { induction R as [|w es c w' a R IH S]; intros i j ei ej l Hi Hj Ai Aj; [destruct i; discriminate Hi|].
    pose proof (reached_known w es R) as K. pose proof (reached_named w es R) as NM. destruct (reached_names_ok w es R) as (D1 & D2 & B).
    destruct (step_rest _ _ _ _ S) as [_ C].
    assert (old : forall i ei, nth_error es i = Some ei -> e_answer ei = ALabel l -> (l < List.length (w_defs w))%nat).
    { intros i0 e0 H0 A0. apply K. destruct e0 as [c0 a0 b0]. cbn in A0. subst. exists c0, b0. now apply nth_error_In in H0. }
    assert (fresh : e_answer (Event c a (position w)) = ALabel l -> l = List.length (w_defs w) \/ exists n, c = CGet n /\ In (n, l) (w_names w)).
    { cbn. intros ->. destruct c as [|n0|s l0 g0|c bs|s n0|s al|loc0 l0 ad ty|c d l0 ad ty|c i0]; try (destruct C as (_ & _ & C); congruence).
      - left. destruct C as (_ & _ & C). congruence.
      - destruct (lookup n0 (w_names w)) as [l1|] eqn:E; destruct C as (_ & _ & C); injection C as ->; [|auto].
        apply (lookup_in _ _ _ D1) in E. eauto.
      - destruct C as (_ & _ & _ & _ & C). congruence. }
    assert (shared : forall n e0 i0, c = CGet n -> In (n, l) (w_names w) -> nth_error es i0 = Some e0 -> e_answer e0 = ALabel l ->
      e_call e0 = CGet n).
    { intros n e0 i0 -> I H0 A0. apply NM in I. destruct I as (b & I). apply In_nth_error in I. destruct I as (k & I).
      destruct (IH _ _ _ _ _ I H0 eq_refl A0) as [->|(m & E1 & E2)].
      - rewrite H0 in I. injection I as ->. reflexivity.
      - cbn in E1. injection E1 as <-. exact E2. }
    destruct (Nat.lt_ge_cases i (List.length es)) as [Li|Li], (Nat.lt_ge_cases j (List.length es)) as [Lj|Lj].
    - rewrite nth_error_app1 in Hi, Hj by assumption. eauto.
    - rewrite nth_error_app1 in Hi by assumption. rewrite nth_error_app2 in Hj by assumption.
      destruct (j - List.length es)%nat as [|[|]]; cbn in Hj; try discriminate Hj. injection Hj as <-.
      destruct (fresh Aj) as [->|(n & -> & I)]; [specialize (old _ _ Hi Ai); lia|]. right. exists n. split; [|reflexivity]. eapply shared; eauto.
    - rewrite nth_error_app1 in Hj by assumption. rewrite nth_error_app2 in Hi by assumption.
      destruct (i - List.length es)%nat as [|[|]]; cbn in Hi; try discriminate Hi. injection Hi as <-.
      destruct (fresh Ai) as [->|(n & -> & I)]; [specialize (old _ _ Hj Aj); lia|]. right. exists n. split; [reflexivity|]. eapply shared; eauto.
    - left. assert (nth_error (es ++ [Event c a (position w)]) i <> None) as Si by congruence.
      assert (nth_error (es ++ [Event c a (position w)]) j <> None) as Sj by congruence. apply nth_error_Some in Si, Sj. rewrite app_length in Si, Sj.
      cbn in Si, Sj. lia. }
  intros i j b c b' l Hi Hj. destruct (A _ _ _ _ l Hi Hj eq_refl eq_refl) as [E|(n & E & _)]; [exact E|discriminate E].
Qed.

(** No label is defined twice. *)
Lemma defined_once w es : reached w es -> forall i j s g a b s' g' a' b' l,
  nth_error es i = Some (Event (CDefine s l g) a b) -> nth_error es j = Some (Event (CDefine s' l g') a' b') -> i = j.
Proof.
  induction 1 as [|w es c w' a R IH S]; intros i j s g a1 b1 s' g' a2 b2 l Hi Hj; [destruct i; discriminate Hi|].
  destruct (step_rest _ _ _ _ S) as [_ C].
  assert (no : forall k s0 g0 a0 b0 s1 g1, nth_error es k = Some (Event (CDefine s0 l g0) a0 b0) -> c = CDefine s1 l g1 -> False).
  { intros k s0 g0 a0 b0 s1 g1 H ->. destruct C as (N & _). apply nth_error_In in H.
    assert (D : defined es l g0 (Loc s0 (b0 s0))) by (exists s0, a0, b0; auto). apply (reached_defined w es R) in D. congruence. }
  destruct (Nat.lt_ge_cases i (List.length es)) as [Li|Li], (Nat.lt_ge_cases j (List.length es)) as [Lj|Lj].
  - rewrite nth_error_app1 in Hi, Hj by assumption. eauto.
  - rewrite nth_error_app1 in Hi by assumption. rewrite nth_error_app2 in Hj by assumption.
    destruct (j - List.length es)%nat as [|[|]]; cbn in Hj; try discriminate Hj. injection Hj as Hc _ _. destruct (no _ _ _ _ _ _ _ Hi Hc).
  - rewrite nth_error_app1 in Hj by assumption. rewrite nth_error_app2 in Hi by assumption.
    destruct (i - List.length es)%nat as [|[|]]; cbn in Hi; try discriminate Hi. injection Hi as Hc _ _. destruct (no _ _ _ _ _ _ _ Hj Hc).
  - assert (nth_error (es ++ [Event c a (position w)]) i <> None) as Si by congruence.
    assert (nth_error (es ++ [Event c a (position w)]) j <> None) as Sj by congruence. apply nth_error_Some in Si, Sj. rewrite app_length in Si, Sj.
    cbn in Si, Sj. lia.
Qed.
