(** The grammar is unambiguous: an S-expression has one reading, up to identities. *)
From Verif.Base Require Import Base.
From Verif.Sexp Require Import Model.
From Verif.Syntax Require Import Model Spec SpecBare Proofs.

Definition unique_by {A B C} (f : B -> C) (P : A -> B -> Prop) (a : A) (b : B) : Prop := forall b2, P a b2 -> f b = f b2.
Lemma Forall2_nil_l {A B} (P : A -> B -> Prop) l : Forall2 P [] l -> l = [].
Proof. inversion 1. reflexivity. Qed.
Lemma Forall2_cons_l {A B} (P : A -> B -> Prop) a l l2 : Forall2 P (a :: l) l2 -> exists b l', l2 = b :: l' /\ P a b /\ Forall2 P l l'.
Proof. inversion 1; subst. eexists; eexists. split; [reflexivity|]. split; assumption. Qed.
Definition uniques {A B C} (f : B -> C) (P : A -> B -> Prop) (U : forall a b, P a b -> unique_by f P a b) :
  forall l l1, Forall2 P l l1 -> forall l2, Forall2 P l l2 -> map f l1 = map f l2.
Proof.
  fix go 3. intros l l1 F. destruct F as [|a b l l1 H F].
  - intros l2 G. apply Forall2_nil_l in G. subst. reflexivity.
  - intros l2 G. destruct (Forall2_cons_l _ _ _ _ G) as [b2 [l2' [-> [H2 G2]]]]. cbn. f_equal; [exact (U a b H b2 H2) | exact (go l l1 F l2' G2)].
Defined.
Lemma last_eq {A} (l l' : list A) x y : l ++ [x] = l' ++ [y] -> l = l' /\ x = y.
Proof. apply app_inj_tail. Qed.
Lemma map_same {A} (l : list A) : map (fun a => a) l = l.
Proof. apply map_id. Qed.

Ltac clash :=
  match goal with
  | H : t_ _ = t_ _ |- _ => solve [vm_compute in H; discriminate H]
  | H : ?x <> ?x |- _ => destruct (H eq_refl)
  | H : no_word _ (Sexp _ (RSymbol _)) |- _ => solve [exfalso; apply (H _ _ eq_refl); unfold type_words, pattern_words, expr_words; cbn [map In]; tauto]
  | H : literal _ |- _ => solve [inversion H]
  | H : _ :: _ = [] |- _ => discriminate H
  | H : [] = _ ++ [_] |- _ => solve [destruct (app_cons_not_nil _ _ _ H)]
  end.
Ltac inv H := inversion H; clear H; subst; try clash.

Section Unique.
Variable W : world.
Local Opaque t_.

Lemma kind_unique : forall s k, reads_kind W s k -> unique_by (fun k => k) (reads_kind W) s k.
Proof.
  fix U 3. intros s k R. destruct R as [s s' k E F].
  assert (V : unique_by (fun k => k) (kind_form W) s' k).
  { destruct F as [| | | | |l lk args r ks k H1 H2].
    6: { pose proof (uniques _ _ U _ _ H1) as I1. pose proof (U _ _ H2) as I2. clear U H1 H2 E s. intros k2 R2. unfold form in R2. inv R2.
      match goal with H : _ ++ _ = _ ++ _ |- _ => apply last_eq in H; destruct H as [-> ->] end.
      f_equal; [|apply I2; assumption]. match goal with H : Forall2 _ _ _ |- _ => apply I1 in H; rewrite !map_same in H; exact H end. }
    all: clear U E s; intros k2 R2; unfold word in R2; inv R2; reflexivity. }
  clear U F. intros k2 R2. inversion R2 as [? s2 ? E2 F2]; subst. rewrite (expands_unique W s s' E s2 E2) in V. exact (V k2 F2).
Qed.

Lemma type_unique : forall s t, reads_type W s t -> unique_by (fun t => t) (reads_type W) s t.
Proof.
  fix U 3. intros s t R. destruct R as [s s' t E F].
  assert (V : unique_by (fun t => t) (type_form W) s' t).
  { destruct F as [l|l lk|l lk args ts H0 H1|l lk args r ts t H1 H2|l x Hx|l x c Hn Hc|l callee args t ts Hn H1 H2];
      try pose proof (uniques _ _ U _ _ H1) as I1; try pose proof (U _ _ H2) as I2; try pose proof (U _ _ H1) as I1; try pose proof (uniques _ _ U _ _ H2) as I2;
      clear U E s; intros k2 R2; unfold form, word in R2; inv R2; try reflexivity.
    - match goal with H : Forall2 _ _ _ |- _ => apply I1 in H; rewrite !map_same in H; subst end. reflexivity.
    - match goal with H : _ ++ _ = _ ++ _ |- _ => apply last_eq in H; destruct H as [-> ->] end.
      match goal with H : Forall2 _ _ _, G : reads_type W r _ |- _ => apply I1 in H; apply I2 in G; rewrite !map_same in H; subst end. reflexivity.
    - congruence.
    - match goal with H : Forall2 _ _ _, G : reads_type W callee _ |- _ => apply I2 in H; apply I1 in G; rewrite !map_same in H; subst end. reflexivity. }
  clear U F. intros k2 R2. inversion R2 as [? s2 ? E2 F2]; subst. rewrite (expands_unique W s s' E s2 E2) in V. exact (V k2 F2).
Qed.

Lemma use_unique fits s u : reads_use W fits s u -> unique_by (fun u => u) (reads_use W fits) s u.
Proof. intros R u2 R2. destruct R; unfold word in R2; inv R2; congruence. Qed.
Lemma types_unique l ts ts2 : Forall2 (reads_type W) l ts -> Forall2 (reads_type W) l ts2 -> ts = ts2.
Proof. intros H G. pose proof (uniques _ _ type_unique _ _ H _ G) as E. rewrite !map_same in E. exact E. Qed.
Lemma constr_unique s k : reads_constr W s k -> unique_by (fun k => k) (reads_constr W) s k.
Proof.
  intros R k2 R2. destruct R as [s u H|l s args u ts H1 H2].
  - inversion R2 as [? u2 H'|? ? ? u2 ts2 H1' H2']; subst; [|inversion H]. rewrite (use_unique _ _ _ H _ H'). reflexivity.
  - inversion R2 as [? u2 H'|? ? ? u2 ts2 H1' H2']; subst; [inversion H'|]. rewrite (use_unique _ _ _ H1 _ H1'), (types_unique _ _ _ H2 H2'). reflexivity.
Qed.
Lemma tparam_unique s p : reads_tparam W s p -> unique_by bare_typaram (reads_tparam W) s p.
Proof.
  intros R p2 R2. destruct R as [l x i|l lx x i s k H]; unfold word in R2; inv R2; [reflexivity|].
  match goal with G : reads_kind W s _ |- _ => rewrite (kind_unique _ _ H _ G) end. reflexivity.
Qed.
Lemma scheme_unique ss sc sc2 : reads_scheme W ss sc -> reads_scheme W ss sc2 -> bare_scheme sc = bare_scheme sc2.
Proof.
  intros R R2. destruct R as [f body w tps ks t F B Wh]. inversion R2 as [f2 body2 w2 tps2 ks2 t2 F2 B2 W2 E]; subst; clear R2.
  assert (K : f = f2 /\ body = body2 /\ w = w2).
  { inversion F as [F0|l lk ps vs F0]; subst; inversion F2 as [F0'|l' lk' ps' vs' F0']; subst; cbn in E.
    - injection E as -> ->. repeat split.
    - injection E as Eb E. destruct (F0 _ _ _ (eq_sym Eb)).
    - injection E as Eb E. destruct (F0' _ _ _ Eb).
    - injection E as -> -> -> -> ->. repeat split. }
  destruct K as [<- [<- <-]]. rewrite (type_unique _ _ B _ B2).
  assert (E1 : map bare_typaram tps = map bare_typaram tps2).
  { inversion F as [F0|l lk ps vs F0]; subst; inversion F2; subst; [reflexivity|]. eapply (uniques _ _ tparam_unique); eassumption. }
  assert (E2 : ks = ks2).
  { inversion Wh as [F0|l lk ps vs F0]; subst; inversion W2 as [|? ? ? ? F0']; subst; [reflexivity|].
    pose proof (uniques _ _ constr_unique _ _ F0 _ F0') as G. rewrite !map_same in G. exact G. }
  unfold bare_scheme. cbn. rewrite E1, E2. reflexivity.
Qed.

Lemma use_native fits l x u : reads_use W fits (Sexp l (RNative x)) u -> exists c, native W x = Some c /\ u = Res c.
Proof. inversion 1; subst. eexists; split; [eassumption | reflexivity]. Qed.
Lemma pattern_unique : forall s p, reads_pattern W s p -> unique_by bare_pattern (reads_pattern W) s p.
Proof.
  fix U 3. intros s p R. destruct R as [s s' p E F].
  assert (V : unique_by bare_pattern (pattern_form W) s' p).
  { destruct F as [l r Hl|l b|l|l lk lx x i|l lk lx x i s0 p H1|l|l lk|l lk ss ps H0 H1|s0 u H0 H1|l s0 ss u ps H0 H1 H2];
      try pose proof (uniques _ _ U _ _ H1) as I1; try pose proof (U _ _ H1) as I1; try pose proof (uniques _ _ U _ _ H2) as I2;
      clear U E s; intros p2 R2.
    - inversion R2; subst; try clash; try reflexivity; try match goal with H : reads_use _ _ _ _ |- _ => solve [inversion H; subst; clash] end.
    - inversion R2; subst; try clash; try reflexivity; try match goal with H : reads_use _ _ _ _ |- _ => solve [inversion H; subst; clash] end.
    - unfold word in R2. inv R2; try reflexivity; try match goal with H : no_word _ _ |- _ => destruct (H _ _ eq_refl); cbn; tauto end.
    - unfold form in R2. inv R2; try reflexivity; try match goal with H : reads_use _ _ (Sexp _ (RList _)) _ |- _ => inversion H end.
    - unfold form in R2. inv R2; try reflexivity; [cbn; do 2 f_equal; apply I1; assumption|..]; try match goal with H : reads_use _ _ (Sexp _ (RList _)) _ |- _ => inversion H end.
    - unfold word in R2. inv R2; try reflexivity; try match goal with H : no_word _ _ |- _ => destruct (H _ _ eq_refl); cbn; tauto end.
    - unfold form in R2. inv R2; try reflexivity; try match goal with H : reads_use _ _ (Sexp _ (RList _)) _ |- _ => inversion H end.
    - unfold form in R2. inv R2; [cbn; do 2 f_equal; apply I1; assumption|..]; try match goal with H : reads_use _ _ (Sexp _ (RList _)) _ |- _ => inversion H end.
    - inversion R2; subst; try clash; try (solve [inversion H1; subst; clash]);
        try (match goal with H : reads_use _ _ s0 ?u2 |- _ => rewrite (use_unique _ _ _ H1 _ H); reflexivity end).
      all: solve [destruct (H0 _ _ eq_refl); cbn; tauto].
    - inversion R2; subst; try clash; try (solve [match goal with H : reads_use _ _ (Sexp _ (RList _)) _ |- _ => inversion H end]);
        try (solve [destruct (H0 _ _ eq_refl); cbn; tauto]).
      match goal with H : reads_use _ _ s0 ?u2 |- _ => rewrite (use_unique _ _ _ H1 _ H) end. cbn. do 2 f_equal. apply I2. assumption. }
  clear U F. intros k2 R2. inversion R2 as [? s2 ? E2 F2]; subst. rewrite (expands_unique W s s' E s2 E2) in V. exact (V k2 F2).
Qed.

Lemma words_inj ps : forall ps2, map (fun p => word (s_loc p) (s_name p)) ps = map (fun p => word (s_loc p) (s_name p)) ps2 -> ps = ps2.
Proof.
  induction ps as [|[l x] ps IH]; intros [|[l2 x2] ps2] E; try discriminate; [reflexivity|]. cbn in E. injection E as -> -> E. f_equal. apply IH. exact E.
Qed.
Lemma header_unique s x ps x2 ps2 : reads_header s x ps -> reads_header s x2 ps2 -> x = x2 /\ ps = ps2.
Proof.
  intros H G. destruct H as [l x|l lx x ps].
  - unfold word in G. inversion G; subst. split; reflexivity.
  - inversion G as [|? ? ? ps' E]; subst. match goal with E : map _ _ = map _ _ |- _ => apply words_inj in E; subst end. split; reflexivity.
Qed.
Lemma annotated_unique s x ps sc x2 ps2 sc2 : reads_annotated W s x ps sc -> reads_annotated W s x2 ps2 sc2 ->
  x = x2 /\ ps = ps2 /\ option_map bare_scheme sc = option_map bare_scheme sc2.
Proof.
  intros H G. destruct H as [s x ps N H|l lk s ann x ps sc H1 H2].
  - inversion G as [? ? ? N' G'|]; subst; [|match goal with |- context [form ?l ?lk _ (?a :: ?r)] => destruct (N l lk a r eq_refl) | _ => idtac end].
    + destruct (header_unique _ _ _ _ _ H G') as [-> ->]. repeat split.
    + edestruct N. reflexivity.
  - inversion G as [? ? ? N' G'|? ? ? ? ? ? ? G1 G2]; subst.
    + edestruct N'. reflexivity.
    + destruct (header_unique _ _ _ _ _ H1 G1) as [-> ->]. cbn. rewrite (scheme_unique _ _ _ H2 G2). repeat split.
Qed.
Lemma binders_bare bs bs2 : map b_sym bs = map b_sym bs2 -> map bare_binder bs = map bare_binder bs2.
Proof.
  intros E. assert (K : forall l, map bare_binder l = map (fun x => {| b_id := 0; b_sym := x |}) (map b_sym l)) by (intros l; rewrite map_map; reflexivity).
  rewrite !K, E. reflexivity.
Qed.

Lemma expr_unique : forall s e, reads_expr W s e -> unique_by bare_expr (reads_expr W) s e
with body_unique : forall ss e, reads_body W ss e -> unique_by bare_expr (reads_body W) ss e
with def_unique : forall s d, reads_def W s d -> unique_by bare_def (reads_def W) s d
with clause_unique : forall s c, reads_clause W s c -> unique_by bare_clause (reads_clause W) s c
with form_unique : forall s e, expr_form W s e -> unique_by bare_expr (expr_form W) s e.
Proof.
  - intros s e R. destruct R as [s s' e E F]. pose proof (form_unique _ _ F) as V.
    clear expr_unique body_unique def_unique clause_unique form_unique F.
    intros k2 R2. inversion R2 as [? s2 ? E2 F2]; subst. rewrite (expands_unique W s s' E s2 E2) in V. exact (V k2 F2).
  - intros ss e R. destruct R as [|s e H|ss s es e H0 H1 H2].
    + clear expr_unique body_unique def_unique clause_unique form_unique. intros e2 R2. inv R2; [reflexivity|]. match goal with H : _ = [] |- _ => destruct (app_eq_nil _ _ H); discriminate end.
    + pose proof (expr_unique _ _ H) as I1. clear expr_unique body_unique def_unique clause_unique form_unique H.
      intros e2 R2. inversion R2 as [|? ? H|ss' s' ? ? N H1 H2 E]; subst; [apply I1; assumption|].
      exfalso. destruct ss' as [|a [|b ss']]; [apply N; reflexivity | discriminate | discriminate].
    + pose proof (uniques _ _ expr_unique _ _ H1) as I1. pose proof (expr_unique _ _ H2) as I2.
      clear expr_unique body_unique def_unique clause_unique form_unique H1 H2.
      intros e2 R2. inversion R2 as [E|s' ? H E|ss' s' ? ? N H1 H2 E]; subst.
      * destruct ss; discriminate.
      * exfalso. destruct ss as [|a [|b ss]]; [apply H0; reflexivity | discriminate | discriminate].
      * apply last_eq in E. destruct E as [-> ->]. cbn. f_equal; [apply I1 | apply I2]; assumption.
  - intros s d R. destruct R as [l s body x i e A B|l s body x sc i e A M B|l s body x ps bs sc i e A E B];
      pose proof (body_unique _ _ B) as I; clear expr_unique body_unique def_unique clause_unique form_unique B; intros d2 R2;
      inversion R2 as [? ? ? x2 i2 e2 A2 B2|? ? ? x2 sc2 i2 e2 A2 M2 B2|? ? ? x2 ps2 bs2 sc2 i2 e2 A2 E2 B2]; subst;
      destruct (annotated_unique _ _ _ _ _ _ _ A A2) as [Ex [Ep Es]]; try discriminate; subst; cbn; rewrite (I _ B2).
    + reflexivity.
    + injection Es as _ _ ->. reflexivity.
    + injection Ep as Ep. rewrite Es, (binders_bare _ _ Ep). reflexivity.
  - intros s c R. destruct R as [s l sp body p e E P B]. pose proof (body_unique _ _ B) as I.
    clear expr_unique body_unique def_unique clause_unique form_unique B. intros c2 R2. inversion R2 as [? l2 sp2 body2 p2 e2 E2 P2 B2]; subst.
    pose proof (expands_unique W s _ E _ E2) as G. injection G as <- <- <-. unfold bare_clause. cbn [fst snd].
    rewrite (pattern_unique _ _ P _ P2), (I _ B2). reflexivity.
  - intros s e R. destruct R as [l r Hl|l b|l lk body e H1|l lk ld defs body ds e H1 H2|l lk a b c ea eb ec H1 H2 H3|l lk a body ea e H1 H2|l lk a cs ea es H1 H2
      |l lk|l lk a e H1|l|l lk|l lk ss es H0 H1|l x Hx|l x c Hn Hv|l x c Hn Hv|l s args e es Hn H1 H2|l lk s|l lk lx x|l lk s ann e sc H1 H2 H3].
    + clear expr_unique body_unique def_unique clause_unique form_unique. intros e2 R2. inv R2; reflexivity.
    + clear expr_unique body_unique def_unique clause_unique form_unique. intros e2 R2. inv R2; reflexivity.
    + pose proof (body_unique _ _ H1) as I1. clear expr_unique body_unique def_unique clause_unique form_unique. intros e2 R2. unfold form in R2. inv R2. apply I1. assumption.
    + pose proof (uniques _ _ def_unique _ _ H1) as I1. pose proof (body_unique _ _ H2) as I2. clear expr_unique body_unique def_unique clause_unique form_unique.
      intros e2 R2. unfold form in R2. inv R2. cbn. f_equal; [apply I1 | apply I2]; assumption.
    + pose proof (expr_unique _ _ H1) as I1. pose proof (expr_unique _ _ H2) as I2. pose proof (expr_unique _ _ H3) as I3. clear expr_unique body_unique def_unique clause_unique form_unique.
      intros e2 R2. unfold form in R2. inv R2. cbn. f_equal; [apply I1 | apply I2 | apply I3]; assumption.
    + pose proof (expr_unique _ _ H1) as I1. pose proof (body_unique _ _ H2) as I2. clear expr_unique body_unique def_unique clause_unique form_unique.
      intros e2 R2. unfold form in R2. inv R2. cbn. f_equal; [apply I1 | apply I2]; assumption.
    + pose proof (expr_unique _ _ H1) as I1. pose proof (uniques _ _ clause_unique _ _ H2) as I2. clear expr_unique body_unique def_unique clause_unique form_unique.
      intros e2 R2. unfold form in R2. inv R2. cbn. f_equal; [apply I1 | apply I2]; assumption.
    + clear expr_unique body_unique def_unique clause_unique form_unique. intros e2 R2. unfold form in R2. inv R2. reflexivity.
    + pose proof (expr_unique _ _ H1) as I1. clear expr_unique body_unique def_unique clause_unique form_unique. intros e2 R2. unfold form in R2. inv R2. cbn. do 2 f_equal. apply I1. assumption.
    + clear expr_unique body_unique def_unique clause_unique form_unique. intros e2 R2. unfold word in R2. inv R2; reflexivity.
    + clear expr_unique body_unique def_unique clause_unique form_unique. intros e2 R2. unfold form in R2. inv R2; reflexivity.
    + pose proof (uniques _ _ expr_unique _ _ H1) as I1. clear expr_unique body_unique def_unique clause_unique form_unique. intros e2 R2. unfold form in R2. inv R2. cbn. f_equal. apply I1. assumption.
    + clear expr_unique body_unique def_unique clause_unique form_unique. intros e2 R2. unfold word in R2. inv R2. reflexivity.
    + clear expr_unique body_unique def_unique clause_unique form_unique. intros e2 R2. inv R2; [congruence|].
      match goal with H : native W x = Some ?d, G : is_value_con (variant_of W ?d) = true |- _ => rewrite Hn in H; injection H as <-; cbn in Hv; intuition (subst; match goal with K : _ = variant_of W c |- _ => rewrite <- K in G; discriminate G end) end.
    + clear expr_unique body_unique def_unique clause_unique form_unique. intros e2 R2. inv R2; [|congruence].
      match goal with H : native W x = Some ?d, G : In (variant_of W ?d) _ |- _ => rewrite Hn in H; injection H as <-; cbn in G; intuition (subst; match goal with K : _ = variant_of W c |- _ => rewrite <- K in Hv; discriminate Hv end) end.
    + pose proof (expr_unique _ _ H1) as I1. pose proof (uniques _ _ expr_unique _ _ H2) as I2. clear expr_unique body_unique def_unique clause_unique form_unique.
      intros e2 R2. inv R2. cbn. f_equal; [apply I1 | apply I2]; assumption.
    + clear expr_unique body_unique def_unique clause_unique form_unique. intros e2 R2. unfold form in R2. inv R2. reflexivity.
    + clear expr_unique body_unique def_unique clause_unique form_unique. intros e2 R2. unfold form in R2. inv R2. reflexivity.
    + pose proof (expr_unique _ _ H1) as I1. clear expr_unique body_unique def_unique clause_unique form_unique. intros e2 R2. unfold form in R2. inv R2. cbn.
      match goal with H : reads_scheme W ann _ |- _ => pose proof (scheme_unique _ _ _ H2 H) as Es end. injection Es as _ _ ->. f_equal. apply I1. assumption.
Qed.
End Unique.
