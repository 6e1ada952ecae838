(** Patterns and expressions are built by the grammar. *)
From Verif.Base Require Import Base.
From Verif.Sexp Require Import Model.
From Verif.Syntax Require Import Model Spec Proofs ProofsTypes.
From Coq Require Import Permutation.
Local Arguments t_ : simpl never.
Local Arguments text_eqb : simpl never.

Lemma literal_not_bool r : literal r -> forall A (f : bool -> A) (g : srep -> A), match r with RBool b => f b | r => g r end = g r.
Proof. intros [] A f g; reflexivity. Qed.

Section Exprs.
Variable W : world.

(** * Patterns *)
Definition view_const {A} (r : srep) (b : bool -> A) (k : srep -> A) (a : A) : Prop :=
  (exists v, r = RBool v /\ a = b v) \/ (literal r /\ a = k r).
Definition view_pattern (v : spattern) (p : pattern) : Prop :=
  match v with
  | SPConst s => view_const (rep s) (fun b => PDecon (Res (bool_con W b)) None) (fun r => PConst (number W (Literal r))) p
  | SPVar x o => exists i p', reads_opt (reads_pattern W) o p' /\ p = PVar {| b_id := i; b_sym := x |} p'
  | SPTuple [] | SPUnit => p = PDecon (Res (tuple_con W 0)) None
  | SPTuple ss => exists ps, Forall2 (reads_pattern W) ss ps /\ p = PDecon (Res (tuple_con W (List.length ss))) (Some ps)
  | SPDecon u fields => exists u' ps, view_use W is_value_con u u' /\ reads_opt (Forall2 (reads_pattern W)) fields ps /\ p = PDecon u' ps
  | SPWildcard => p = PWildcard
  end.
Definition other (ks : list text) (s : sexp) : Prop := forall l lk k rest, s = form l lk k rest -> ~ In k ks.
Lemma other_app ks l s args : no_word ks s -> other ks (Sexp l (RList (s :: args))).
Proof. intros H l' lk k rest E. injection E as -> -> ->. exact (H lk k eq_refl). Qed.
Lemma app_other ks l s args : other ks (Sexp l (RList (s :: args))) -> no_word ks s.
Proof. intros H lk k ->. exact (H l lk k args eq_refl). Qed.

Lemma match_pattern_other s : other pattern_words s -> match_pattern s = match_pattern_rest s.
Proof.
  intros N. unfold match_pattern. destruct (as_form s) as [[h rest]|] eqn:F; [|reflexivity].
  apply as_form_some in F. destruct F as [l [lk F]]. specialize (N l lk h rest F). cbn in N.
  destruct (text_eqb h (t_ "let")) eqn:E1; [apply eqb_text in E1; subst h; destruct N; left; reflexivity|].
  destruct (text_eqb h (t_ ":")) eqn:E2; [apply eqb_text in E2; subst h; destruct N; right; left; reflexivity|reflexivity].
Qed.
Lemma match_pattern_rest_view s v p : other pattern_words s -> match_pattern_rest s = inl v -> view_pattern v p -> pattern_form W s p.
Proof.
  intros N E V. unfold match_pattern_rest in E. destruct s as [l r]; cbn [rep sloc] in E.
  destruct r as [b z|t|t|t|c|ss|h i la|b|x].
  1,2,4,5,8: injection E as <-; cbn [view_pattern rep] in V; destruct V as [[b' [E ->]]|[L ->]];
    [first [discriminate E | injection E as <-; constructor] | first [exact (pf_literal W _ _ L) | inversion L]].
  - destruct (text_eqb t (t_ "unit")) eqn:E1; [apply eqb_text in E1; subst; injection E as <-; cbn in V; subst; constructor|].
    destruct (text_eqb t (t_ "_")) eqn:E2; [apply eqb_text in E2; subst; injection E as <-; cbn in V; subst; constructor|].
    injection E as <-. destruct V as [u [ps [V1 [V2 ->]]]]. inversion V2; subst. apply pf_con.
    + intros l' k H. injection H as <- <-. apply eqb_text_no in E1, E2. intros [G|[G|[]]]; congruence.
    + apply use_view. exists (UName (named l t)). split; [reflexivity | exact V1].
  - unfold as_parameterized in E. cbn [as_use as_apply rep] in E. destruct ss as [|a ss]; [discriminate|].
    destruct (as_use a) as [u|] eqn:U; [|discriminate]. injection E as <-. destruct V as [u' [ps [V1 [V2 ->]]]].
    inversion V2 as [|? ps' V3]; subst. apply pf_decon; [exact (app_other _ _ _ _ N) | | exact V3].
    apply use_view. exists u. split; assumption.
  - discriminate.
  - unfold as_parameterized in E. cbn [as_use] in E. injection E as <-. destruct V as [u' [ps [V1 [V2 ->]]]]. inversion V2; subst.
    apply pf_con; [intros l' k H; discriminate|]. apply use_view. exists (UNative l x). split; [reflexivity | exact V1].
Qed.
Lemma pattern_view s p : pattern_form W s p <-> exists v, match_pattern s = inl v /\ view_pattern v p.
Proof.
  split.
  - intros H. inversion H as [l r L|l b|l|l lk lx x i|l lk lx x i s0 p0 H1|l|l lk|l lk ss ps H1 H2|s0 u H1 H2|l s0 ss u ps H1 H2 H3]; subst.
    + exists (SPConst (Sexp l r)). split; [destruct L; reflexivity|]. right. split; [exact L|reflexivity].
    + exists (SPConst (Sexp l (RBool b))). split; [reflexivity|]. left. exists b. split; reflexivity.
    + exists SPWildcard. split; reflexivity.
    + exists (SPVar (named lx x) None). split; [reflexivity|]. exists i, None. split; [constructor | reflexivity].
    + exists (SPVar (named lx x) (Some s0)). split; [reflexivity|]. exists i, (Some p0). split; [constructor; exact H1 | reflexivity].
    + exists SPUnit. split; reflexivity.
    + exists (SPTuple []). split; reflexivity.
    + exists (SPTuple ss). split; [reflexivity|]. destruct ss as [|a ss]; [destruct H1; reflexivity|]. exists ps. split; [exact H2|reflexivity].
    + destruct H2 as [l x|l x c H2 H3].
      * exists (SPDecon (UName (named l x)) None). split.
        -- unfold match_pattern, match_pattern_rest. cbn. specialize (H1 l x eq_refl). cbn in H1.
           destruct (text_eqb x (t_ "unit")) eqn:E1; [apply eqb_text in E1; destruct H1; left; congruence|].
           destruct (text_eqb x (t_ "_")) eqn:E2; [apply eqb_text in E2; destruct H1; right; left; congruence|]. reflexivity.
        -- exists (Unres (named l x)), None. repeat split. constructor.
      * exists (SPDecon (UNative l x) None). split; [reflexivity|]. exists (Res c), None. repeat split; [exists c; repeat split; assumption | constructor].
    + apply use_view in H2. destruct H2 as [v [E V]]. exists (SPDecon v (Some ss)). split.
      * rewrite match_pattern_other; [|apply other_app; exact H1]. unfold match_pattern_rest, as_parameterized. cbn. rewrite E. reflexivity.
      * exists u, (Some ps). repeat split; [exact V | constructor; exact H3].
  - intros [v [E V]]. destruct (as_form s) as [[h rest]|] eqn:F.
    + pose proof F as F0. apply as_form_some in F. destruct F as [l [lk ->]]. unfold match_pattern in E. rewrite F0 in E.
      destruct (text_eqb h (t_ "let")) eqn:E1; [apply eqb_text in E1; subst h | destruct (text_eqb h (t_ ":")) eqn:E2; [apply eqb_text in E2; subst h|]].
      * destruct rest as [|[lx rx] [|s2 [|s3 rest]]]; try discriminate; destruct rx; cbn [as_name] in E; try discriminate;
          injection E as <-; destruct V as [i [p' [V ->]]]; inversion V as [|? p0 V']; subst; constructor; assumption.
      * injection E as <-. destruct rest as [|a rest]; cbn [view_pattern] in V; [subst; constructor|].
        destruct V as [ts [V1 ->]]. constructor; [discriminate | exact V1].
      * apply match_pattern_rest_view with (v := v); [|exact E|exact V].
        intros l' lk' k rest' G. injection G as -> -> -> ->. apply eqb_text_no in E1, E2. intros [G|[G|[]]]; congruence.
    + apply match_pattern_rest_view with (v := v); [|unfold match_pattern in E; rewrite F in E; exact E|exact V].
      intros l' lk' k rest' ->. discriminate.
Qed.
Lemma reads_pattern_eq s p : reads_pattern W s p <-> exists s', expands W s s' /\ pattern_form W s' p.
Proof. split; [intros [s0 s' k' E F]; exists s'; split; assumption | intros [s' [E F]]; exact (read_pattern W s s' p E F)]. Qed.

Lemma spec_drop {A} acc (m : M A) Q ids : spec_from acc m Q ids -> spec_from acc (andthen m (fun e => andthen next (fun _ => ret e))) Q ids.
Proof.
  intros H c0 c Hc F. specialize (H c0 c Hc F). unfold andthen. destruct (m c) as [[c1 [a|e]]| |]; cbn; [|exact H|exact I|exact I].
  destruct H as [H1 [H2 H3]]. split; [exact H1|]. split; [lia|]. eapply fresh_le; [|exact H3]. lia.
Qed.
Definition literal_or_bool (r : srep) : Prop := literal r \/ exists b, r = RBool b.
Ltac constant s L :=
  destruct s as [? r]; destruct r; try (exfalso; destruct L as [L|[? L]]; solve [inversion L | discriminate L]);
  (apply spec_ret; [cbn; unfold view_const; first [left; eexists; split; reflexivity | right; split; [constructor | reflexivity]] | reflexivity]).
Lemma match_pattern_const s s0 : match_pattern s = inl (SPConst s0) -> literal_or_bool (rep s0).
Proof.
  unfold match_pattern. assert (R : match_pattern_rest s = inl (SPConst s0) -> literal_or_bool (rep s0)).
  { unfold match_pattern_rest. destruct s as [l [b z|t|t|t|c|ss|h i la|b|x]]; cbn [rep sloc]; intro H.
    1,2,4,5: injection H as <-; left; constructor.
    4: injection H as <-; right; exists b; reflexivity.
    - words; discriminate.
    - destruct (as_parameterized _) as [[? ?]|]; discriminate.
    - discriminate.
    - destruct (as_parameterized _) as [[? ?]|]; discriminate. }
  destruct (as_form s) as [[h rest]|]; [|exact R].
  destruct (text_eqb h (t_ "let")).
  - destruct rest as [|x [|p [|q rest]]]; try discriminate; destruct (as_name x); discriminate.
  - destruct (text_eqb h (t_ ":")); [discriminate | exact R].
Qed.

Lemma spec_pattern n : forall s, spec (build_pattern W n s) (reads_pattern W s) ids_pattern.
Proof.
  induction n as [|n IH]; intros s; cbn [build_pattern]; [apply spec_tired|].
  apply (spec_node W n s match_pattern _ (reads_pattern W) (pattern_form W) view_pattern); [apply reads_pattern_eq | apply pattern_view |].
  intros s' v _ Ev. apply spec_drop. destruct v as [s0|x o|ss| |u fields|]; cbn [view_pattern].
  - pose proof (match_pattern_const _ _ Ev) as L. constant s0 L.
  - apply spec_bind with (P := fun b => b_sym b = x) (i := fun b => [b_id b]); [apply spec_declare| |].
    + intros N. destruct (N {| b_id := 0; b_sym := x |} eq_refl).
    + intros [i x'] Hb. cbn in Hb. subst. apply spec_bind with (P := reads_opt (reads_pattern W) o) (i := ids_opt ids_pattern).
      * apply spec_opt. intros a _. apply IH.
      * intros N b [i' [p' [H _]]]. exact (N p' H).
      * intros p' Hp. apply spec_ret; [exists i, p'; split; [exact Hp | reflexivity]|]. cbn [ids_pattern b_id]. perm.
  - apply spec_bind with (P := Forall2 (reads_pattern W) ss) (i := flat_map ids_pattern).
    + apply spec_all. intros a _. apply IH.
    + intros N b H. destruct ss as [|a ss]; [exact (N [] (Forall2_nil _))|]. destruct H as [ps [H _]]. exact (N ps H).
    + intros ps Hps. apply spec_sized. apply spec_ret.
      * rewrite <- (Forall2_length Hps). destruct Hps as [|a p args ps Ha Hps]; [reflexivity|].
        exists (p :: ps). split; [constructor; assumption | reflexivity].
      * rewrite app_nil_r. destruct ps; reflexivity.
  - apply spec_ret; reflexivity.
  - apply spec_bind with (P := view_use W is_value_con u) (i := none); [apply spec_use| |].
    + intros N b [u' [ps [H _]]]. exact (N u' H).
    + intros u' Hu. apply spec_bind with (P := reads_opt (Forall2 (reads_pattern W)) fields) (i := ids_opt (flat_map ids_pattern)).
      * apply spec_opt. intros a _. apply spec_all. intros a' _. apply IH.
      * intros N b [u0 [ps [_ [H _]]]]. exact (N ps H).
      * intros ps Hps. apply spec_ret; [exists u', ps; repeat split; assumption|].
        unfold none. rewrite !app_nil_r. destruct ps; reflexivity.
  - apply spec_ret; reflexivity.
Qed.

(** * Definitions *)
Lemma as_name_some s n : as_name s = Some n <-> s = word (s_loc n) (s_name n).
Proof.
  split.
  - destruct s as [l [| |t| | | | | |]]; cbn; try discriminate. intro H. injection H as <-. reflexivity.
  - intros ->. destruct n. reflexivity.
Qed.
Lemma names_some l ns : all_some as_name l = Some ns <-> l = map (fun p => word (s_loc p) (s_name p)) ns.
Proof.
  revert ns; induction l as [|a l IH]; intros ns; cbn [all_some].
  - split; intro H; [injection H as <-; reflexivity | destruct ns; [reflexivity | discriminate]].
  - split.
    + destruct (as_name a) as [n|] eqn:E; [|discriminate]. destruct (all_some as_name l) as [ns'|]; [|discriminate].
      intro H. injection H as <-. apply as_name_some in E. subst. cbn. f_equal. apply IH. reflexivity.
    + destruct ns as [|n ns]; [discriminate|]. cbn. intro H. injection H as -> ->.
      assert (E : as_name (word (s_loc n) (s_name n)) = Some n) by (apply as_name_some; reflexivity). rewrite E.
      assert (E2 : all_some as_name (map (fun p => word (s_loc p) (s_name p)) ns) = Some ns) by (apply IH; reflexivity). rewrite E2. reflexivity.
Qed.
Lemma header_view s x ps : reads_header s x ps <-> as_header s = Some (x, ps).
Proof.
  split.
  - intros [l t|l lx t ps']; [reflexivity|]. unfold as_header. cbn [as_name as_apply rep word].
    assert (E : all_some as_name (map (fun p => word (s_loc p) (s_name p)) ps') = Some ps') by (apply names_some; reflexivity). rewrite E. reflexivity.
  - unfold as_header. destruct (as_name s) as [n|] eqn:E.
    + intro H. injection H as -> <-. apply as_name_some in E. subst. destruct x. constructor.
    + destruct (as_apply s) as [[a args]|] eqn:A; [|discriminate]. destruct (as_name a) as [n|] eqn:En; [|discriminate].
      destruct (all_some as_name args) as [ns|] eqn:Es; [|discriminate]. intro H. injection H as -> <-.
      apply as_apply_some in A. destruct A as [l ->]. apply as_name_some in En. apply names_some in Es. subst. destruct x. constructor.
Qed.
Lemma annotated_view s x ps sc : reads_annotated W s x ps sc <->
  exists v, as_annotated s = Some (x, ps, v) /\ reads_opt (view_scheme W) v sc.
Proof.
  split.
  - intros [s0 x0 ps0 N H|l lk s0 ann x0 ps0 sc0 H1 H2].
    + apply header_view in H. exists None. split; [|constructor]. unfold as_annotated. rewrite H.
      destruct (as_form s0) as [[k [|b rest]]|] eqn:F; try reflexivity. apply as_form_some in F. destruct F as [l [lk ->]].
      destruct (text_eqb k ANNOTATE) eqn:E; [|reflexivity]. apply eqb_text in E. subst. destruct (N l lk b rest eq_refl).
    + apply header_view in H1. apply scheme_view in H2. destruct H2 as [v [E V]]. exists (Some v). split; [|constructor; exact V].
      unfold as_annotated, form. cbn [as_form rep]. change (t_ "annotate") with ANNOTATE. rewrite eqb_text_refl, H1, E. reflexivity.
  - intros [v [E V]]. unfold as_annotated in E. destruct (as_form s) as [[k rest]|] eqn:F.
    + pose proof F as F0. apply as_form_some in F. destruct F as [l [lk ->]]. destruct rest as [|b rest].
      * destruct (as_header (form l lk k [])) as [h|] eqn:H; [|discriminate]. injection E as -> <-. inversion V; subst.
        constructor; [intros l' lk' a r G; discriminate | apply header_view; exact H].
      * destruct (text_eqb k ANNOTATE) eqn:K.
        -- apply eqb_text in K. subst. destruct (as_header b) as [h|] eqn:H; [|discriminate]. destruct (match_scheme rest) as [v0|] eqn:S; [|discriminate].
           injection E as -> <-. inversion V as [|? sc' V']; subst. apply ra_typed; [apply header_view; exact H|].
           apply scheme_view. exists v0. split; assumption.
        -- destruct (as_header (form l lk k (b :: rest))) as [h|] eqn:H; [|discriminate]. injection E as -> <-. inversion V; subst.
           constructor; [|apply header_view; exact H]. intros l' lk' a r G. injection G as -> -> -> -> ->.
           apply eqb_text_no in K. apply K. reflexivity.
    + destruct (as_header s) as [h|] eqn:H; [|discriminate]. injection E as -> <-. inversion V; subst.
      constructor; [intros l' lk' a r G; subst; discriminate | apply header_view; exact H].
Qed.

Definition view_def (v : sdef) (d : def) : Prop :=
  exists i ps sc e, reads_opt (fun ns bs => map b_sym bs = ns) (sd_params v) ps /\ reads_opt (view_scheme W) (sd_scheme v) sc /\ reads_body W (sd_body v) e /\
    match ps, sc with
    | Some ps, _ => d = DFun {| b_id := i; b_sym := sd_name v |} sc ps e
    | None, Some sc => monomorphic sc /\ d = DVar {| b_id := i; b_sym := sd_name v |} (Some (sc_body sc)) e
    | None, None => d = DVar {| b_id := i; b_sym := sd_name v |} None e
    end.
Lemma def_view s d : reads_def W s d <-> exists v, match_def s = inl v /\ view_def v d.
Proof.
  split.
  - intros H. inversion H as [l s0 body x i e A B|l s0 body x sc i e A Mo B|l s0 body x ps bs sc i e A Mo B]; subst;
      apply annotated_view in A; destruct A as [v [E V]]; unfold match_def; cbn [as_apply rep]; rewrite E; eexists; (split; [reflexivity|]).
    + exists i, None, None, e. repeat split; [constructor | exact V | exact B].
    + exists i, None, (Some sc), e. repeat split; [constructor | exact V | exact B | apply Mo | apply Mo].
    + exists i, (Some bs), sc, e. repeat split; [constructor; reflexivity | exact V | exact B].
  - intros [v [E [i [ps [sc [e [V1 [V2 [V3 V4]]]]]]]]]. unfold match_def in E.
    destruct (as_apply s) as [[a body]|] eqn:A; [|discriminate]. destruct (as_annotated a) as [[[x ps0] sc0]|] eqn:N; [|discriminate].
    injection E as <-. cbn in V1, V2, V3, V4. apply as_apply_some in A. destruct A as [l ->].
    assert (G : reads_annotated W a x ps0 sc) by (apply annotated_view; exists sc0; split; assumption).
    destruct ps as [ps|].
    + inversion V1 as [|ns ? V1']; subst. econstructor; [exact G | reflexivity | exact V3].
    + inversion V1; subst. destruct sc as [sc|].
      * destruct V4 as [Mo ->]. eapply rd_var_typed; eassumption.
      * subst. constructor; assumption.
Qed.

Lemma body_one s e : reads_body W [s] e <-> reads_expr W s e.
Proof.
  split; [|constructor; assumption]. intro H. inversion H as [|? ? H1|ss s0 es e0 N F R E]; subst; [exact H1|].
  destruct ss as [|a [|b ss]]; [destruct N; reflexivity|discriminate|discriminate].
Qed.
Lemma body_seq ss s e : ss <> [] -> reads_body W (ss ++ [s]) e <-> exists es e', Forall2 (reads_expr W) ss es /\ reads_expr W s e' /\ e = ESeq es e'.
Proof.
  intros N. split.
  - intro H. inversion H as [E|s0 ? H1 E|ss0 s0 es e0 N0 F R E]; subst.
    + destruct ss; discriminate.
    + destruct ss as [|a [|b ss]]; [destruct N; reflexivity|discriminate|discriminate].
    + apply app_inj_tail in E. destruct E as [-> ->]. exists es, e0. repeat split; assumption.
  - intros [es [e' [F [R ->]]]]. constructor; assumption.
Qed.

(** * Expressions *)
Definition view_expr (v : sexpr) (e : expr) : Prop :=
  match v with
  | SEBegin body => reads_body W body e
  | SELet defs body => exists ds b, Forall2 (reads_def W) defs ds /\ reads_body W body b /\ e = ELet ds b
  | SEIf c t f => exists x y z, reads_expr W c x /\ reads_expr W t y /\ reads_expr W f z /\ e = EIf x y z
  | SEWhile c body => exists x b, reads_expr W c x /\ reads_body W body b /\ e = EWhile x b
  | SEMatch t cs => exists x es, reads_expr W t x /\ Forall2 (reads_clause W) cs es /\ e = EMatch x es
  | SEReturn o => exists x, reads_opt (reads_expr W) o x /\ e = EReturn x
  | SETuple [] | SEUnit => e = ECon (tuple_con W 0)
  | SETuple ss => exists es, Forall2 (reads_expr W) ss es /\ e = EApp (ECon (tuple_con W (List.length ss))) es
  | SEUse (UName x) => e = EUse (Unres x)
  | SEUse (UNative _ x) => exists c, native W x = Some c /\
      (is_static (variant_of W c) = true /\ e = EUse (Res c) \/ is_value_con (variant_of W c) = true /\ e = ECon c)
  | SEApp callee args => exists x es, reads_expr W callee x /\ Forall2 (reads_expr W) args es /\ e = EApp x es
  | SEQuote s => e = EConst (number W (Quoted s))
  | SECapture x => e = ECapture (Unres x)
  | SEAnnotate _ s v => exists x sc, reads_expr W s x /\ view_scheme W v sc /\ monomorphic sc /\ e = EAnnotate x (sc_body sc)
  | SELiteral s => view_const (rep s) (fun b => ECon (bool_con W b)) (fun r => EConst (number W (Literal r))) e
  end.
Lemma static_in v : In v [VFunction; VCFunction; VBuiltinOp; VClassMethod] <-> is_static v = true.
Proof. split; [intros [<-|[<-|[<-|[<-|[]]]]]; reflexivity | destruct v; cbn; intro H; try discriminate H; tauto]. Qed.
Ltac step_word E := match type of E with
  | context [if text_eqb ?h ?k then _ else _] => let K := fresh "K" in destruct (text_eqb h k) eqn:K; [apply eqb_text in K; subst h | apply eqb_text_no in K]
  end.
Lemma match_expr_other s : other expr_words s -> match_expr s = match_expr_rest s.
Proof.
  intros N. unfold match_expr. destruct (as_form s) as [[h rest]|] eqn:F; [|reflexivity].
  apply as_form_some in F. destruct F as [l [lk F]]. specialize (N l lk h rest F).
  repeat match goal with
  | |- context [if text_eqb h ?k then _ else _] => let K := fresh "K" in destruct (text_eqb h k) eqn:K; [apply eqb_text in K; subst h; exfalso; apply N; cbn; tauto | clear K]
  end. reflexivity.
Qed.
Lemma match_expr_rest_view s v e : other expr_words s -> match_expr_rest s = inl v -> view_expr v e -> expr_form W s e.
Proof.
  intros N E V. unfold match_expr_rest in E. destruct s as [l r]; destruct r as [b z|t|t|t|c|ss|h i la|b|x];
    cbn [as_use as_apply rep sloc named s_name] in E.
  1,2,4,5,8: injection E as <-; cbn [view_expr rep] in V; destruct V as [[b' [E ->]]|[L ->]];
    [first [discriminate E | injection E as <-; constructor] | first [exact (ef_literal W _ _ L) | inversion L]].
  - destruct (text_eqb t (t_ "unit")) eqn:E1; [apply eqb_text in E1; subst; injection E as <-; cbn in V; subst; constructor|].
    apply eqb_text_no in E1. injection E as <-. cbn in V. subst. constructor. exact E1.
  - destruct ss as [|a ss]; [discriminate|]. injection E as <-. destruct V as [x [es [V1 [V2 ->]]]].
    constructor; [exact (app_other _ _ _ _ N) | assumption | assumption].
  - discriminate.
  - injection E as <-. destruct V as [c [V1 [[V2 ->]|[V2 ->]]]].
    + apply ef_native_value; [exact V1 | apply static_in; exact V2].
    + apply ef_native_con; assumption.
Qed.
Lemma expr_view s e : expr_form W s e <-> exists v, match_expr s = inl v /\ view_expr v e.
Proof.
  split.
  - intros H. destruct H as [l r L|l b|l lk body e H1|l lk ld defs body ds e H1 H2|l lk a b c ea eb ec H1 H2 H3|l lk a body ea e H1 H2|l lk a cs ea es H1 H2
      |l lk|l lk a e H1|l|l lk|l lk ss es H1 H2|l x H1|l x c H1 H2|l x c H1 H2|l s args e es H1 H2 H3|l lk s|l lk lx x|l lk s ann e sc H1 H2 H3].
    + exists (SELiteral (Sexp l r)). split; [destruct L; reflexivity|]. right. split; [exact L|reflexivity].
    + exists (SELiteral (Sexp l (RBool b))). split; [reflexivity|]. left. exists b. split; reflexivity.
    + exists (SEBegin body). split; [reflexivity | exact H1].
    + exists (SELet defs body). split; [reflexivity|]. exists ds, e. repeat split; assumption.
    + exists (SEIf a b c). split; [reflexivity|]. exists ea, eb, ec. repeat split; assumption.
    + exists (SEWhile a body). split; [reflexivity|]. exists ea, e. repeat split; assumption.
    + exists (SEMatch a cs). split; [reflexivity|]. exists ea, es. repeat split; assumption.
    + exists (SEReturn None). split; [reflexivity|]. exists None. split; [constructor|reflexivity].
    + exists (SEReturn (Some a)). split; [reflexivity|]. exists (Some e). split; [constructor; exact H1|reflexivity].
    + exists SEUnit. split; reflexivity.
    + exists (SETuple []). split; reflexivity.
    + exists (SETuple ss). split; [reflexivity|]. destruct ss as [|a ss]; [destruct H1; reflexivity|]. exists es. split; [exact H2|reflexivity].
    + exists (SEUse (UName (named l x))). split; [|reflexivity]. unfold match_expr, match_expr_rest; cbn. apply eqb_text_no in H1. rewrite H1. reflexivity.
    + exists (SEUse (UNative l x)). split; [reflexivity|]. exists c. split; [exact H1|]. left. split; [apply static_in; exact H2 | reflexivity].
    + exists (SEUse (UNative l x)). split; [reflexivity|]. exists c. split; [exact H1|]. right. split; [exact H2 | reflexivity].
    + exists (SEApp s args). split; [|exists e, es; repeat split; assumption].
      rewrite match_expr_other; [reflexivity|]. apply other_app. exact H1.
    + exists (SEQuote s). split; reflexivity.
    + exists (SECapture (named lx x)). split; reflexivity.
    + apply scheme_view in H2. destruct H2 as [v [E V]]. exists (SEAnnotate l s v). split.
      * unfold match_expr, form. cbn -[match_scheme]. rewrite E. reflexivity.
      * exists e, sc. split; [exact H1|]. split; [exact V|]. split; [exact H3 | reflexivity].
  - intros [v [E V]]. destruct (as_form s) as [[h rest]|] eqn:F.
    + pose proof F as F0. apply as_form_some in F. destruct F as [l [lk ->]].
      assert (D : In h expr_words \/ ~ In h expr_words).
      { destruct (in_dec (list_eq_dec N.eq_dec) h expr_words); [left | right]; assumption. }
      destruct D as [D|D].
      * unfold match_expr in E. rewrite F0 in E. cbn [sloc form] in E.
        step_word E; [injection E as <-; constructor; exact V|].
        step_word E. { destruct rest as [|[ld [| | | | |defs| | |]] rest]; try discriminate. injection E as <-. destruct V as [ds [b [V1 [V2 ->]]]]. constructor; assumption. }
        step_word E. { destruct rest as [|a [|b [|c [|d rest]]]]; try discriminate. injection E as <-. destruct V as [x [y [z [V1 [V2 [V3 ->]]]]]]. constructor; assumption. }
        step_word E. { destruct rest as [|a rest]; try discriminate. injection E as <-. destruct V as [x [b [V1 [V2 ->]]]]. constructor; assumption. }
        step_word E. { destruct rest as [|a rest]; try discriminate. injection E as <-. destruct V as [x [b [V1 [V2 ->]]]]. constructor; assumption. }
        step_word E. { destruct rest as [|a [|b rest]]; try discriminate; injection E as <-; destruct V as [x [V ->]]; inversion V; subst; constructor; assumption. }
        step_word E. { injection E as <-. destruct rest as [|a rest]; cbn [view_expr] in V; [subst; constructor|]. destruct V as [es [V ->]]. constructor; [discriminate | exact V]. }
        step_word E. { destruct rest as [|a [|b rest]]; try discriminate. injection E as <-. cbn in V. subst. constructor. }
        step_word E. { destruct rest as [|[la [| |t| | | | | |]] [|b rest]]; try discriminate. injection E as <-. cbn in V. subst. constructor. }
        step_word E.
        { destruct rest as [|a rest]; try discriminate. destruct (match_scheme rest) as [v0|] eqn:S; [|discriminate]. injection E as <-.
          destruct V as [x [sc [V1 [V2 [V3 ->]]]]]. constructor; [exact V1 | apply scheme_view; exists v0; split; assumption | exact V3]. }
        exfalso. destruct D as [D|[D|[D|[D|[D|[D|[D|[D|[D|[D|[]]]]]]]]]]]; subst h; try congruence;
          match goal with K : ?a <> ?a |- _ => apply K; reflexivity | K : t_ _ <> _ |- _ => apply K; reflexivity end.
      * assert (O : other expr_words (form l lk h rest)) by (intros l' lk' k rest' G; injection G as -> -> -> ->; exact D).
        rewrite (match_expr_other _ O) in E. exact (match_expr_rest_view _ _ _ O E V).
    + assert (O : other expr_words s) by (intros l' lk' k rest' ->; discriminate).
      rewrite (match_expr_other _ O) in E. exact (match_expr_rest_view _ _ _ O E V).
Qed.
Lemma reads_expr_eq s e : reads_expr W s e <-> exists s', expands W s s' /\ expr_form W s' e.
Proof. split; [intros [s0 s' k' E F]; exists s'; split; assumption | intros [s' [E F]]; exact (read_expr W s s' e E F)]. Qed.
Lemma match_expr_literal s s0 : match_expr s = inl (SELiteral s0) -> literal_or_bool (rep s0).
Proof.
  assert (R : match_expr_rest s = inl (SELiteral s0) -> literal_or_bool (rep s0)).
  { unfold match_expr_rest. destruct s as [l [b z|t|t|t|c|ss|h i la|b|x]]; cbn [as_use as_apply rep sloc named s_name]; intro H.
    1,2,4,5: injection H as <-; left; constructor.
    4: injection H as <-; right; exists b; reflexivity.
    - words; discriminate.
    - destruct ss; discriminate.
    - discriminate.
    - discriminate. }
  unfold match_expr. destruct (as_form s) as [[h rest]|]; [|exact R]. intro E.
  step_word E; [discriminate|].
  step_word E. { destruct rest as [|[ld [| | | | |defs| | |]] rest]; discriminate. }
  step_word E. { destruct rest as [|a [|b [|c [|d rest]]]]; discriminate. }
  step_word E. { destruct rest as [|a rest]; discriminate. }
  step_word E. { destruct rest as [|a rest]; discriminate. }
  step_word E. { destruct rest as [|a [|b rest]]; discriminate. }
  step_word E; [discriminate|].
  step_word E. { destruct rest as [|a [|b rest]]; discriminate. }
  step_word E. { destruct rest as [|a [|b rest]]; try discriminate. destruct (as_name a); discriminate. }
  step_word E. { destruct rest as [|a rest]; try discriminate. destruct (match_scheme rest); discriminate. }
  exact (R E).
Qed.

Section Bodies.
Variable build : sexp -> M expr.
Hypothesis IH : forall s, spec (build s) (reads_expr W s) ids_expr.

Lemma spec_body ss : spec (build_body W build ss) (reads_body W ss) ids_expr.
Proof.
  destruct ss as [|s [|s2 ss]].
  - apply spec_ret; [constructor | reflexivity].
  - cbn [build_body]. apply spec_iff with (Q' := reads_expr W s); [intros e; apply body_one | apply IH].
  - unfold build_body. destruct (split_last (s :: s2 :: ss)) as [[ss' s']|] eqn:L; [|apply spec_panic].
    apply split_last_some in L. rewrite L.
    assert (N : ss' <> []) by (intros ->; destruct ss; discriminate).
    apply spec_iff with (Q' := fun e => exists es e', Forall2 (reads_expr W) ss' es /\ reads_expr W s' e' /\ e = ESeq es e'); [intros e; apply body_seq; exact N|].
    apply spec_bind with (P := Forall2 (reads_expr W) ss') (i := flat_map ids_expr).
    + apply spec_all. intros a _. apply IH.
    + intros Nn b [es [e' [H _]]]. exact (Nn es H).
    + intros es Hes. apply spec_bind with (P := reads_expr W s') (i := ids_expr); [apply IH| |].
      * intros Nn b [es' [e' [_ [H _]]]]. exact (Nn e' H).
      * intros e He. apply spec_ret; [exists es, e; repeat split; assumption|]. cbn [ids_expr]. perm.
Qed.
Lemma spec_block ss : spec (build_block W build ss) (reads_body W ss) ids_expr.
Proof. apply spec_drop. apply spec_body. Qed.
Lemma spec_params ns : spec (all declare ns) (fun bs => map b_sym bs = ns) (map b_id).
Proof.
  apply spec_iff with (Q' := Forall2 (fun n b => b_sym b = n) ns).
  - intros bs. split.
    + intros <-. induction bs; constructor; [reflexivity | assumption].
    + induction 1 as [|n b ns bs H _ E]; [reflexivity|]. cbn. congruence.
  - apply spec_tail with (i := flat_map (fun b => [b_id b])).
    + apply spec_all. intros a _. apply spec_declare.
    + intros bs. rewrite flat_map_single, app_nil_r. reflexivity.
Qed.
Lemma spec_def n s : spec (build_def W build n s) (reads_def W s) ids_def.
Proof.
  unfold build_def. apply spec_bind with (P := fun v => match_def s = inl v) (i := none); [apply spec_lift| |].
  { intros N d H. apply def_view in H. destruct H as [v [E _]]. exact (N v E). }
  intros v E. apply spec_iff with (Q' := view_def v).
  { intros d. rewrite def_view. split; [intros [v' [E' V]]; rewrite E in E'; injection E' as <-; exact V | intros V; exists v; split; assumption]. }
  apply spec_bind with (P := reads_opt (fun ns bs => map b_sym bs = ns) (sd_params v)) (i := ids_opt (map b_id)).
  { apply spec_opt. intros a _. apply spec_params. }
  { intros N d [i [ps [sc [e [H _]]]]]. exact (N ps H). }
  intros ps Hps. apply spec_bind with (P := reads_opt (view_scheme W) (sd_scheme v)) (i := ids_opt ids_scheme).
  { apply spec_opt. intros a _. apply spec_scheme. }
  { intros N d [i [ps' [sc [e [_ [H _]]]]]]. exact (N sc H). }
  intros sc Hsc. apply spec_bind with (P := reads_body W (sd_body v)) (i := ids_expr); [apply spec_block| |].
  { intros N d [i [ps' [sc' [e [_ [_ [H _]]]]]]]. exact (N e H). }
  intros e He.
  assert (D : forall k, (forall i, spec_from ([i] ++ ids_expr e ++ ids_opt ids_scheme sc ++ ids_opt (map b_id) ps ++ none v ++ []) (k {| b_id := i; b_sym := sd_name v |}) (view_def v) ids_def) ->
     spec_from (ids_expr e ++ ids_opt ids_scheme sc ++ ids_opt (map b_id) ps ++ none v ++ []) (andthen (declare (sd_name v)) k) (view_def v) ids_def).
  { intros k Hk. apply spec_bind with (P := fun b => b_sym b = sd_name v) (i := fun b => [b_id b]); [apply spec_declare| |].
    - intros N. destruct (N {| b_id := 0; b_sym := sd_name v |} eq_refl).
    - intros [i x] Hb. cbn in Hb. subst. apply Hk. }
  destruct ps as [ps|].
  - apply D. intros i. apply spec_ret.
    + exists i, (Some ps), sc, e. repeat split; assumption.
    + cbn [ids_def b_id]. perm.
  - destruct sc as [sc|].
    + destruct (is_monomorphic sc) eqn:Mo.
      * apply D. intros i. apply spec_ret.
        -- exists i, None, (Some sc), e. repeat split; try assumption; apply is_monomorphic_iff; exact Mo.
        -- apply is_monomorphic_iff in Mo. destruct Mo as [Mo _]. cbn [ids_def b_id ids_opt]. unfold ids_scheme. rewrite Mo. perm.
      * apply spec_refuse. intros d [i [ps' [sc' [e' [H1 [H2 [H3 H4]]]]]]]. inversion Hps as [E1|]. rewrite <- E1 in H1. inversion H1; subst.
        inversion Hsc as [|v0 ? V0 E2]; subst. rewrite <- E2 in H2. inversion H2 as [|? sc0 V1]; subst. destruct H4 as [H4 _].
        apply is_monomorphic_iff in H4. rewrite (mono_view W v0 sc sc0 V0 V1) in Mo. congruence.
    + apply D. intros i. apply spec_ret.
      * exists i, None, None, e. repeat split; assumption.
      * cbn [ids_def b_id]. perm.
Qed.
Lemma spec_clause n s : spec (build_clause W build n s) (reads_clause W s) (fun c => ids_pattern (fst c) ++ ids_expr (snd c)).
Proof.
  unfold build_clause. apply (spec_node W n s match_clause _ (reads_clause W)
    (fun s' c => exists l sp body, s' = Sexp l (RList (sp :: body)) /\ reads_pattern W sp (fst c) /\ reads_body W body (snd c))
    (fun v c => reads_pattern W (fst v) (fst c) /\ reads_body W (snd v) (snd c))).
  - intros c. split.
    + intros [s0 l sp body p e E H1 H2]. exists (Sexp l (RList (sp :: body))). split; [exact E|]. exists l, sp, body. repeat split; assumption.
    + intros [s' [E [l [sp [body [-> [H1 H2]]]]]]]. destruct c as [p e]. exact (rc_clause W s l sp body p e E H1 H2).
  - intros s' c. split.
    + intros [l [sp [body [-> [H1 H2]]]]]. exists (sp, body). split; [reflexivity|]. split; assumption.
    + intros [[sp body] [E [H1 H2]]]. unfold match_clause in E. destruct (as_apply s') as [x|] eqn:A; [|discriminate]. injection E as ->.
      apply as_apply_some in A. destruct A as [l ->]. exists l, sp, body. repeat split; assumption.
  - intros s' [sp body] _ _. cbn [fst snd]. apply spec_bind with (P := reads_pattern W sp) (i := ids_pattern); [apply spec_pattern| |].
    + intros N c [H _]. exact (N _ H).
    + intros p Hp. apply spec_bind with (P := reads_body W body) (i := ids_expr); [apply spec_block| |].
      * intros N c [_ H]. exact (N _ H).
      * intros e He. apply spec_ret; [split; assumption|]. perm.
Qed.
End Bodies.

Lemma spec_expr n : forall s, spec (build_expr W n s) (reads_expr W s) ids_expr.
Proof.
  induction n as [|n IH]; intros s; cbn [build_expr]; [apply spec_tired|].
  apply (spec_node W n s match_expr _ (reads_expr W) (expr_form W) view_expr); [apply reads_expr_eq | apply expr_view |].
  intros s' v _ Ev. apply spec_drop.
  assert (IHs : forall l, spec (all (build_expr W n) l) (Forall2 (reads_expr W) l) (flat_map ids_expr)) by (intros l; apply spec_all; intros a _; apply IH).
  destruct v as [body|defs body|c t e|c body|t cs|o|ss| |[x|l x]|callee args|q|x|l e v|s0]; cbn [view_expr].
  - apply spec_body. exact IH.
  - apply spec_bind with (P := Forall2 (reads_def W) defs) (i := flat_map ids_def).
    { apply spec_all. intros a _. apply spec_def. exact IH. }
    { intros N b [ds [x [H _]]]. exact (N ds H). }
    intros ds Hds. apply spec_bind with (P := reads_body W body) (i := ids_expr); [apply spec_block; exact IH| |].
    { intros N b [ds' [x [_ [H _]]]]. exact (N x H). }
    intros x Hx. apply spec_ret; [exists ds, x; repeat split; assumption|]. cbn [ids_expr]. perm.
  - apply spec_bind with (P := reads_expr W c) (i := ids_expr); [apply IH| |]. { intros N b [x [y [z [H _]]]]. exact (N x H). }
    intros x Hx. apply spec_bind with (P := reads_expr W t) (i := ids_expr); [apply IH| |]. { intros N b [x' [y [z [_ [H _]]]]]. exact (N y H). }
    intros y Hy. apply spec_bind with (P := reads_expr W e) (i := ids_expr); [apply IH| |]. { intros N b [x' [y' [z [_ [_ [H _]]]]]]. exact (N z H). }
    intros z Hz. apply spec_ret; [exists x, y, z; repeat split; assumption|]. cbn [ids_expr]. perm.
  - apply spec_bind with (P := reads_expr W c) (i := ids_expr); [apply IH| |]. { intros N b [x [y [H _]]]. exact (N x H). }
    intros x Hx. apply spec_bind with (P := reads_body W body) (i := ids_expr); [apply spec_block; exact IH| |]. { intros N b [x' [y [_ [H _]]]]. exact (N y H). }
    intros y Hy. apply spec_ret; [exists x, y; repeat split; assumption|]. cbn [ids_expr]. perm.
  - apply spec_bind with (P := reads_expr W t) (i := ids_expr); [apply IH| |]. { intros N b [x [y [H _]]]. exact (N x H). }
    intros x Hx. apply spec_bind with (P := Forall2 (reads_clause W) cs) (i := flat_map (fun c => ids_pattern (fst c) ++ ids_expr (snd c))).
    { apply spec_all. intros a _. apply spec_clause. exact IH. }
    { intros N b [x' [y [_ [H _]]]]. exact (N y H). }
    intros y Hy. apply spec_ret; [exists x, y; repeat split; assumption|]. cbn [ids_expr]. perm.
  - apply spec_bind with (P := reads_opt (reads_expr W) o) (i := ids_opt ids_expr). { apply spec_opt. intros a _. apply IH. }
    { intros N b [x [H _]]. exact (N x H). }
    intros x Hx. apply spec_ret; [exists x; split; [assumption | reflexivity]|]. cbn [ids_expr]. perm.
  - destruct ss as [|a ss]; [apply spec_ret; reflexivity|]. apply spec_sized. apply spec_step. intros _.
    apply spec_bind with (P := Forall2 (reads_expr W) (a :: ss)) (i := flat_map ids_expr); [apply IHs| |].
    { intros N b [es [H _]]. exact (N es H). }
    intros es Hes. apply spec_ret; [exists es; split; [exact Hes | reflexivity]|]. cbn [ids_expr]. perm.
  - apply spec_ret; reflexivity.
  - apply spec_step. intros _. apply spec_ret; reflexivity.
  - destruct (native W x) as [c|] eqn:NE; [|apply spec_panic].
    destruct (is_value (variant_of W c)) eqn:V; [destruct (is_static (variant_of W c)) eqn:S|destruct (is_value_con (variant_of W c)) eqn:C].
    + apply spec_ret; [|reflexivity]. exists c. split; [exact NE|]. left. split; [exact S | reflexivity].
    + apply spec_refuse. intros e [c' [H [[H1 _]|[H1 _]]]]; rewrite NE in H; injection H as <-; [congruence|].
      destruct (variant_of W c); discriminate.
    + apply spec_ret; [|reflexivity]. exists c. split; [exact NE|]. right. split; [exact C | reflexivity].
    + apply spec_refuse. intros e [c' [H [[H1 _]|[H1 _]]]]; rewrite NE in H; injection H as <-; [|congruence].
      destruct (variant_of W c); discriminate.
  - apply spec_bind with (P := reads_expr W callee) (i := ids_expr); [apply IH| |]. { intros N b [x [y [H _]]]. exact (N x H). }
    intros x Hx. apply spec_bind with (P := Forall2 (reads_expr W) args) (i := flat_map ids_expr); [apply IHs| |]. { intros N b [x' [y [_ [H _]]]]. exact (N y H). }
    intros y Hy. apply spec_ret; [exists x, y; repeat split; assumption|]. cbn [ids_expr]. perm.
  - apply spec_ret; reflexivity.
  - apply spec_step. intros _. apply spec_ret; reflexivity.
  - apply spec_bind with (P := reads_expr W e) (i := ids_expr); [apply IH| |]. { intros N b [x [sc [H _]]]. exact (N x H). }
    intros x Hx. apply spec_bind with (P := view_scheme W v) (i := ids_scheme); [apply spec_scheme| |]. { intros N b [x' [sc [_ [H _]]]]. exact (N sc H). }
    intros sc Hsc. destruct (is_monomorphic sc) eqn:Mo.
    + apply spec_ret; [exists x, sc; repeat split; try assumption; apply is_monomorphic_iff; exact Mo|].
      apply is_monomorphic_iff in Mo. destruct Mo as [Mo _]. cbn [ids_expr]. unfold ids_scheme. rewrite Mo. perm.
    + apply spec_refuse. intros b [x' [sc' [_ [H [H1 _]]]]]. apply is_monomorphic_iff in H1. rewrite (mono_view W v sc sc' Hsc H) in Mo. congruence.
  - pose proof (match_expr_literal _ _ Ev) as L. constant s0 L.
Qed.
End Exprs.
