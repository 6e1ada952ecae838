(** Declarations are built by the grammar. *)
From Verif.Base Require Import Base.
From Verif.Sexp Require Import Model.
From Verif.Syntax Require Import Model ModelDecl Spec SpecDecl Proofs ProofsTypes ProofsExprs ProofsRuns ProofsTop.
From Coq Require Import Permutation.
Local Arguments t_ : simpl never.
Local Arguments text_eqb : simpl never.

Ltac word_is E := match type of E with
  | context [if text_eqb ?h ?k then _ else _] => let K := fresh "K" in destruct (text_eqb h k) eqn:K; [apply eqb_text in K; subst h | apply eqb_text_no in K]
  end.
Definition one (a x : N) : nat := count_occ N.eq_dec [a] x.
Lemma count_cons a l x : count_occ N.eq_dec (a :: l) x = one a x + count_occ N.eq_dec l x.
Proof. unfold one. cbn. destruct (N.eq_dec a x); reflexivity. Qed.
Ltac perms :=
  apply (Permutation_count_occ N.eq_dec); let x := fresh "x" in intro x;
  cbn [none flat_map app fst snd]; rewrite ?app_nil_r; cbn [ids_opt];
  repeat (rewrite count_occ_app || rewrite count_cons || rewrite count_occ_nil); lia.
Section Decls.
Variable W : world.

Lemma type_header_view s x ps : reads_type_header W s x ps <-> exists vs, as_type_header s = Some (x, vs) /\ Forall2 (view_tparam W) vs ps.
Proof.
  split.
  - intros [l t|l lx t ss tps H].
    + exists []. split; [reflexivity | constructor].
    + apply (all_some_iff match_tparam _ (view_tparam W) (tparam_view W)) in H. destruct H as [vs [E V]]. exists vs. split; [|exact V].
      unfold as_type_header. cbn [as_name as_apply rep word]. rewrite E. reflexivity.
  - intros [vs [E V]]. unfold as_type_header in E. destruct (as_name s) as [n|] eqn:N.
    + injection E as -> <-. inversion V; subst. apply as_name_some in N. subst. destruct x. constructor.
    + destruct (as_apply s) as [[a args]|] eqn:A; [|discriminate]. destruct (as_name a) as [n|] eqn:En; [|discriminate].
      destruct (all_some match_tparam args) as [vs'|] eqn:Es; [|discriminate]. injection E as -> ->.
      apply as_apply_some in A. destruct A as [l ->]. apply as_name_some in En. subst. destruct x. constructor.
      apply (all_some_iff match_tparam _ (view_tparam W) (tparam_view W)). exists vs. split; assumption.
Qed.

Definition view_con (v : symbol * option (list sexp)) (c : binder * option (list ty)) : Prop :=
  b_sym (fst c) = fst v /\ reads_opt (Forall2 (reads_type W)) (snd v) (snd c).
Lemma con_view s c : reads_con W s c <-> exists v, match_con s = inl v /\ view_con v c.
Proof.
  split.
  - intros [l x i|l lx x i ss ts H].
    + eexists; split; [reflexivity|]. split; [reflexivity | constructor].
    + eexists; split; [reflexivity|]. split; [reflexivity | constructor; exact H].
  - intros [v [E [V1 V2]]]. destruct c as [[i y] o]. cbn [fst snd b_sym] in V1, V2. subst y. unfold match_con in E. destruct (as_name s) as [n|] eqn:N.
    + injection E as <-. cbn [fst snd] in *. inversion V2; subst. apply as_name_some in N. subst. destruct n. constructor.
    + destruct (as_apply s) as [[a args]|] eqn:A; [|discriminate]. destruct (as_name a) as [n|] eqn:En; [|discriminate]. injection E as <-.
      cbn [fst snd] in *. apply as_apply_some in A. destruct A as [l ->]. apply as_name_some in En. subst. destruct n.
      inversion V2; subst. constructor. assumption.
Qed.
Lemma spec_con n s : spec (build_con W n s) (reads_con W s) (fun c => [b_id (fst c)]).
Proof.
  unfold build_con. apply spec_bind with (P := fun v => match_con s = inl v) (i := none); [apply spec_lift| |].
  { intros N d H. apply con_view in H. destruct H as [v [E _]]. exact (N v E). }
  intros v E. apply spec_iff with (Q' := view_con v).
  { intros d. rewrite con_view. split; [intros [v' [E' V]]; rewrite E in E'; injection E' as <-; exact V | intros V; exists v; split; assumption]. }
  apply spec_bind with (P := reads_opt (Forall2 (reads_type W)) (snd v)) (i := ids_opt (flat_map none)).
  { apply spec_opt. intros a _. apply spec_all. intros x _. apply spec_drop. apply spec_type. }
  { intros N d [_ H]. exact (N _ H). }
  intros fields Hf. apply spec_bind with (P := fun b => b_sym b = fst v) (i := fun b => [b_id b]); [apply spec_declare| |].
  { intros N. destruct (N {| b_id := 0; b_sym := fst v |} eq_refl). }
  intros b Hb. apply spec_ret; [split; assumption|]. destruct fields; cbn [ids_opt]; rewrite ?flat_map_none; reflexivity.
Qed.

Lemma foreign_view rest x sc name : reads_foreign W rest x sc name <-> exists v, match_foreign rest = Some (x, v, name) /\ view_scheme W v sc.
Proof.
  split.
  - intros [la lk lx y ann sc' ls nm H]. apply scheme_view in H. destruct H as [v [E V]]. exists v. split; [|exact V].
    unfold match_foreign, form. cbn [as_form rep as_name word]. change (t_ "annotate") with ANNOTATE. rewrite eqb_text_refl, E. reflexivity.
  - intros [v [E V]]. unfold match_foreign in E. destruct rest as [|a [|[ls r] [|z rest]]]; try discriminate; try (destruct r; discriminate).
    destruct r as [| |?|t| | | | |]; try discriminate. destruct (as_form a) as [[k [|y ann]]|] eqn:F; try discriminate.
    destruct (text_eqb k ANNOTATE) eqn:K; [|discriminate]. apply eqb_text in K. subst k.
    destruct (as_name y) as [m|] eqn:Y; [|discriminate]. destruct (match_scheme ann) as [v0|] eqn:E0; [|discriminate]. injection E as -> -> ->.
    apply as_form_some in F. destruct F as [la [lk ->]]. apply as_name_some in Y. subst. destruct x. constructor.
    apply scheme_view. exists v. split; assumption.
Qed.

Lemma builtin_con_view s c : reads_builtin_con W s c <-> exists v, match_builtin_con s = inl v /\ view_con (fst v) (fst c) /\ snd v = snd c.
Proof.
  split.
  - intros [l s0 ls name c0 H]. apply con_view in H. destruct H as [v [E V]]. exists (v, name). split; [|split; [exact V | reflexivity]].
    unfold match_builtin_con. cbn [rep]. rewrite E. reflexivity.
  - intros [v [E [V1 V2]]]. unfold match_builtin_con in E. destruct s as [l r]; cbn [rep] in E.
    destruct r as [| | | | |[|a [|[ls r] [|z ss]]]| | |]; try discriminate; try (destruct r; discriminate).
    destruct r; try discriminate. destruct (match_con a) as [v0|] eqn:M; [|discriminate]. injection E as <-. destruct c as [c name]. cbn [fst snd] in *. subst.
    constructor. apply con_view. exists v0. split; assumption.
Qed.
Lemma spec_builtin_con n s : spec (build_builtin_con W n s) (reads_builtin_con W s) (fun c => [b_id (fst (fst c))]).
Proof.
  unfold build_builtin_con. apply spec_bind with (P := fun v => match_builtin_con s = inl v) (i := none); [apply spec_lift| |].
  { intros N d H. apply builtin_con_view in H. destruct H as [v [E _]]. exact (N v E). }
  intros v E. apply spec_iff with (Q' := fun c => view_con (fst v) (fst c) /\ snd v = snd c).
  { intros d. rewrite builtin_con_view. split; [intros [v' [E' V]]; rewrite E in E'; injection E' as <-; exact V | intros V; exists v; split; assumption]. }
  apply spec_bind with (P := reads_opt (Forall2 (reads_type W)) (snd (fst v))) (i := ids_opt (flat_map none)).
  { apply spec_opt. intros a _. apply spec_all. intros x _. apply spec_drop. apply spec_type. }
  { intros N d [[_ H] _]. exact (N _ H). }
  intros fields Hf. apply spec_bind with (P := fun b => b_sym b = fst (fst v)) (i := fun b => [b_id b]); [apply spec_declare| |].
  { intros N. destruct (N {| b_id := 0; b_sym := fst (fst v) |} eq_refl). }
  intros b Hb. apply spec_ret; [split; [split; assumption | reflexivity]|]. destruct fields; cbn [ids_opt]; rewrite ?flat_map_none; reflexivity.
Qed.

Lemma where_first_view ls ks rest : reads_where_first W ls ks rest <-> exists vs, take_where_first ls = Some (vs, rest) /\ Forall2 (view_constr W) vs ks.
Proof.
  split.
  - intros [rest0 N|l lk cs ks' rest0 H].
    + exists []. split; [|constructor]. destruct rest0 as [|f ls0]; [reflexivity|]. cbn. destruct (as_form f) as [[h cs]|] eqn:F; [|reflexivity].
      apply as_form_some in F. destruct F as [l [lk ->]]. destruct (text_eqb h (t_ "where")) eqn:E; [|reflexivity].
      apply eqb_text in E. subst. destruct (N l lk cs ls0 eq_refl).
    + apply (all_some_iff match_constr _ (view_constr W) (constr_view W)) in H. destruct H as [vs [E V]]. exists vs. split; [|exact V].
      cbn -[all_some]. rewrite E. reflexivity.
  - intros [vs [E V]]. destruct ls as [|f ls]; cbn in E; [injection E as <- <-; inversion V; constructor; discriminate|].
    destruct (as_form f) as [[h cs]|] eqn:F.
    + apply as_form_some in F. destruct F as [l [lk ->]]. destruct (text_eqb h (t_ "where")) eqn:K.
      * apply eqb_text in K. subst. destruct (all_some match_constr cs) as [vs'|] eqn:A; [|discriminate]. injection E as -> ->. constructor.
        apply (all_some_iff match_constr _ (view_constr W) (constr_view W)). exists vs. split; assumption.
      * injection E as <- <-. inversion V. constructor. intros l' lk' cs' r' G. injection G as -> -> -> -> ->. apply eqb_text_no in K. apply K. reflexivity.
    + injection E as <- <-. inversion V. constructor. intros l' lk' cs' r' G. injection G as -> ->. discriminate.
Qed.

Lemma method_view s tr d : match_method s = inl (tr, d) <->
  exists l lk a body x ps sc, s = form l lk (function_word tr) (a :: body) /\ as_annotated a = Some (x, ps, sc) /\
    d = {| sd_loc := l; sd_name := x; sd_params := ps; sd_body := body; sd_scheme := sc |}.
Proof.
  split.
  - intros E. unfold match_method in E. destruct (as_form s) as [[h rest]|] eqn:F; [|discriminate]. apply as_form_some in F. destruct F as [l [lk ->]]. cbn [sloc form] in E.
    assert (G : forall t, match match_function l rest with Some d => inl (t, d) | None => inr (NoMatch l (t_ "function")) end = inl (tr, d) -> t = tr /\
      exists a body x ps sc, rest = a :: body /\ as_annotated a = Some (x, ps, sc) /\ d = {| sd_loc := l; sd_name := x; sd_params := ps; sd_body := body; sd_scheme := sc |}).
    { intros t0 G. unfold match_function in G. destruct rest as [|a body]; [discriminate|]. destruct (as_annotated a) as [[[x ps] sc]|] eqn:A; [|discriminate].
      injection G as -> <-. split; [reflexivity|]. exists a, body, x, ps, sc. split; [reflexivity|]. split; [exact A | reflexivity]. }
    word_is E; [|word_is E; [|discriminate]]; apply G in E; destruct E as [<- [a [body [x [ps [sc [-> [A ->]]]]]]]];
      exists l, lk, a, body, x, ps, sc; (split; [reflexivity|]); (split; [exact A | reflexivity]).
  - intros [l [lk [a [body [x [ps [sc [-> [A ->]]]]]]]]]. destruct tr; unfold match_method, form, function_word; cbn -[as_annotated]; unfold match_function; rewrite A; reflexivity.
Qed.
Definition view_cmethod (v : bool * sdef) (m : cmethod) : Prop :=
  exists i bs sc vs o, sd_scheme (snd v) = Some vs /\ view_scheme W vs sc /\ reads_opt (fun ns bs => map b_sym bs = ns) (sd_params (snd v)) bs /\
    reads_default W (sd_body (snd v)) o /\
    m = {| cm_transparent := fst v; cm_binder := {| b_id := i; b_sym := sd_name (snd v) |}; cm_params := bs; cm_ann := sc; cm_body := o |}.
Lemma params_opt ps bs : reads_opt (fun ns bs => map b_sym bs = ns) ps bs <-> option_map (map b_sym) bs = ps.
Proof. split; [intros [|ns b <-]; reflexivity | intros <-; destruct bs; constructor; reflexivity]. Qed.
Lemma cmethod_view s m : reads_cmethod W s m <-> exists v, match_method s = inl v /\ view_cmethod v m.
Proof.
  split.
  - intros [l lk tr s0 body x ps bs sc i o H1 H2 H3]. apply annotated_view in H1. destruct H1 as [v [E V]]. inversion V as [|vs ? V']; subst.
    eexists. split; [apply method_view; do 7 eexists; split; [reflexivity|]; split; [exact E | reflexivity]|].
    exists i, bs, sc, vs, o. cbn. split; [reflexivity|]. split; [exact V'|]. split; [apply params_opt; reflexivity|]. split; [exact H3 | reflexivity].
  - intros [[tr d] [E [i [bs [sc [vs [o [H1 [H2 [H3 [H4 ->]]]]]]]]]]]. apply method_view in E. destruct E as [l [lk [a [body [x [ps [v [-> [A ->]]]]]]]]].
    cbn [fst snd sd_scheme sd_params sd_body sd_name] in *. subst v. econstructor; [|apply params_opt; exact H3 | exact H4].
    apply annotated_view. eexists. split; [exact A | constructor; exact H2].
Qed.
Definition view_imethod (v : bool * sdef) (m : imethod) : Prop :=
  exists i bs sc e, reads_opt (fun ns bs => map b_sym bs = ns) (sd_params (snd v)) bs /\ reads_opt (view_scheme W) (sd_scheme (snd v)) sc /\
    reads_body W (sd_body (snd v)) e /\
    m = {| im_transparent := fst v; im_binder := {| b_id := i; b_sym := sd_name (snd v) |}; im_params := bs; im_ann := sc; im_body := e; im_of := Unres (sd_name (snd v)) |}.
Lemma imethod_view s m : reads_imethod W s m <-> exists v, match_method s = inl v /\ view_imethod v m.
Proof.
  split.
  - intros [l lk tr s0 body x ps bs sc i e H1 H2 H3]. apply annotated_view in H1. destruct H1 as [v [E V]]. subst.
    eexists. split; [apply method_view; do 7 eexists; split; [reflexivity|]; split; [exact E | reflexivity]|].
    exists i, bs, sc, e. cbn. split; [apply params_opt; reflexivity|]. split; [exact V|]. split; [exact H3 | reflexivity].
  - intros [[tr d] [E [i [bs [sc [e [H1 [H2 [H3 ->]]]]]]]]]. apply method_view in E. destruct E as [l [lk [a [body [x [ps [v [-> [A ->]]]]]]]]].
    cbn [fst snd sd_scheme sd_params sd_body sd_name] in *. econstructor; [|apply params_opt; exact H1 | exact H3].
    apply annotated_view. eexists. split; [exact A | exact H2].
Qed.
Lemma spec_name {A} acc x (k : binder -> M A) Q ids :
  (forall i, spec_from (i :: acc) (k {| b_id := i; b_sym := x |}) Q ids) -> spec_from acc (andthen (declare x) k) Q ids.
Proof.
  intros Hk. apply spec_bind with (P := fun b => b_sym b = x) (i := fun b => [b_id b]); [apply spec_declare| |].
  - intros N. destruct (N {| b_id := 0; b_sym := x |} eq_refl).
  - intros [i y] Hb. cbn in Hb. subst. apply Hk.
Qed.
Lemma spec_default n body : spec (build_default W n body) (reads_default W body) (ids_opt ids_expr).
Proof.
  unfold build_default. destruct body as [|a body]; [apply spec_ret; [constructor | reflexivity]|].
  apply spec_bind with (P := reads_body W (a :: body)) (i := ids_expr); [apply spec_block; intros z; apply spec_expr| |].
  { intros N o H. inversion H as [|? e _ H']; subst. exact (N e H'). }
  intros e He. apply spec_ret; [constructor; [discriminate | exact He] | perms].
Qed.
Lemma spec_cmethod n s : spec (build_cmethod W n s) (reads_cmethod W s) ids_cmethod.
Proof.
  unfold build_cmethod. apply spec_bind with (P := fun v => match_method s = inl v) (i := none); [apply spec_lift| |].
  { intros N d H. apply cmethod_view in H. destruct H as [v [E _]]. exact (N v E). }
  intros v E. apply spec_iff with (Q' := view_cmethod v).
  { intros d. rewrite cmethod_view. split; [intros [v' [E' V]]; rewrite E in E'; injection E' as <-; exact V | intros V; exists v; split; assumption]. }
  clear E. destruct v as [tr d]. destruct (sd_scheme d) as [vs|] eqn:Es.
  - apply spec_bind with (P := view_scheme W vs) (i := ids_scheme); [apply spec_scheme| |].
    { intros N m [i [bs [sc [vs' [o [H1 [H2 _]]]]]]]. cbn in H1. rewrite Es in H1. injection H1 as <-. exact (N sc H2). }
    intros sc Hsc. apply spec_bind with (P := reads_opt (fun ns bs => map b_sym bs = ns) (sd_params d)) (i := ids_opt (map b_id)).
    { apply spec_opt. intros a _. apply spec_params. }
    { intros N m [i [bs [sc' [vs' [o [_ [_ [H _]]]]]]]]. exact (N bs H). }
    intros bs Hbs. apply spec_bind with (P := reads_default W (sd_body d)) (i := ids_opt ids_expr); [apply spec_default| |].
    { intros N m [i [bs' [sc' [vs' [o [_ [_ [_ [H _]]]]]]]]]. exact (N o H). }
    intros o Ho. apply spec_name. intros i. apply spec_ret.
    + exists i, bs, sc, vs, o. split; [exact Es|]. split; [exact Hsc|]. split; [exact Hbs|]. split; [exact Ho | reflexivity].
    + unfold ids_cmethod. cbn [cm_binder cm_params cm_ann cm_body b_id]. perms.
  - apply spec_refuse. intros m [i [bs [sc [vs' [o [H1 _]]]]]]. cbn in H1. congruence.
Qed.
Lemma spec_imethod n s : spec (build_imethod W n s) (reads_imethod W s) ids_imethod.
Proof.
  unfold build_imethod. apply spec_bind with (P := fun v => match_method s = inl v) (i := none); [apply spec_lift| |].
  { intros N d H. apply imethod_view in H. destruct H as [v [E _]]. exact (N v E). }
  intros v E. apply spec_iff with (Q' := view_imethod v).
  { intros d. rewrite imethod_view. split; [intros [v' [E' V]]; rewrite E in E'; injection E' as <-; exact V | intros V; exists v; split; assumption]. }
  clear E. destruct v as [tr d]. apply spec_bind with (P := reads_opt (fun ns bs => map b_sym bs = ns) (sd_params d)) (i := ids_opt (map b_id)).
  { apply spec_opt. intros a _. apply spec_params. }
  { intros N m [i [bs [sc' [e [H _]]]]]. exact (N bs H). }
  intros bs Hbs. apply spec_bind with (P := reads_opt (view_scheme W) (sd_scheme d)) (i := ids_opt ids_scheme).
  { apply spec_opt. intros a _. apply spec_scheme. }
  { intros N m [i [bs' [sc [e [_ [H _]]]]]]. exact (N sc H). }
  intros sc Hsc. apply spec_bind with (P := reads_body W (sd_body d)) (i := ids_expr); [apply spec_block; intros z; apply spec_expr| |].
  { intros N m [i [bs' [sc' [e [_ [_ [H _]]]]]]]. exact (N e H). }
  intros e He. apply spec_step. intros _. apply spec_name. intros i. apply spec_ret.
  + exists i, bs, sc, e. split; [exact Hbs|]. split; [exact Hsc|]. split; [exact He | reflexivity].
  + unfold ids_imethod. cbn [im_binder im_params im_ann im_body b_id]. perms.
Qed.

Definition view_decl (v : sdecl) (d : decl) : Prop :=
  match v with
  | SDFunction tr f => exists i bs sc e, reads_opt (fun ns bs => map b_sym bs = ns) (sd_params f) bs /\ reads_opt (view_scheme W) (sd_scheme f) sc /\
      reads_body W (sd_body f) e /\ d = DeFunction tr {| b_id := i; b_sym := sd_name f |} bs sc e
  | SDCFunction _ x v name => exists i sc, view_scheme W v sc /\ monomorphic sc /\ d = DeCFunction {| b_id := i; b_sym := x |} (sc_body sc) name
  | SDBuiltinOp x v name => exists i sc, view_scheme W v sc /\ d = DeBuiltinOp {| b_id := i; b_sym := x |} sc name
  | SDMacro x p body => exists i j e, reads_body W body e /\ d = DeMacro {| b_id := i; b_sym := x |} {| b_id := j; b_sym := p |} e
  | SDData r x ps ss => exists i tps cs, Forall2 (view_tparam W) ps tps /\ Forall2 (reads_con W) ss cs /\ d = DeData r {| b_id := i; b_sym := x |} tps cs
  | SDBuiltinType x ps name ss => exists i tps cs, Forall2 (view_tparam W) ps tps /\ Forall2 (reads_builtin_con W) ss cs /\ d = DeBuiltinType {| b_id := i; b_sym := x |} tps name cs
  | SDClass sealed x ps ks ss => exists i tps cs ms, Forall2 (view_tparam W) ps tps /\ Forall2 (view_constr W) ks cs /\ Forall2 (reads_cmethod W) ss ms /\
      d = DeClass sealed {| b_id := i; b_sym := x |} tps cs ms
  | SDInstance x ps ks k ss => exists i tps cs c ms, Forall2 (view_tparam W) ps tps /\ Forall2 (view_constr W) ks cs /\ view_constr W k c /\ Forall2 (reads_imethod W) ss ms /\
      d = DeInstance {| b_id := i; b_sym := x |} tps cs c ms
  | SDExpr s => exists e, reads_expr W s e /\ d = DeExpr e
  | SDImport path ts => d = DeImport path ts
  | SDExport ts => d = DeExport ts
  | SDNoStd => d = DeNoStd
  | SDOther => False
  end.
Definition plain_expr (s : sexp) : Prop := forall l lk k rest, s = form l lk k rest -> ~ In k read_words /\ ~ In k other_words /\ (k = t_ "no-implicit-std" -> rest <> []).
Lemma match_decl_plain s : plain_expr s -> match_decl s = inl (SDExpr s).
Proof.
  intros N. unfold match_decl. destruct (as_form s) as [[h rest]|] eqn:F; [|reflexivity].
  apply as_form_some in F. destruct F as [l [lk F]]. destruct (N l lk h rest F) as [N1 [N2 N3]].
  repeat match goal with
  | |- context [if text_eqb h ?k then _ else _] => lazymatch k with t_ "no-implicit-std" => fail | _ =>
      let K := fresh "K" in destruct (text_eqb h k) eqn:K; [apply eqb_text in K; exfalso; apply N1; rewrite K; cbn; tauto | clear K] end
  end.
  destruct (existsb (text_eqb h) other_words) eqn:E.
  { apply existsb_exists in E. destruct E as [k [E1 E2]]. apply eqb_text in E2. subst k. destruct (N2 E1). }
  destruct (text_eqb h (t_ "no-implicit-std")) eqn:E3; [|reflexivity]. apply eqb_text in E3. destruct rest; [destruct (N3 E3 eq_refl) | reflexivity].
Qed.
Lemma decl_view s d : decl_form W s d <-> exists v, match_decl s = inl v /\ view_decl v d.
Proof.
  split.
  - intros [l lk tr s0 body x ps bs sc i e H1 H2 H3|l lk rest x sc name i H1 H2|l lk rest x sc name i H1|l lk lh lx x lp p i j body e H1
      |l lk r s0 ss x ps i cs H1 H2|l lk s0 ls name ss x ps i cs H1 H2|l lk sealed s0 rest x ps ks ss i ms H1 H2 H3|l lk lx x fs ps t0 k rest ks ss i ms H1 H2 H3 H4|l lk ls path ts|l lk ts|l lk|s0 e H1 H2].
    + apply annotated_view in H1. destruct H1 as [v [E V]].
      exists (SDFunction tr {| sd_loc := l; sd_name := x; sd_params := ps; sd_body := body; sd_scheme := v |}). split.
      * destruct tr; unfold match_decl, form; cbn -[as_annotated]; unfold match_function; rewrite E; reflexivity.
      * exists i, bs, sc, e. repeat split; try assumption. cbn. subst ps. destruct bs; constructor; reflexivity.
    + apply foreign_view in H1. destruct H1 as [v [E V]]. exists (SDCFunction l x v name). split.
      * unfold match_decl, form; cbn -[match_foreign]. rewrite E. reflexivity.
      * exists i, sc. split; [exact V|]. split; [exact H2 | reflexivity].
    + apply foreign_view in H1. destruct H1 as [v [E V]]. exists (SDBuiltinOp x v name). split.
      * unfold match_decl, form; cbn -[match_foreign]. rewrite E. reflexivity.
      * exists i, sc. split; [exact V | reflexivity].
    + exists (SDMacro {| s_loc := lx; s_name := x |} {| s_loc := lp; s_name := p |} body). split; [reflexivity|].
      exists i, j, e. split; [exact H1 | reflexivity].
    + apply type_header_view in H1. destruct H1 as [vs [E V]]. exists (SDData r x vs ss). split.
      * destruct r; unfold match_decl, form; cbn -[as_type_header]; unfold match_data; rewrite E; reflexivity.
      * exists i, ps, cs. split; [exact V|]. split; [exact H2 | reflexivity].
    + apply type_header_view in H1. destruct H1 as [vs [E V]]. exists (SDBuiltinType x vs name ss). split.
      * unfold match_decl, form; cbn -[as_type_header]. rewrite E. reflexivity.
      * exists i, ps, cs. split; [exact V|]. split; [exact H2 | reflexivity].
    + apply type_header_view in H1. destruct H1 as [vs [E V]]. apply where_first_view in H2. destruct H2 as [cs [E2 V2]]. exists (SDClass sealed x vs cs ss). split.
      * destruct sealed; unfold match_decl, form; cbn -[as_type_header take_where_first]; rewrite E, E2; reflexivity.
      * exists i, ps, ks, ms. split; [exact V|]. split; [exact V2|]. split; [exact H3 | reflexivity].
    + destruct (take_forall_view W t0 rest fs ps H1) as [vs [E1 V1]]. apply constr_view in H2. destruct H2 as [c [E2 V2]]. apply where_first_view in H3. destruct H3 as [cs [E3 V3]].
      exists (SDInstance {| s_loc := lx; s_name := x |} vs cs c ss). split.
      * unfold match_decl, form; cbn -[take_forall take_where_first match_constr]. rewrite E1, E2, E3. reflexivity.
      * exists i, ps, ks, k, ms. split; [exact V1|]. split; [exact V3|]. split; [exact V2|]. split; [exact H4 | reflexivity].
    + exists (SDImport path ts). split; reflexivity.
    + exists (SDExport ts). split; reflexivity.
    + exists SDNoStd. split; reflexivity.
    + exists (SDExpr s0). split; [apply match_decl_plain; exact H1|]. exists e. split; [exact H2 | reflexivity].
  - intros [v [E V]]. destruct (as_form s) as [[h rest]|] eqn:F.
    + pose proof F as F0. apply as_form_some in F. destruct F as [l [lk ->]]. unfold match_decl in E. rewrite F0 in E. cbn [sloc form] in E.
      assert (Fun : forall tr, match match_function l rest with Some a => inl (SDFunction tr a) | None => inr (NoMatch l (t_ "<declaration>")) end = inl v ->
        decl_form W (form l lk (if tr then t_ "transparent-function" else t_ "function") rest) d).
      { intros tr G. unfold match_function in G. destruct rest as [|a body]; [discriminate|].
        destruct (as_annotated a) as [[[x ps0] sc0]|] eqn:N; [|discriminate]. injection G as <-. destruct V as [i [bs [sc [e [V1 [V2 [V3 ->]]]]]]].
        cbn [sd_params sd_scheme sd_body sd_name] in *. econstructor; [apply annotated_view; exists sc0; split; [exact N | exact V2] | | exact V3].
        inversion V1 as [|ns bs' V1']; subst; reflexivity. }
      assert (Dat : forall r, match match_data rest with Some a => inl (let '(n, ps, cs) := a in SDData r n ps cs) | None => inr (NoMatch l (t_ "<declaration>")) end = inl v ->
        decl_form W (form l lk (data_word r) rest) d).
      { intros r G. unfold match_data in G. destruct rest as [|a cs0]; [discriminate|].
        destruct (as_type_header a) as [[x ps0]|] eqn:N; [|discriminate]. injection G as <-. destruct V as [i [tps [cs [V1 [V2 ->]]]]].
        constructor; [apply type_header_view; exists ps0; split; assumption | exact V2]. }
      word_is E; [exact (Fun false E)|].
      word_is E; [exact (Fun true E)|].
      word_is E.
      { destruct (match_foreign rest) as [[[x sc0] c]|] eqn:G; [|discriminate]. injection E as <-. destruct V as [i [sc [V1 [V2 ->]]]].
        constructor; [apply foreign_view; exists sc0; split; assumption | exact V2]. }
      word_is E.
      { destruct (match_foreign rest) as [[[x sc0] c]|] eqn:G; [|discriminate]. injection E as <-. destruct V as [i [sc [V1 ->]]].
        constructor. apply foreign_view. exists sc0. split; assumption. }
      word_is E.
      { destruct (match_macro rest) as [[[x p] body]|] eqn:G; [|discriminate]. injection E as <-. destruct V as [i [j [e [V1 ->]]]].
        unfold match_macro in G. destruct rest as [|[lh [| | | | |[|a [|b [|c ss]]]| | |]] rest]; try discriminate.
        destruct (as_name a) as [x'|] eqn:Na; [|discriminate]. destruct (as_name b) as [p'|] eqn:Nb; [|discriminate]. injection G as -> -> ->.
        apply as_name_some in Na. apply as_name_some in Nb. subst. destruct x, p. constructor. exact V1. }
      word_is E; [exact (Dat ReprDefault E)|].
      word_is E; [exact (Dat ReprValue E)|].
      word_is E; [exact (Dat ReprC E)|].
      assert (Cls : forall b, match match_class rest with Some a => inl (let '(n, ps, ks, ms) := a in SDClass b n ps ks ms) | None => inr (NoMatch l (t_ "<declaration>")) end = inl v ->
        decl_form W (form l lk (if b then t_ "sealed-class" else t_ "class") rest) d).
      { intros b G. unfold match_class in G. destruct rest as [|a ls]; [discriminate|].
        destruct (as_type_header a) as [[x ps0]|] eqn:N; [|discriminate]. destruct (take_where_first ls) as [[ks0 ms0]|] eqn:N2; [|discriminate].
        injection G as <-. destruct V as [i [tps [cs [ms [V1 [V2 [V3 ->]]]]]]].
        econstructor; [apply type_header_view; exists ps0; split; assumption | apply where_first_view; exists ks0; split; eassumption | exact V3]. }
      word_is E.
      { destruct (match_builtin_type rest) as [[[[x ps0] name] cs0]|] eqn:G; [|discriminate]. injection E as <-. destruct V as [i [tps [cs [V1 [V2 ->]]]]].
        unfold match_builtin_type in G. destruct rest as [|a [|[ls r] rest]]; try discriminate. destruct r; try discriminate.
        destruct (as_type_header a) as [[x' ps']|] eqn:N; [|discriminate]. injection G as -> -> -> ->.
        constructor; [apply type_header_view; exists ps0; split; assumption | exact V2]. }
      word_is E; [exact (Cls false E)|].
      word_is E; [exact (Cls true E)|].
      word_is E.
      { destruct (match_instance rest) as [[[[[x ps0] ks0] k0] ms0]|] eqn:G; [|discriminate]. injection E as <-. destruct V as [i [tps [cs [c [ms [V1 [V2 [V3 [V4 ->]]]]]]]]].
        unfold match_instance in G. destruct rest as [|a ls]; [discriminate|]. destruct (as_name a) as [x'|] eqn:Na; [|discriminate].
        destruct (take_forall ls) as [[vs [|t0 ls']]|] eqn:T; try discriminate. destruct (match_constr t0) as [k'|] eqn:Mc; [|discriminate].
        destruct (take_where_first ls') as [[ks' ms']|] eqn:T2; [|discriminate]. injection G as -> -> -> -> ->.
        apply (take_forall_some W) in T. destruct T as [fs [-> Hf]]. apply as_name_some in Na. subst. destruct x.
        econstructor; [exact (Hf t0 ls' tps eq_refl V1) | apply constr_view; exists k0; split; assumption | apply where_first_view; exists ks0; split; eassumption | exact V4]. }
      word_is E.
      { destruct (match_import rest) as [[path ts]|] eqn:G; [|discriminate]. injection E as <-. cbn in V. subst.
        unfold match_import in G. destruct rest as [|[ls r] rest]; try discriminate. destruct r; try discriminate. injection G as -> ->. constructor. }
      word_is E; [injection E as <-; cbn in V; subst; constructor|].
      destruct (existsb (text_eqb h) other_words) eqn:O; [injection E as <-; destruct V|].
      assert (Oth : ~ In h other_words).
      { intros I. assert (T : existsb (text_eqb h) other_words = true) by (apply existsb_exists; exists h; split; [exact I | apply eqb_text_refl]). congruence. }
      assert (Rd : ~ In h read_words).
      { intros I. destruct I as [I|[I|[I|[I|[I|[I|[I|[I|[I|[I|[I|[I|[I|[I|[]]]]]]]]]]]]]]]; congruence. }
      word_is E.
      * destruct rest as [|a rest]; injection E as <-.
        -- cbn in V. subst. constructor.
        -- destruct V as [e [V ->]]. constructor; [|exact V]. intros l' lk' k r G. injection G as -> -> <- <-. split; [exact Rd|]. split; [exact Oth | discriminate].
      * injection E as <-. destruct V as [e [V ->]]. constructor; [|exact V]. intros l' lk' k r G. injection G as -> -> <- <-.
        split; [exact Rd|]. split; [exact Oth|]. intros ->. congruence.
    + unfold match_decl in E. rewrite F in E. injection E as <-. destruct V as [e [V ->]]. constructor; [|exact V].
      intros l lk k rest ->. discriminate.
Qed.
Lemma reads_decl_eq s d : reads_decl W s d <-> exists s', expands W s s' /\ decl_form W s' d.
Proof. split; [intros [s0 s' d0 H1 H2]; exists s'; split; assumption | intros [s' [H1 H2]]; econstructor; eassumption]. Qed.

Lemma spec_decl n s : spec (build_decl W n s) (reads_decl W s) ids_decl.
Proof.
  unfold build_decl. apply spec_node with (form := decl_form W) (view := view_decl); [intros a; apply reads_decl_eq | intros; apply decl_view|].
  intros s' v _ _. destruct v as [tr f|l x v name|x v name|x p body|r x ps cs|x ps name cs|sealed x ps ks ms|x ps ks k ms|s0|path ts|ts| |].
  - apply spec_bind with (P := reads_opt (fun ns bs => map b_sym bs = ns) (sd_params f)) (i := ids_opt (map b_id)).
    { apply spec_opt. intros a _. apply spec_params. }
    { intros N d [i [ps [sc [e [H _]]]]]. exact (N ps H). }
    intros ps Hps. apply spec_bind with (P := reads_opt (view_scheme W) (sd_scheme f)) (i := ids_opt ids_scheme).
    { apply spec_opt. intros a _. apply spec_scheme. }
    { intros N d [i [ps' [sc [e [_ [H _]]]]]]. exact (N sc H). }
    intros sc Hsc. apply spec_bind with (P := reads_body W (sd_body f)) (i := ids_expr); [apply spec_block; intros z; apply spec_expr| |].
    { intros N d [i [ps' [sc' [e [_ [_ [H _]]]]]]]. exact (N e H). }
    intros e He. apply spec_name. intros i. apply spec_ret; [exists i, ps, sc, e; repeat split; assumption|]. cbn [ids_decl b_id]. perm.
  - apply spec_bind with (P := view_scheme W v) (i := ids_scheme); [apply spec_scheme| |].
    { intros N d [i [sc [H _]]]. exact (N sc H). }
    intros sc Hsc. destruct (is_monomorphic sc) eqn:Mo.
    + apply spec_name. intros i. apply is_monomorphic_iff in Mo. apply spec_ret.
      * exists i, sc. split; [exact Hsc|]. split; [exact Mo | reflexivity].
      * destruct Mo as [Mo _]. cbn [ids_decl b_id]. unfold ids_scheme. rewrite Mo. perm.
    + apply spec_refuse. intros d [i [sc' [H [Mo' _]]]]. apply is_monomorphic_iff in Mo'. rewrite (mono_view W v sc sc' Hsc H) in Mo. congruence.
  - apply spec_bind with (P := view_scheme W v) (i := ids_scheme); [apply spec_scheme| |].
    { intros N d [i [sc [H _]]]. exact (N sc H). }
    intros sc Hsc. apply spec_name. intros i. apply spec_ret; [exists i, sc; split; [exact Hsc | reflexivity]|]. cbn [ids_decl b_id]. perm.
  - apply spec_name. intros j. apply spec_bind with (P := reads_body W body) (i := ids_expr); [apply spec_block; intros z; apply spec_expr| |].
    { intros N d [i [j' [e [H _]]]]. exact (N e H). }
    intros e He. apply spec_name. intros i. apply spec_ret; [exists i, j, e; split; [exact He | reflexivity]|]. cbn [ids_decl b_id]. apply perm_skip. perm.
  - apply spec_bind with (P := Forall2 (view_tparam W) ps) (i := flat_map (fun p => [b_id (tp_binder p)])).
    { apply spec_all. intros a _. apply spec_tparam. }
    { intros N d [i [tps [cs' [H _]]]]. exact (N tps H). }
    intros tps Htps. apply spec_name. intros i. apply spec_bind with (P := Forall2 (reads_con W) cs) (i := flat_map (fun c => [b_id (fst c)])).
    { apply spec_all. intros a _. apply spec_con. }
    { intros N d [i' [tps' [cs' [_ [H _]]]]]. exact (N cs' H). }
    intros cs' Hcs. apply spec_ret; [exists i, tps, cs'; split; [exact Htps|]; split; [exact Hcs | reflexivity]|].
    cbn [ids_decl b_id]. rewrite !flat_map_single. cbn [none app]. rewrite ?app_nil_r. eapply Permutation_trans; [apply Permutation_sym, Permutation_middle|]. apply perm_skip. perm.
  - apply spec_bind with (P := Forall2 (view_tparam W) ps) (i := flat_map (fun p => [b_id (tp_binder p)])).
    { apply spec_all. intros a _. apply spec_tparam. }
    { intros N d [i [tps [cs' [H _]]]]. exact (N tps H). }
    intros tps Htps. apply spec_name. intros i. apply spec_bind with (P := Forall2 (reads_builtin_con W) cs) (i := flat_map (fun c => [b_id (fst (fst c))])).
    { apply spec_all. intros a _. apply spec_builtin_con. }
    { intros N d [i' [tps' [cs' [_ [H _]]]]]. exact (N cs' H). }
    intros cs' Hcs. apply spec_ret; [exists i, tps, cs'; split; [exact Htps|]; split; [exact Hcs | reflexivity]|].
    cbn [ids_decl b_id]. rewrite !flat_map_single. perms.
  - apply spec_bind with (P := Forall2 (view_tparam W) ps) (i := flat_map (fun p => [b_id (tp_binder p)])).
    { apply spec_all. intros a _. apply spec_tparam. }
    { intros N d [i [tps [cs' [ms' [H _]]]]]. exact (N tps H). }
    intros tps Htps. apply spec_bind with (P := Forall2 (view_constr W) ks) (i := flat_map none).
    { apply spec_all. intros a _. apply spec_constr. }
    { intros N d [i [tps' [cs' [ms' [_ [H _]]]]]]. exact (N cs' H). }
    intros cs Hcs. apply spec_step. intros _. apply spec_name. intros i. apply spec_bind with (P := Forall2 (reads_cmethod W) ms) (i := flat_map ids_cmethod).
    { apply spec_all. intros a _. apply spec_cmethod. }
    { intros N d [i' [tps' [cs' [ms' [_ [_ [H _]]]]]]]. exact (N ms' H). }
    intros ms' Hms. apply spec_ret; [exists i, tps, cs, ms'; split; [exact Htps|]; split; [exact Hcs|]; split; [exact Hms | reflexivity]|].
    cbn [ids_decl b_id]. rewrite flat_map_none, flat_map_single. perms.
  - apply spec_bind with (P := Forall2 (view_tparam W) ps) (i := flat_map (fun p => [b_id (tp_binder p)])).
    { apply spec_all. intros a _. apply spec_tparam. }
    { intros N d [i [tps [cs' [c [ms' [H _]]]]]]. exact (N tps H). }
    intros tps Htps. apply spec_bind with (P := Forall2 (view_constr W) ks) (i := flat_map none).
    { apply spec_all. intros a _. apply spec_constr. }
    { intros N d [i [tps' [cs' [c [ms' [_ [H _]]]]]]]. exact (N cs' H). }
    intros cs Hcs. apply spec_bind with (P := view_constr W k) (i := none); [apply spec_constr| |].
    { intros N d [i [tps' [cs' [c [ms' [_ [_ [H _]]]]]]]]. exact (N c H). }
    intros c Hc. apply spec_name. intros i. apply spec_bind with (P := Forall2 (reads_imethod W) ms) (i := flat_map ids_imethod).
    { apply spec_all. intros a _. apply spec_imethod. }
    { intros N d [i' [tps' [cs' [c' [ms' [_ [_ [_ [H _]]]]]]]]]. exact (N ms' H). }
    intros ms' Hms. apply spec_ret; [exists i, tps, cs, c, ms'; split; [exact Htps|]; split; [exact Hcs|]; split; [exact Hc|]; split; [exact Hms | reflexivity]|].
    cbn [ids_decl b_id]. rewrite flat_map_none, flat_map_single. perms.
  - apply spec_bind with (P := reads_expr W s0) (i := ids_expr); [apply spec_expr| |].
    { intros N d [e [H _]]. exact (N e H). }
    intros e He. apply spec_ret; [exists e; split; [exact He | reflexivity]|]. cbn [ids_decl]. perm.
  - apply spec_ret; reflexivity.
  - apply spec_ret; reflexivity.
  - apply spec_ret; reflexivity.
  - apply spec_tired.
Qed.
End Decls.
Definition decl_built W := top_built _ _ _ (spec_decl W).
Definition decl_refused W := top_refused _ _ _ (spec_decl W).
