(** Kinds, types and schemes are built by the grammar. *)
From Verif.Base Require Import Base.
From Verif.Sexp Require Import Model.
From Verif.Syntax Require Import Model Spec Proofs.
From Coq Require Import Permutation.
Local Arguments t_ : simpl never.
Local Arguments text_eqb : simpl never.

(** Splits on the tests of a match on words. *)
Ltac words :=
  repeat match goal with
  | |- context [text_eqb ?a ?b] => let E := fresh "E" in destruct (text_eqb a b) eqn:E; [apply eqb_text in E; try subst | apply eqb_text_no in E]
  | H : context [text_eqb ?a ?b] |- _ => let E := fresh "E" in destruct (text_eqb a b) eqn:E; [apply eqb_text in E; try subst | apply eqb_text_no in E]
  end.

Lemma Forall2_length {A B} {R : A -> B -> Prop} {l l'} : Forall2 R l l' -> List.length l = List.length l'.
Proof. induction 1 as [|? ? ? ? _ _ IH]; cbn; [reflexivity | rewrite IH; reflexivity]. Qed.

Section Types.
Variable W : world.

Lemma as_form_some s k rest : as_form s = Some (k, rest) -> exists l lk, s = form l lk k rest.
Proof.
  destruct s as [l r]. unfold as_form; cbn [rep]. destruct r as [| | | | |[|[lk ra] args]| | |]; try discriminate.
  destruct ra; try discriminate. intro H. injection H as <- <-. exists l, lk. reflexivity.
Qed.
Lemma as_form_none s : as_form s = None -> forall k, no_form k s.
Proof. intros H k l lk rest ->. discriminate. Qed.
Lemma as_apply_some s a args : as_apply s = Some (a, args) -> exists l, s = Sexp l (RList (a :: args)).
Proof.
  destruct s as [l r]. unfold as_apply; cbn [rep]. destruct r as [| | | | |[|a' args']| | |]; try discriminate.
  intro H. injection H as <- <-. exists l. reflexivity.
Qed.

Definition view_kind (v : skind) (k : kind) : Prop :=
  match v with
  | SKFun args r => exists ks k', Forall2 (reads_kind W) args ks /\ reads_kind W r k' /\ k = KFun ks k'
  | SKAtom k' => k = k'
  end.
Lemma kind_view s k : kind_form W s k <-> exists v, match_kind s = inl v /\ view_kind v k.
Proof.
  split.
  - intros H. inversion H as [l|l|l|l|l|l lk args r ks k' H1 H2]; subst; try (eexists; split; [reflexivity | reflexivity]).
    exists (SKFun args r). split; [unfold match_kind, form; cbn -[split_last]; rewrite split_last_app; reflexivity|].
    exists ks, k'. repeat split; assumption.
  - intros [v [E V]]. unfold match_kind in E. destruct (as_form s) as [[h rest]|] eqn:F.
    + apply as_form_some in F. destruct F as [l [lk ->]]. words; [|discriminate].
      destruct (split_last rest) as [[args r]|] eqn:L; [|discriminate]. injection E as <-. apply split_last_some in L. subst.
      destruct V as [ks [k' [V1 [V2 ->]]]]. constructor; assumption.
    + destruct s as [l [| |t| | | | | |]]; cbn [rep] in E; try discriminate.
      words; try discriminate; injection E as <-; cbn in V; subst; constructor.
Qed.
Lemma reads_kind_eq s k : reads_kind W s k <-> exists s', expands W s s' /\ kind_form W s' k.
Proof. split; [intros [s0 s' k' E F]; exists s'; split; assumption | intros [s' [E F]]; exact (read_kind W s s' k E F)]. Qed.

Lemma spec_kind n : forall s, spec (build_kind W n s) (reads_kind W s) none.
Proof.
  induction n as [|n IH]; intros s; cbn [build_kind]; [apply spec_tired|].
  apply (spec_node W n s match_kind _ (reads_kind W) (kind_form W) view_kind); [apply reads_kind_eq | apply kind_view |].
  intros s' v _ _. destruct v as [args r|k]; cbn [view_kind].
  - apply spec_bind with (P := Forall2 (reads_kind W) args) (i := flat_map none).
    + apply spec_all. intros a _. apply IH.
    + intros N b [ks [k' [H _]]]. exact (N ks H).
    + intros ks Hks. apply spec_bind with (P := reads_kind W r) (i := none); [apply IH| |].
      * intros N b [ks' [k' [_ [H _]]]]. exact (N k' H).
      * intros k Hk. apply spec_ret; [exists ks, k; repeat split; assumption|].
        unfold none at 1. cbn [app]. rewrite app_nil_r. clear. induction ks; [reflexivity | exact IHks].
  - apply spec_ret; reflexivity.
Qed.

Definition view_use (fits : variant -> bool) (u : suse) (u' : use) : Prop :=
  match u with
  | UName x => u' = Unres x
  | UNative _ x => exists c, native W x = Some c /\ fits (variant_of W c) = true /\ u' = Res c
  end.
Lemma use_view fits s u : reads_use W fits s u <-> exists v, as_use s = Some v /\ view_use fits v u.
Proof.
  split.
  - intros [l x|l x c H1 H2]; eexists; (split; [reflexivity|]); cbn; [reflexivity | exists c; repeat split; assumption].
  - intros [v [E V]]. destruct s as [l [| |t| | | | | |t]]; cbn in E; try discriminate; injection E as <-; cbn in V.
    + subst. constructor.
    + destruct V as [c [H1 [H2 ->]]]. constructor; assumption.
Qed.
Lemma spec_use what fits u : spec (build_use W what fits u) (view_use fits u) none.
Proof.
  destruct u as [x|l x]; cbn [build_use view_use].
  - apply spec_step. intros _. apply spec_ret; reflexivity.
  - destruct (native W x) as [c|] eqn:NE; [|apply spec_panic]. destruct (fits (variant_of W c)) eqn:E.
    + apply spec_ret; [|reflexivity]. exists c. repeat split; assumption.
    + apply spec_refuse. intros a [c' [H1 [H2 _]]]. congruence.
Qed.

Definition view_type (v : stype) (t : ty) : Prop :=
  match v with
  | STFun args r => exists ts t', Forall2 (reads_type W) args ts /\ reads_type W r t' /\ t = TApp (TCon (fun_type W (List.length args))) (ts ++ [t'])
  | STTuple [] | STUnit => t = TCon (tuple_type W 0)
  | STTuple args => exists ts, Forall2 (reads_type W) args ts /\ t = TApp (TCon (tuple_type W (List.length args))) ts
  | STUse (UName x) => t = TUse x
  | STUse (UNative _ x) => exists c, native W x = Some c /\ is_type_con (variant_of W c) = true /\ t = TCon c
  | STApp callee args => exists t' ts, reads_type W callee t' /\ Forall2 (reads_type W) args ts /\ t = TApp t' ts
  end.
Lemma match_type_rest_view s v t : (forall l lk k rest, s = form l lk k rest -> ~ In k type_words) ->
  match_type_rest s = inl v -> view_type v t -> type_form W s t.
Proof.
  intros N E V. unfold match_type_rest in E. destruct s as [l [| |x| | |[|a args]| | |x]]; cbn [as_use as_apply rep named s_name] in E; try discriminate.
  - destruct (text_eqb x (t_ "unit")) eqn:X.
    + apply eqb_text in X. subst. injection E as <-. cbn in V. subst. constructor.
    + apply eqb_text_no in X. injection E as <-. cbn in V. subst. constructor. exact X.
  - injection E as <-. destruct V as [t' [ts [V1 [V2 ->]]]]. constructor; try assumption.
    intros la k ->. apply (N l la k args). reflexivity.
  - injection E as <-. destruct V as [c [V1 [V2 ->]]]. constructor; assumption.
Qed.
Lemma match_type_other s : (forall l lk k rest, s = form l lk k rest -> ~ In k type_words) -> match_type s = match_type_rest s.
Proof.
  intros N. unfold match_type. destruct (as_form s) as [[h rest]|] eqn:F; [|reflexivity].
  apply as_form_some in F. destruct F as [l [lk F]]. specialize (N l lk h rest F). cbn in N.
  destruct (text_eqb h (t_ "->")) eqn:E1; [apply eqb_text in E1; subst h; destruct N; left; reflexivity|].
  destruct (text_eqb h (t_ ":")) eqn:E2; [apply eqb_text in E2; subst h; destruct N; right; left; reflexivity|reflexivity].
Qed.
Lemma type_view s t : type_form W s t <-> exists v, match_type s = inl v /\ view_type v t.
Proof.
  split.
  - intros H. inversion H as [l|l lk|l lk args ts H1 H2|l lk args r ts t' H1 H2|l x H1|l x c H1 H2|l callee args t' ts H1 H2 H3]; subst.
    + eexists; split; reflexivity.
    + exists (STTuple []). split; reflexivity.
    + exists (STTuple args). split; [reflexivity|]. destruct args as [|a args]; [destruct H1; reflexivity|]. exists ts. split; [exact H2|reflexivity].
    + exists (STFun args r). split; [unfold match_type, form; cbn -[split_last]; rewrite split_last_app; reflexivity|].
      exists ts, t'. repeat split; assumption.
    + exists (STUse (UName (named l x))). split; [|reflexivity]. unfold match_type; cbn. apply eqb_text_no in H1. cbn in H1. rewrite H1. reflexivity.
    + exists (STUse (UNative l x)). split; [reflexivity|]. exists c. repeat split; assumption.
    + exists (STApp callee args). split; [|exists t', ts; repeat split; assumption].
      rewrite match_type_other; [reflexivity|]. intros l' lk k rest E. injection E as -> -> ->. exact (H1 lk k eq_refl).
  - intros [v [E V]]. destruct (as_form s) as [[h rest]|] eqn:F.
    + pose proof F as F0. apply as_form_some in F. destruct F as [l [lk ->]]. unfold match_type in E. rewrite F0 in E.
      destruct (text_eqb h (t_ "->")) eqn:E1; [apply eqb_text in E1; subst h | destruct (text_eqb h (t_ ":")) eqn:E2; [apply eqb_text in E2; subst h|]].
      * destruct (split_last rest) as [[args r]|] eqn:L; [|discriminate]. injection E as <-. apply split_last_some in L. subst.
        destruct V as [ts [t' [V1 [V2 ->]]]]. constructor; assumption.
      * injection E as <-. destruct rest as [|a rest]; cbn [view_type] in V; [subst; constructor|].
        destruct V as [ts [V1 ->]]. constructor; [discriminate | exact V1].
      * apply match_type_rest_view with (v := v); [|exact E|exact V].
        intros l' lk' k rest' G. injection G as -> -> -> ->. apply eqb_text_no in E1, E2. intros [G|[G|[]]]; congruence.
    + apply match_type_rest_view with (v := v); [|unfold match_type in E; rewrite F in E; exact E|exact V].
      intros l' lk' k rest' ->. discriminate.
Qed.
Lemma reads_type_eq s t : reads_type W s t <-> exists s', expands W s s' /\ type_form W s' t.
Proof. split; [intros [s0 s' k' E F]; exists s'; split; assumption | intros [s' [E F]]; exact (read_type W s s' t E F)]. Qed.

Lemma spec_sized {A} acc f n (k : N -> M A) Q ids : spec_from acc (k (f n)) Q ids -> spec_from acc (andthen (sized f n) k) Q ids.
Proof.
  intros H c0 c Hc F. unfold andthen, sized. destruct (Nat.leb n 16); [|exact I]. cbn [ret bind]. exact (H c0 c Hc F).
Qed.
Lemma flat_map_none {A} (l : list A) : flat_map none l = [].
Proof. induction l; [reflexivity | exact IHl]. Qed.

Lemma spec_type n : forall s, spec (build_type W n s) (reads_type W s) none.
Proof.
  induction n as [|n IH]; intros s; cbn [build_type]; [apply spec_tired|].
  apply (spec_node W n s match_type _ (reads_type W) (type_form W) view_type); [apply reads_type_eq | apply type_view |].
  intros s' v _ _. destruct v as [args r|args| |[x|l x]|callee args]; cbn [view_type].
  - apply spec_bind with (P := Forall2 (reads_type W) args) (i := flat_map none).
    + apply spec_all. intros a _. apply IH.
    + intros N b [ks [k' [H _]]]. exact (N ks H).
    + intros ks Hks. apply spec_bind with (P := reads_type W r) (i := none); [apply IH| |].
      * intros N b [ks' [k' [_ [H _]]]]. exact (N k' H).
      * intros k Hk. apply spec_sized. apply spec_ret; [|rewrite flat_map_none; reflexivity].
        exists ks, k. repeat split; [exact Hks|exact Hk|]. rewrite (Forall2_length Hks). reflexivity.
  - apply spec_bind with (P := Forall2 (reads_type W) args) (i := flat_map none).
    + apply spec_all. intros a _. apply IH.
    + intros N b H. destruct args as [|a args]; [exact (N [] (Forall2_nil _))|]. destruct H as [ts [H _]]. exact (N ts H).
    + intros ts Hts. apply spec_sized. apply spec_ret; [|rewrite flat_map_none; reflexivity].
      rewrite <- (Forall2_length Hts). destruct Hts as [|a t args ts Ha Hts]; [reflexivity|].
      exists (t :: ts). split; [constructor; assumption | reflexivity].
  - apply spec_ret; reflexivity.
  - apply spec_step. intros _. apply spec_ret; reflexivity.
  - destruct (native W x) as [c|] eqn:NE; [|apply spec_panic]. destruct (is_type_con (variant_of W c)) eqn:E.
    + apply spec_ret; [|reflexivity]. exists c. repeat split; assumption.
    + apply spec_refuse. intros a [c' [H1 [H2 _]]]. congruence.
  - apply spec_bind with (P := reads_type W callee) (i := none); [apply IH| |].
    + intros N b [t' [ts [H _]]]. exact (N t' H).
    + intros t Ht. apply spec_bind with (P := Forall2 (reads_type W) args) (i := flat_map none).
      * apply spec_all. intros a _. apply IH.
      * intros N b [t' [ts [_ [H _]]]]. exact (N ts H).
      * intros ts Hts. apply spec_ret; [|rewrite flat_map_none; reflexivity]. exists t, ts. repeat split; assumption.
Qed.

(** * Schemes *)
Lemma all_some_iff {A B C} (f : A -> option B) (R : A -> C -> Prop) (V : B -> C -> Prop) :
  (forall a c, R a c <-> exists b, f a = Some b /\ V b c) ->
  forall l cs, Forall2 R l cs <-> exists bs, all_some f l = Some bs /\ Forall2 V bs cs.
Proof.
  intros H. induction l as [|a l IH]; intros cs; cbn [all_some].
  - split.
    + intros F. inversion F. exists []. split; [reflexivity | constructor].
    + intros [bs [E F]]. injection E as <-. inversion F. constructor.
  - split.
    + intros F. inversion F as [|? c ? cs' H1 H2]; subst. apply H in H1. destruct H1 as [b [E1 V1]]. apply IH in H2. destruct H2 as [bs [E2 V2]].
      rewrite E1, E2. exists (b :: bs). split; [reflexivity | constructor; assumption].
    + intros [bs [E F]]. destruct (f a) as [b|] eqn:E1; [|discriminate]. destruct (all_some f l) as [bs'|] eqn:E2; [|discriminate].
      injection E as <-. inversion F as [|? c ? cs' H1 H2]; subst. constructor.
      * apply H. exists b. split; assumption.
      * apply IH. exists bs'. split; [reflexivity | exact H2].
Qed.

Definition view_constr (v : sconstr) (k : constr) : Prop :=
  exists u ts, view_use is_class (scn_target v) u /\ Forall2 (reads_type W) (match scn_args v with Some args => args | None => [] end) ts /\
    k = {| k_class := u; k_args := ts |}.
Lemma use_not_list fits l ss u : ~ reads_use W fits (Sexp l (RList ss)) u.
Proof. intros H. inversion H. Qed.
Lemma constr_view s k : reads_constr W s k <-> exists v, match_constr s = Some v /\ view_constr v k.
Proof.
  split.
  - intros [s0 u H|l s0 args u ts H H1].
    + apply use_view in H. destruct H as [v [E V]]. unfold match_constr, as_parameterized. rewrite E.
      eexists; split; [reflexivity|]. exists u, []. repeat split; [exact V | constructor].
    + apply use_view in H. destruct H as [v [E V]]. unfold match_constr, as_parameterized. cbn [as_use as_apply rep]. rewrite E.
      eexists; split; [reflexivity|]. exists u, ts. repeat split; assumption.
  - intros [v [E [u [ts [V [F ->]]]]]]. unfold match_constr, as_parameterized in E. destruct (as_use s) as [x|] eqn:X.
    + injection E as <-. cbn in V, F. inversion F. constructor. apply use_view. exists x. split; assumption.
    + destruct (as_apply s) as [[a args]|] eqn:Y; [|discriminate]. destruct (as_use a) as [x|] eqn:Z; [|discriminate].
      injection E as <-. cbn in V, F. apply as_apply_some in Y. destruct Y as [l ->]. constructor; [|exact F].
      apply use_view. exists x. split; assumption.
Qed.
Lemma spec_constr n v : spec (build_constr W n v) (view_constr v) none.
Proof.
  unfold build_constr. apply spec_bind with (P := view_use is_class (scn_target v)) (i := none); [apply spec_use| |].
  - intros N b [u [ts [H _]]]. exact (N u H).
  - intros u Hu. apply spec_bind with (P := Forall2 (reads_type W) (match scn_args v with Some args => args | None => [] end)) (i := flat_map none).
    + apply spec_all. intros a _. apply spec_type.
    + intros N b [u' [ts [_ [H _]]]]. exact (N ts H).
    + intros ts Hts. apply spec_step. intros _. apply spec_ret; [|rewrite flat_map_none; reflexivity]. exists u, ts. repeat split; assumption.
Qed.

Definition view_tparam (v : stparam) (p : typaram) : Prop :=
  exists i k, reads_opt (reads_kind W) (stp_kind v) k /\ p = {| tp_binder := {| b_id := i; b_sym := stp_name v |}; tp_ann := k |}.
Lemma tparam_view s p : reads_tparam W s p <-> exists v, match_tparam s = Some v /\ view_tparam v p.
Proof.
  split.
  - intros [l x i|l lx x i s0 k H].
    + eexists; split; [reflexivity|]. exists i, None. split; [constructor | reflexivity].
    + eexists; split; [reflexivity|]. exists i, (Some k). split; [constructor; exact H | reflexivity].
  - intros [v [E [i [k [H ->]]]]]. destruct s as [l [| |x| | |[|[la ra] [|s2 [|s3 ss]]]| | |]]; cbn in E; try discriminate.
    + injection E as <-. cbn in H. inversion H. constructor.
    + destruct ra; try discriminate. injection E as <-. cbn in H. inversion H as [|? k' Hk]. subst. constructor. exact Hk.
Qed.
Lemma spec_tparam n v : spec (build_tparam W n v) (view_tparam v) (fun p => [b_id (tp_binder p)]).
Proof.
  unfold build_tparam. apply spec_bind with (P := reads_opt (reads_kind W) (stp_kind v)) (i := ids_opt none).
  - apply spec_opt. intros s _. unfold build_kind_ann. apply spec_bind with (P := reads_kind W s) (i := none); [apply spec_kind| |].
    + intros N b H. exact (N b H).
    + intros k Hk. apply spec_step. intros _. apply spec_ret; [exact Hk | reflexivity].
  - intros N b [i [k [H _]]]. exact (N k H).
  - intros k Hk. apply spec_bind with (P := fun b => b_sym b = stp_name v) (i := fun b => [b_id b]); [apply spec_declare| |].
    + intros N. destruct (N {| b_id := 0; b_sym := stp_name v |} eq_refl).
    + intros [i x] Hb. cbn in Hb. subst. apply spec_ret.
      * exists i, k. split; [exact Hk | reflexivity].
      * cbn. destruct k; reflexivity.
Qed.

Definition view_scheme (v : sscheme) (s : scheme) : Prop :=
  exists ps ks t, Forall2 view_tparam (ss_params v) ps /\ Forall2 view_constr (ss_constrs v) ks /\ reads_type W (ss_body v) t /\
    s = {| sc_params := ps; sc_constrs := ks; sc_body := t |}.
Lemma take_forall_view body rest fs tps : reads_forall W body fs tps ->
  exists vs, take_forall (fs ++ body :: rest) = Some (vs, body :: rest) /\ Forall2 view_tparam vs tps.
Proof.
  intros [N|l lk ps tps' H].
  - exists []. split; [|constructor]. cbn. destruct (as_form body) as [[h ps]|] eqn:F; [|reflexivity].
    apply as_form_some in F. destruct F as [l [lk ->]]. destruct (text_eqb h (t_ "forall")) eqn:E; [|reflexivity].
    apply eqb_text in E. subst. destruct (N l lk ps eq_refl).
  - apply (all_some_iff match_tparam _ _ tparam_view) in H. destruct H as [vs [E H]]. exists vs. split; [|exact H].
    cbn -[all_some]. rewrite E. reflexivity.
Qed.
Lemma take_where_view body ws ks : reads_where W body ws ks ->
  exists vs, take_where ([body] ++ ws) = Some ([body], vs) /\ Forall2 view_constr vs ks.
Proof.
  intros [N|l lk cs ks' H].
  - exists []. split; [|constructor]. cbn. destruct (as_form body) as [[h ps]|] eqn:F; [|reflexivity].
    apply as_form_some in F. destruct F as [l [lk ->]]. destruct (text_eqb h (t_ "where")) eqn:E; [|reflexivity].
    apply eqb_text in E. subst. destruct (N l lk ps eq_refl).
  - apply (all_some_iff match_constr _ _ constr_view) in H. destruct H as [vs [E H]]. exists vs. split; [|exact H].
    cbn -[all_some]. rewrite E. reflexivity.
Qed.
Lemma take_where_some ls body vs : take_where ls = Some ([body], vs) ->
  exists ws, ls = [body] ++ ws /\ forall ks, Forall2 view_constr vs ks -> reads_where W body ws ks.
Proof.
  unfold take_where. destruct (split_last ls) as [[init w]|] eqn:L.
  - apply split_last_some in L. subst. destruct (as_form w) as [[h cs]|] eqn:F.
    + pose proof F as F0. apply as_form_some in F. destruct F as [l [lk ->]]. destruct (text_eqb h (t_ "where")) eqn:E.
      * apply eqb_text in E. subst. destruct (all_some match_constr cs) as [vs'|] eqn:A; [|discriminate].
        intro H. injection H as -> ->. eexists; split; [reflexivity|]. intros ks H. constructor.
        apply (all_some_iff match_constr _ _ constr_view). exists vs. split; assumption.
      * intro H. injection H as H <-. destruct init as [|a [|b init]]; [|discriminate|discriminate]. injection H as <-.
        exists []. split; [reflexivity|]. intros ks H. inversion H. constructor. intros l' lk' rest G. injection G as -> -> -> ->.
        apply eqb_text_no in E. congruence.
    + intro H. injection H as H <-. destruct init as [|a [|b init]]; [|discriminate|discriminate]. injection H as <-.
      exists []. split; [reflexivity|]. intros ks H. inversion H. constructor. apply as_form_none. exact F.
  - apply split_last_none in L. subst. discriminate.
Qed.
Lemma take_forall_some ls vs rest : take_forall ls = Some (vs, rest) ->
  exists fs, ls = fs ++ rest /\ forall body rest' tps, rest = body :: rest' -> Forall2 view_tparam vs tps -> reads_forall W body fs tps.
Proof.
  destruct ls as [|f ls]; cbn.
  - intro H. injection H as <- <-. exists []. split; [reflexivity|]. discriminate.
  - destruct (as_form f) as [[h ps]|] eqn:F.
    + apply as_form_some in F. destruct F as [l [lk ->]]. destruct (text_eqb h (t_ "forall")) eqn:E.
      * apply eqb_text in E. subst. destruct (all_some match_tparam ps) as [vs'|] eqn:A; [|discriminate].
        intro H. injection H as -> ->. eexists [_]; split; [reflexivity|]. intros body rest' tps _ H. constructor.
        apply (all_some_iff match_tparam _ _ tparam_view). exists vs. split; assumption.
      * intro H. injection H as <- <-. exists []. split; [reflexivity|]. intros body rest' tps G H. injection G as <- <-. inversion H. constructor.
        intros l' lk' r' G. injection G as -> -> -> ->. apply eqb_text_no in E. congruence.
    + intro H. injection H as <- <-. exists []. split; [reflexivity|]. intros body rest' tps G H. injection G as <- <-. inversion H. constructor.
      apply as_form_none. exact F.
Qed.
Lemma scheme_view ls sc : reads_scheme W ls sc <-> exists v, match_scheme ls = Some v /\ view_scheme v sc.
Proof.
  split.
  - intros [f body w tps ks t H1 H2 H3]. destruct (take_forall_view body w f tps H1) as [vs [E1 V1]].
    destruct (take_where_view body w ks H3) as [cs [E2 V2]]. unfold match_scheme. cbn [app] in *. rewrite E1, E2.
    eexists; split; [reflexivity|]. exists tps, ks, t. repeat split; assumption.
  - intros [v [E [ps [ks [t [V1 [V2 [V3 ->]]]]]]]]. unfold match_scheme in E.
    destruct (take_forall ls) as [[vs rest]|] eqn:T; [|discriminate].
    destruct (take_where rest) as [[[|body [|b2 bs]] cs]|] eqn:U; try discriminate. injection E as <-. cbn in V1, V2, V3.
    apply take_forall_some in T. destruct T as [f [-> Hf]]. apply take_where_some in U. destruct U as [w [-> Hw]].
    constructor; [apply (Hf body w); [reflexivity | exact V1] | exact V3 | exact (Hw ks V2)].
Qed.
Lemma flat_map_single {A B} (f : A -> B) l : flat_map (fun x => [f x]) l = map f l.
Proof. induction l as [|a l IH]; [reflexivity|]. cbn. rewrite IH. reflexivity. Qed.
Lemma spec_scheme n v : spec (build_scheme W n v) (view_scheme v) ids_scheme.
Proof.
  unfold build_scheme. apply spec_bind with (P := Forall2 view_tparam (ss_params v)) (i := flat_map (fun p => [b_id (tp_binder p)])).
  { apply spec_all. intros a _. apply spec_tparam. }
  { intros N b [ps [ks [t [H _]]]]. exact (N ps H). }
  intros ps Hps. apply spec_bind with (P := Forall2 view_constr (ss_constrs v)) (i := flat_map none).
  { apply spec_all. intros a _. apply spec_constr. }
  { intros N b [ps' [ks [t [_ [H _]]]]]. exact (N ks H). }
  intros ks Hks. apply spec_bind with (P := reads_type W (ss_body v)) (i := none); [apply spec_type| |].
  { intros N b [ps' [ks' [t [_ [_ [H _]]]]]]. exact (N t H). }
  intros t Ht. apply spec_step. intros _. apply spec_ret.
  - exists ps, ks, t. repeat split; assumption.
  - rewrite flat_map_none, flat_map_single. unfold none, ids_scheme. cbn. rewrite app_nil_r. reflexivity.
Qed.
Lemma is_monomorphic_iff s : is_monomorphic s = true <-> monomorphic s.
Proof.
  unfold is_monomorphic, monomorphic. destruct (sc_params s), (sc_constrs s); split; intro H; try discriminate; try (destruct H; discriminate); repeat split.
Qed.
Lemma mono_view v s s' : view_scheme v s -> view_scheme v s' -> is_monomorphic s = is_monomorphic s'.
Proof.
  intros [ps [ks [t [H1 [H2 [_ ->]]]]]] [ps' [ks' [t' [H1' [H2' [_ ->]]]]]]. unfold is_monomorphic. cbn.
  apply Forall2_length in H1, H2, H1', H2'. destruct ps, ps', ks, ks'; cbn in *; congruence || lia || reflexivity.
Qed.
End Types.
