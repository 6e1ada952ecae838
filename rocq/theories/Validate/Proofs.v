(** The check of a module looks at every match in it. *)
From Verif.Base Require Import Base BaseFacts Vec VecFacts.
From Verif.Pattern Require Import Model Spec ProofsCheck.
From Verif.Resolve Require Import Model ProofsExpr.
From Verif.Validate Require Import Model Spec.

Section Validator.
Variable type_con_of : N -> option N.
Variable value_cons : N -> option (list finite_con).
Variable is_sexp : N -> bool.
Notation tag_of := (tag_of type_con_of value_cons).
Notation simplify_pattern := (simplify_pattern type_con_of value_cons is_sexp).
Notation check_expr := (check_expr type_con_of value_cons is_sexp).
Notation run := (run type_con_of value_cons is_sexp).

(** The tables of the context are right. *)
Definition tag_rel (c : N) (g : tag) : Prop :=
  exists t l con, type_con_of c = Some t /\ value_cons t = Some l /\ find (fun con => (use_ con =? c)%N) l = Some con /\ g = Finite con l.
Definition ok (x : context) : Prop :=
  (forall t l, lookup t (finite_cons x) = Some l -> value_cons t = Some l) /\ (forall c g, lookup c (con_tags x) = Some g -> tag_rel c g).
Lemma tag_rel_fun c g g' : tag_rel c g -> tag_rel c g' -> g' = g.
Proof. intros (t & l & con & E1 & E2 & E3 & ->) (t' & l' & con' & E1' & E2' & E3' & ->). congruence. Qed.
Lemma value_cons_of_ok t l x : ok x -> value_cons t = Some l -> exists x', value_cons_of value_cons t x = Ret (x', l) /\ ok x'.
Proof.
  intros (H1 & H2) E. unfold value_cons_of. destruct (lookup t (finite_cons x)) as [l'|] eqn:El.
  - apply H1 in El. exists x. split; [congruence|split; assumption].
  - rewrite E. eexists. split; [reflexivity|]. split; [|exact H2]. cbn [finite_cons lookup]. intros t' l'. destruct (t' =? t)%N eqn:Et; [|apply H1]. apply N.eqb_eq in Et. congruence.
Qed.
Lemma tag_of_ok c g x : ok x -> tag_rel c g -> exists x', tag_of c x = Ret (x', g) /\ ok x'.
Proof.
  intros Hx Hg. unfold Model.tag_of. destruct (lookup c (con_tags x)) as [g'|] eqn:El.
  - assert (Hg' := proj2 Hx _ _ El). rewrite (tag_rel_fun _ _ _ Hg Hg'). exists x. auto.
  - assert (Hg0 := Hg). destruct Hg as (t & l & con & E1 & E2 & E3 & ->). rewrite E1. destruct (value_cons_of_ok t l x Hx E2) as (x' & -> & (H1 & H2)). cbn [bind]. rewrite E3. eexists. split; [reflexivity|]. split; [exact H1|].
    cbn [con_tags lookup]. intros c' g'. destruct (c' =? c)%N eqn:Ec; [|apply H2]. apply N.eqb_eq in Ec. intros [= <-]. rewrite Ec. exact Hg0.
Qed.

Inductive simplified : pattern -> Pattern.Model.pattern -> Prop :=
| s_var b : simplified (PVar b None) PWild
| s_as b p q : simplified p q -> simplified (PVar b (Some p)) q
| s_wild : simplified PWildcard PWild
| s_decon c o qs g : Forall2 simplified (fields_of o) qs -> tag_rel c g -> simplified (PDecon (Res c) o) (PCon g qs)
| s_const k : is_sexp k = false -> simplified (PConst k) (PCon (Const k) []).

Lemma each_ok {A B} (f : A -> context -> outcome (context * B)) (R : A -> B -> Prop) l l' :
  Forall2 R l l' -> (forall a b x, In a l -> R a b -> ok x -> exists x', f a x = Ret (x', b) /\ ok x') -> forall x, ok x -> exists x', each f l x = Ret (x', l') /\ ok x'.
Proof.
  intros H. induction H as [|a b l l' Hab _ IH]; intros Hf x Hx; cbn [each]; [exists x; auto|].
  destruct (Hf a b x (or_introl eq_refl) Hab Hx) as (x1 & -> & Hx1). cbn [bind]. destruct (IH (fun a b x Ha => Hf a b x (or_intror Ha)) x1 Hx1) as (x2 & -> & Hx2). cbn [bind]. exists x2. auto.
Qed.
Lemma simplify_ok p : forall q x, simplified p q -> ok x -> exists x', simplify_pattern p x = Ret (x', q) /\ ok x'.
Proof.
  induction p as [b o IH| |u o IH|k] using pattern_ind'; intros q x H Hx; cbn [Model.simplify_pattern].
  - inversion H; subst; [exists x; auto|]. apply IH; assumption.
  - inversion H; subst. exists x. auto.
  - inversion H as [| | |c o' qs g Hqs Hg|]; subst.
    assert (E : exists x', match o with Some l => each simplify_pattern l x | None => Ret (x, []) end = Ret (x', qs) /\ ok x').
    { destruct o as [l|]; cbn [fields_of ProofsExpr.each] in *; [|inversion Hqs; subst; exists x; auto]. rewrite Forall_forall in IH. apply (each_ok _ simplified); [exact Hqs| |exact Hx]. intros a b x0 Ha Hab Hx0. exact (IH a Ha b x0 Hab Hx0). }
    destruct E as (x1 & -> & Hx1). cbn [bind]. destruct (tag_of_ok _ _ _ Hx1 Hg) as (x2 & -> & Hx2). cbn [bind]. exists x2. auto.
  - inversion H as [| | | |k' Hk]; subst. rewrite Hk. exists x. auto.
Qed.

(** ** Visiting *)
Definition of_clauses (clauses : list (pattern * expr)) (qs : list Pattern.Model.pattern) : Prop := Forall2 (fun cl q => simplified (fst cl) q) clauses qs.
Definition judged (m : expr) (r : match_result) : Prop :=
  exists target clauses qs, m = EMatch target clauses /\ of_clauses clauses qs /\ conv (fun n => validate_match n qs) r.
Definition accepted (m : expr) : Prop := forall target clauses, m = EMatch target clauses -> judged m MatchOk.
Definition checkable (m : expr) : Prop := forall target clauses, m = EMatch target clauses -> exists r, judged m r.
Definition visits (m : nat -> visit) (ms : expr -> Prop) : Prop :=
  forall x, ok x -> exists x' o, conv (fun n => m n x) (x', o) /\ ok x' /\
  match o with None => forall e, ms e -> accepted e | Some f => ms (f_match f) /\ judged (f_match f) (f_reason f) /\ f_reason f <> MatchOk end.

Lemma visits_eq m m' s s' : visits m s -> (forall n x, m' n x = m n x) -> (forall e, s e <-> s' e) -> visits m' s'.
Proof.
  intros H Hm Hs x Hx. destruct (H x Hx) as (x' & o & Hc & Hx' & Ho). exists x', o. split; [eapply conv_ext; [|exact Hc]; intros n; apply Hm|]. split; [exact Hx'|]. destruct o as [f|]; [rewrite <- Hs; exact Ho|]. intros e He. apply Ho, Hs, He.
Qed.
Lemma visits_then m1 m2 s1 s2 : visits m1 s1 -> visits m2 s2 -> visits (fun n => then_ (m1 n) (m2 n)) (fun e => s1 e \/ s2 e).
Proof.
  intros H1 H2 x Hx. destruct (H1 x Hx) as (x1 & o1 & Hc1 & Hx1 & Ho1). unfold then_. destruct o1 as [f|].
  - exists x1, (Some f). split; [apply (conv_bind (fun n => m1 n x) (fun p n => let '(x, r) := p in match r with Some e => Ret (x, Some e) | None => m2 n x end) _ _ Hc1), conv_ret|]. split; [exact Hx1|]. destruct Ho1 as (H & H'). split; [left; exact H|exact H'].
  - destruct (H2 x1 Hx1) as (x2 & o2 & Hc2 & Hx2 & Ho2). exists x2, o2. split; [apply (conv_bind (fun n => m1 n x) (fun p n => let '(x, r) := p in match r with Some e => Ret (x, Some e) | None => m2 n x end) _ _ Hc1); exact Hc2|]. split; [exact Hx2|].
    destruct o2 as [f|]; [destruct Ho2 as (H & H'); split; [right; exact H|exact H']|]. intros e [He|He]; [apply Ho1, He|apply Ho2, He].
Qed.
Lemma visits_all {A} (f : nat -> A -> visit) (s : A -> expr -> Prop) l : (forall a, In a l -> visits (fun n => f n a) (s a)) ->
  visits (fun n => all_ (f n) l) (fun e => exists a, In a l /\ s a e).
Proof.
  induction l as [|a l IH]; intros H; cbn [all_].
  - intros x Hx. exists x, None. split; [apply conv_ret|]. split; [exact Hx|]. intros e (a & [] & _).
  - eapply visits_eq; [apply visits_then; [exact (H a (or_introl eq_refl))|apply IH; intros b Hb; apply H; right; exact Hb]|reflexivity|].
    intros e. split; [intros [He|(b & Hb & He)]; [exists a; split; [left; reflexivity|exact He]|exists b; split; [right; exact Hb|exact He]]|]. intros (b & [<-|Hb] & He); [left; exact He|right; exists b; auto].
Qed.
Lemma visits_check e : checkable e -> visits (fun n => check_expr n e) (eq e).
Proof.
  intros Hc x Hx. assert (Hno : (forall target clauses, e <> EMatch target clauses) -> accepted e) by (intros Hn target clauses E; destruct (Hn _ _ E)).
  destruct e; try (exists x, None; split; [apply conv_ret|]; split; [exact Hx|]; intros e' <-; apply Hno; intros; discriminate).
  destruct (Hc _ _ eq_refl) as (r & Hj). assert (Hj' := Hj). destruct Hj' as (target' & clauses' & qs & [= <- <-] & Hqs & Hr).
  destruct (each_ok (fun cl => simplify_pattern (fst cl)) _ _ _ Hqs (fun a b x _ => simplify_ok (fst a) b x) x Hx) as (x' & E & Hx'). unfold Model.check_expr. exists x'. eexists. split; [rewrite E; cbn [bind]|].
  - apply (conv_bind (fun n => validate_match n qs) (fun r _ => Ret (x', match r with MatchOk => None | r => Some {| f_match := EMatch e clauses; f_reason := r |} end)) _ _ Hr). apply conv_ret.
  - split; [exact Hx'|]. destruct r; cbn [f_match f_reason]; [intros e' <- t c _; exact Hj| |]; (split; [reflexivity|]; split; [exact Hj|discriminate]).
Qed.

Lemma then_none (m : visit) x : then_ m (fun x => Ret (x, None)) x = m x.
Proof. unfold then_. destruct (m x) as [(x', [e|])| |]; reflexivity. Qed.
Lemma all_app {A} (f : A -> visit) l l' x : all_ f (l ++ l') x = then_ (all_ f l) (all_ f l') x.
Proof.
  revert x. induction l as [|a l IH]; intros x; cbn [all_ app]; [reflexivity|]. unfold then_. destruct (f a x) as [(x', [e|])| |]; cbn [bind]; try reflexivity. exact (IH x').
Qed.
Lemma all_map {A B} (g : A -> B) (f : B -> visit) l x : all_ f (map g l) x = all_ (fun a => f (g a)) l x.
Proof. revert x. induction l as [|a l IH]; intros x; cbn [all_ map]; [reflexivity|]. unfold then_. destruct (f (g a) x) as [(x', [e|])| |]; cbn [bind]; auto. Qed.
Lemma then_ext m1 m1' m2 m2' : (forall x, m1 x = m1' x) -> (forall x, m2 x = m2' x) -> forall x, then_ m1 m2 x = then_ m1' m2' x.
Proof. intros H1 H2 x. unfold then_. rewrite H1. destruct (m1' x) as [(x', [e|])| |]; cbn [bind]; auto. Qed.
Lemma all_ext {A} (f g : A -> visit) l : (forall a x, f a x = g a x) -> forall x, all_ f l x = all_ g l x.
Proof. intros H. induction l as [|a l IH]; [reflexivity|]. cbn [all_]. apply then_ext; [apply H|exact IH]. Qed.
Lemma dfs_parts f e x : dfs f e x = then_ (all_ (dfs f) (parts e)) (f e) x.
Proof.
  destruct e as [u|c|k|e es|u|e t|ds e|es e|c t e|c b|e cs|[e|]]; cbn [dfs parts]; apply then_ext; try reflexivity; intros y; cbn [all_].
  - symmetry. apply then_none.
  - rewrite all_app. apply then_ext; intros z; [rewrite all_map; apply all_ext; intros [] w; reflexivity|]. cbn [all_]. symmetry. apply then_none.
  - rewrite all_app. apply then_ext; intros z; [reflexivity|]. cbn [all_]. symmetry. apply then_none.
  - apply then_ext; [reflexivity|]. intros z. apply then_ext; [reflexivity|]. intros w. symmetry. apply then_none.
  - apply then_ext; [reflexivity|]. intros z. symmetry. apply then_none.
  - apply then_ext; [reflexivity|]. intros z. rewrite all_map. apply all_ext. intros [] w. reflexivity.
  - symmetry. apply then_none.
Qed.
Lemma parts_ind (P : expr -> Prop) : (forall e, (forall a, In a (parts e) -> P a) -> P e) -> forall e, P e.
Proof.
  intros H e. induction e as [u|c|k|e es IH IHs|u|e t IH|ds e IHs IH|es e IHs IH|c t e IHc IHt IHe|c e IHc IHe|e cs IH IHs|o IH|b t e IH|b a ps e IH]
    using expr_ind' with (Q := fun d => P (body_of_def d)); try exact IH; apply H; cbn [parts]; intros a Ha; try rewrite Forall_forall in IHs.
  - destruct Ha.
  - destruct Ha.
  - destruct Ha.
  - destruct Ha as [<-|Ha]; auto.
  - destruct Ha.
  - destruct Ha as [<-|[]]; exact IH.
  - apply in_app_iff in Ha. destruct Ha as [Ha|[<-|[]]]; [|exact IH]. apply in_map_iff in Ha. destruct Ha as (d & <- & Hd). auto.
  - apply in_app_iff in Ha. destruct Ha as [Ha|[<-|[]]]; auto.
  - destruct Ha as [<-|[<-|[<-|[]]]]; assumption.
  - destruct Ha as [<-|[<-|[]]]; assumption.
  - destruct Ha as [<-|Ha]; [exact IH|]. apply in_map_iff in Ha. destruct Ha as (d & <- & Hd). exact (IHs d Hd).
  - destruct o as [e|]; [|destruct Ha]. destruct Ha as [<-|[]]. exact IH.
Qed.
Lemma visits_dfs e : (forall m, inside m e -> checkable m) -> visits (fun n => dfs (check_expr n) e) (fun m => inside m e).
Proof.
  induction e as [e IH] using parts_ind. intros Hc. eapply visits_eq; [apply visits_then; [apply (visits_all (fun n => dfs (check_expr n)) (fun a m => inside m a) (parts e))|apply (visits_check e), Hc, here]| |].
  - intros a Ha. apply IH; [exact Ha|]. intros m Hm. apply Hc, (deeper _ a); assumption.
  - intros n x. apply dfs_parts.
  - intros m. split; [intros [(a & Ha & Hm)|<-]; [apply (deeper _ a); assumption|apply here]|]. intros H. inversion H as [|a e' Ha Hm]; subst; [right; reflexivity|left; exists a; auto].
Qed.
Lemma expressions_in r e : In e (expressions r) <-> body_of r e.
Proof.
  unfold expressions. rewrite !in_app_iff, !in_map_iff, !in_flat_map. split.
  - intros [(f & <- & Hf)|[(m & <- & Hm)|[(c & Hc & He)|[(i & Hi & He)|(i & Hi & He)]]]].
    + apply b_function, Hf.
    + apply b_macro, Hm.
    + apply in_flat_map in He. destruct He as (m & Hm & He). destruct (cm_default m) as [e'|] eqn:E; [|destruct He]. destruct He as [<-|[]]. exact (b_default r c m e' Hc Hm E).
    + apply in_map_iff in He. destruct He as (m & <- & Hm). exact (b_method r i m Hi Hm).
    + destruct i as [e'|m]; [|destruct He]. destruct He as [<-|[]]. apply b_init, Hi.
  - intros H. destruct H as [f Hf|m Hm|c m e Hc Hm E|i m Hi Hm|e He].
    + left. exists f. auto.
    + right; left. exists m. auto.
    + right; right; left. exists c. split; [exact Hc|]. apply in_flat_map. exists m. split; [exact Hm|]. rewrite E. left. reflexivity.
    + right; right; right; left. exists i. split; [exact Hi|]. apply in_map, Hm.
    + right; right; right; right. exists (Eval e). split; [exact He|left; reflexivity].
Qed.
Lemma run_visits r : (forall m, written r m -> checkable m) ->
  exists o, conv (fun n => run n r) o /\
  match o with None => forall e, written r e -> accepted e | Some f => written r (f_match f) /\ judged (f_match f) (f_reason f) /\ f_reason f <> MatchOk end.
Proof.
  intros Hc. assert (Hv := visits_all (fun n => dfs (check_expr n)) (fun a m => inside m a) (expressions r)).
  destruct (Hv ltac:(intros a Ha; apply visits_dfs; intros m Hm; apply Hc; exists a; split; [apply expressions_in, Ha|exact Hm]) {| finite_cons := []; con_tags := [] |}) as (x & o & Hcv & _ & Ho).
  { split; intros t l E; discriminate E. }
  exists o. split; [unfold Model.run; apply (conv_bind (fun n => all_ (dfs (check_expr n)) (expressions r) _) (fun p _ => let '(_, e) := p in Ret e) _ _ Hcv), conv_ret|].
  assert (Hw : forall m, (exists a, In a (expressions r) /\ inside m a) <-> written r m) by (intros m; unfold written; split; intros (a & Ha & Hm); exists a; (split; [apply expressions_in, Ha|exact Hm])).
  destruct o as [f|]; [rewrite <- Hw; exact Ho|]. intros e He. apply Ho, Hw, He.
Qed.
End Validator.
