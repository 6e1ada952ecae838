(** Without macros, and with lists of moderate length, the builder always comes to an end. *)
From Verif.Base Require Import Base.
From Verif.Sexp Require Import Model.
From Verif.Syntax Require Import Model Spec Proofs ProofsTypes ProofsExprs.
Local Arguments t_ : simpl never.
Local Arguments text_eqb : simpl never.

Definition runs {A} (m : M A) : Prop := forall c, exists c' r, m c = Ret (c', r).
Definition gives {A} (m : M A) (a : A) : Prop := exists c c', m c = Ret (c', Built a).
Lemma runs_ret {A} (a : A) : runs (ret a).
Proof. intro c. eexists; eexists; reflexivity. Qed.
Lemma runs_refuse {A} e : @runs A (refuse e).
Proof. intro c. eexists; eexists; reflexivity. Qed.
Lemma runs_next : runs next.
Proof. intro c. eexists; eexists; reflexivity. Qed.
Lemma runs_lift {A} (r : A + error) : runs (lift r).
Proof. destruct r; [apply runs_ret | apply runs_refuse]. Qed.
Lemma runs_bind {A B} (m : M A) (k : A -> M B) : runs m -> (forall a, gives m a -> runs (k a)) -> runs (andthen m k).
Proof.
  intros Hm Hk c. destruct (Hm c) as [c1 [r E]]. unfold andthen. rewrite E. cbn [bind]. destruct r as [a|e].
  - apply Hk. exists c, c1. exact E.
  - eexists; eexists; reflexivity.
Qed.
Lemma runs_declare x : runs (declare x).
Proof. apply runs_bind; [apply runs_next | intros; apply runs_ret]. Qed.
Lemma runs_all {A B} (f : A -> M B) l : Forall (fun a => runs (f a)) l -> runs (all f l).
Proof.
  induction 1 as [|a l H _ IH]; [apply runs_ret|]. cbn [all]. apply runs_bind; [exact H|]. intros b _. apply runs_bind; [exact IH|]. intros; apply runs_ret.
Qed.
Lemma runs_opt {A B} (f : A -> M B) o : (forall a, o = Some a -> runs (f a)) -> runs (opt f o).
Proof. destruct o as [a|]; intros H; [|apply runs_ret]. apply runs_bind; [apply H; reflexivity | intros; apply runs_ret]. Qed.
Lemma all_length {A B} (f : A -> M B) l bs : gives (all f l) bs -> List.length bs = List.length l.
Proof.
  intros [c [c' E]]. revert bs c c' E. induction l as [|a l IH]; intros bs c c' E; cbn in E.
  - injection E as _ <-. reflexivity.
  - unfold andthen in E. destruct (f a c) as [[c1 [b|e]]| |]; cbn [bind] in E; try discriminate.
    change ((fix all (l : list A) : M (list B) := match l with [] => ret [] | a :: l => andthen (f a) (fun b => andthen (all l) (fun bs => ret (b :: bs))) end) l) with (all f l) in E.
    destruct (all f l c1) as [[c2 [bs'|e]]| |] eqn:E2; cbn [bind] in E; try discriminate.
    injection E as _ <-. cbn. f_equal. exact (IH bs' c1 c2 E2).
Qed.
Lemma runs_sized f n : n <= 16 -> runs (sized f n).
Proof. intros H c. unfold sized. apply Nat.leb_le in H. rewrite H. apply runs_ret. Qed.
Lemma runs_drop {A} (m : M A) : runs m -> runs (andthen m (fun e => andthen next (fun _ => ret e))).
Proof. intros H. apply runs_bind; [exact H|]. intros a _. apply runs_bind; [apply runs_next | intros; apply runs_ret]. Qed.

Ltac step_word E := match type of E with (if text_eqb ?a ?b then _ else _) = _ => destruct (text_eqb a b) end.
Section Runs.
Variable W : world.

Definition fine (n : nat) (s : sexp) : Prop := no_macros W s /\ moderate W s /\ depth s <= n.
Lemma depth_pos s : 1 <= depth s.
Proof. destruct s as [l []]; cbn; lia. Qed.
Lemma list_max_in x l : In x l -> x <= list_max l.
Proof. intros H. assert (E : list_max l <= list_max l) by lia. apply (list_max_le l (list_max l)) in E. rewrite Forall_forall in E. exact (E x H). Qed.
Lemma fine_list n l ss : fine (S n) (Sexp l (RList ss)) -> List.length ss <= 17 /\ Forall (fine n) ss.
Proof.
  intros [H1 [H2 H3]]. inversion H1 as [? _ H1']; subst. inversion H2 as [? H2' _]; subst.
  destruct (H2' l ss eq_refl) as [H4 H5]. specialize (H1' l ss eq_refl). split; [exact H4|].
  rewrite Forall_forall in *. intros x Hx. split; [exact (H1' x Hx)|]. split; [exact (H5 x Hx)|].
  change (depth (Sexp l (RList ss))) with (S (list_max (map depth ss))) in H3. assert (depth x <= list_max (map depth ss)) by (apply list_max_in; apply in_map; exact Hx). lia.
Qed.
Lemma fine_form n l lk k rest : fine (S n) (form l lk k rest) -> List.length rest <= 16 /\ Forall (fine n) rest.
Proof. intros H. apply fine_list in H. destruct H as [H1 H2]. cbn in H1. inversion H2; subst. split; [lia | assumption]. Qed.
Lemma fine_more n s : fine n s -> fine (S n) s.
Proof. intros [H1 [H2 H3]]. split; [exact H1|]. split; [exact H2 | lia]. Qed.
Lemma fine_mores n ss : Forall (fine n) ss -> Forall (fine (S n)) ss.
Proof. apply Forall_impl. apply fine_more. Qed.
Lemma fine_0 s : ~ fine 0 s.
Proof. intros [_ [_ H]]. pose proof (depth_pos s). lia. Qed.
Lemma fine_native n l x : fine n (Sexp l (RNative x)) -> native W x <> None.
Proof. intros [_ [H _]]. inversion H as [? _ H']; subst. exact (H' l x eq_refl). Qed.

Lemma expand_none n s : no_macros W s -> expand W (S n) s = ret s.
Proof.
  intros H. inversion H as [? N _]; subst. cbn [expand]. destruct (callee_of W s) as [[l c]|] eqn:E; [|reflexivity].
  destruct (is_macro W c) eqn:Mc; [|reflexivity]. destruct (N c (callee_call W s l c E Mc)).
Qed.
Lemma runs_node {V A} n s (mt : sexp -> V + error) (k : V -> M A) : fine (S n) s ->
  (forall v, mt s = inl v -> runs (k v)) -> runs (andthen (expand W (S n) s) (fun s => andthen (lift (mt s)) k)).
Proof.
  intros H Hk. rewrite expand_none by apply H. intro c. unfold andthen at 1. cbn [ret bind].
  apply runs_bind; [apply runs_lift|]. intros v [c1 [c2 E]]. apply Hk. destruct (mt s); cbn in E; [injection E as _ ->; reflexivity | discriminate].
Qed.

Lemma as_use_native s l x : as_use s = Some (UNative l x) -> s = Sexp l (RNative x).
Proof. destruct s as [l' []]; cbn; try discriminate. intro H. injection H as <- <-. reflexivity. Qed.
Definition fine_use (u : suse) : Prop := match u with UName _ => True | UNative _ x => native W x <> None end.
Lemma fine_as_use n s u : fine n s -> as_use s = Some u -> fine_use u.
Proof. intros H E. destruct u as [x|l x]; [exact I|]. apply as_use_native in E. subst. exact (fine_native _ _ _ H). Qed.
Lemma runs_use what fits u : fine_use u -> runs (build_use W what fits u).
Proof.
  destruct u as [x|l x]; cbn [build_use fine_use]; intros H.
  - apply runs_bind; [apply runs_next | intros; apply runs_ret].
  - destruct (native W x) as [c|]; [|destruct H; reflexivity]. destruct (fits (variant_of W c)); [apply runs_ret | apply runs_refuse].
Qed.
Lemma Forall_app_last {A} (P : A -> Prop) l z : Forall P (l ++ [z]) -> Forall P l /\ P z.
Proof. intros H. apply Forall_app in H. destruct H as [H1 H2]. inversion H2; subst. split; assumption. Qed.

(** What a match hands on is fine as well. *)
Definition fine_kind (n : nat) (v : skind) : Prop := match v with SKFun args r => Forall (fine n) args /\ fine n r | SKAtom _ => True end.
Lemma match_kind_fine n s v : fine (S n) s -> match_kind s = inl v -> fine_kind n v.
Proof.
  intros H E. unfold match_kind in E. destruct (as_form s) as [[h rest]|] eqn:F.
  - apply as_form_some in F. destruct F as [l [lk ->]]. destruct (text_eqb h (t_ "->")); [|discriminate].
    destruct (split_last rest) as [[args r]|] eqn:L; [|discriminate]. injection E as <-. apply split_last_some in L. subst.
    apply fine_form in H. destruct H as [_ H]. apply Forall_app_last in H. exact H.
  - destruct (rep s); try discriminate. words; try discriminate; injection E as <-; exact I.
Qed.
Lemma runs_kind n : forall s, fine n s -> runs (build_kind W (S n) s).
Proof.
  induction n as [|n IH]; intros s H; [destruct (fine_0 s H)|]. cbn [build_kind]. apply runs_node; [exact H|]. intros v E.
  apply (match_kind_fine n) in E; [|exact H]. destruct v as [args r|k]; [|apply runs_ret]. destruct E as [E1 E2].
  apply runs_bind; [apply runs_all; eapply Forall_impl; [apply IH | exact E1]|]. intros ks _.
  apply runs_bind; [apply IH; exact E2 | intros; apply runs_ret].
Qed.

Definition fine_type (n : nat) (v : stype) : Prop :=
  match v with
  | STFun args r => List.length args <= 16 /\ Forall (fine n) args /\ fine n r
  | STTuple ts => List.length ts <= 16 /\ Forall (fine n) ts
  | STUnit => True
  | STUse u => fine_use u
  | STApp c args => fine n c /\ Forall (fine n) args
  end.
Lemma match_type_rest_fine n s v : fine (S n) s -> match_type_rest s = inl v -> fine_type n v.
Proof.
  intros H E. unfold match_type_rest in E. destruct (as_use s) as [u|] eqn:U.
  - pose proof (fine_as_use _ _ _ H U) as Hu. destruct u as [x|l x].
    + destruct (text_eqb (s_name x) (t_ "unit")); injection E as <-; exact I.
    + injection E as <-. exact Hu.
  - destruct (as_apply s) as [[a args]|] eqn:A; [|discriminate]. injection E as <-. apply as_apply_some in A. destruct A as [l ->].
    apply fine_list in H. destruct H as [_ H]. inversion H; subst. split; assumption.
Qed.
Lemma match_type_fine n s v : fine (S n) s -> match_type s = inl v -> fine_type n v.
Proof.
  intros H E. unfold match_type in E. destruct (as_form s) as [[h rest]|] eqn:F; [|exact (match_type_rest_fine _ _ _ H E)].
  destruct (text_eqb h (t_ "->")); [|destruct (text_eqb h (t_ ":")); [|exact (match_type_rest_fine _ _ _ H E)]];
    apply as_form_some in F; destruct F as [l [lk ->]]; apply fine_form in H; destruct H as [H1 H2].
  - destruct (split_last rest) as [[args r]|] eqn:L; [|discriminate]. injection E as <-. apply split_last_some in L. subst.
    rewrite app_length in H1. cbn in H1. apply Forall_app_last in H2. split; [lia | exact H2].
  - injection E as <-. split; assumption.
Qed.
Lemma runs_type n : forall s, fine n s -> runs (build_type W (S n) s).
Proof.
  induction n as [|n IH]; intros s H; [destruct (fine_0 s H)|]. cbn [build_type]. apply runs_node; [exact H|]. intros v E.
  apply (match_type_fine n) in E; [|exact H].
  assert (IHs : forall l, Forall (fine n) l -> runs (all (build_type W (S n)) l)) by (intros l Hl; apply runs_all; eapply Forall_impl; [apply IH | exact Hl]).
  destruct v as [args r|ts| |[x|l x]|c args]; cbn [fine_type fine_use] in E.
  - destruct E as [E0 [E1 E2]]. apply runs_bind; [apply IHs; exact E1|]. intros ks G. apply all_length in G.
    apply runs_bind; [apply IH; exact E2|]. intros k _. apply runs_bind; [apply runs_sized; lia | intros; apply runs_ret].
  - destruct E as [E0 E1]. apply runs_bind; [apply IHs; exact E1|]. intros ks G. apply all_length in G.
    apply runs_bind; [apply runs_sized; lia | intros; apply runs_ret].
  - apply runs_ret.
  - apply runs_bind; [apply runs_next | intros; apply runs_ret].
  - destruct (native W x) as [c|]; [|destruct E; reflexivity]. destruct (is_type_con (variant_of W c)); [apply runs_ret | apply runs_refuse].
  - destruct E as [E1 E2]. apply runs_bind; [apply IH; exact E1|]. intros k _. apply runs_bind; [apply IHs; exact E2 | intros; apply runs_ret].
Qed.

Definition fine_fields (n : nat) (o : option (list sexp)) : Prop := match o with Some ss => Forall (fine n) ss | None => True end.
Lemma parameterized_fine n s u o : fine (S n) s -> as_parameterized s = Some (u, o) -> fine_use u /\ fine_fields n o.
Proof.
  intros H E. unfold as_parameterized in E. destruct (as_use s) as [u'|] eqn:U.
  - injection E as <- <-. split; [exact (fine_as_use _ _ _ H U) | exact I].
  - destruct (as_apply s) as [[a args]|] eqn:A; [|discriminate]. apply as_apply_some in A. destruct A as [l ->].
    destruct (as_use a) as [u'|] eqn:U'; [|discriminate]. injection E as <- <-. apply fine_list in H. destruct H as [_ H].
    inversion H as [|? ? H1 H2]; subst. split; [exact (fine_as_use _ _ _ H1 U') | exact H2].
Qed.
Lemma all_some_fine {A} (f : sexp -> option A) (P : A -> Prop) l bs :
  (forall a b, In a l -> f a = Some b -> P b) -> all_some f l = Some bs -> Forall P bs.
Proof.
  revert bs; induction l as [|a l IH]; intros bs H E; cbn in E.
  - injection E as <-. constructor.
  - destruct (f a) as [b|] eqn:E1; [|discriminate]. destruct (all_some f l) as [bs'|] eqn:E2; [|discriminate]. injection E as <-.
    constructor; [apply (H a b); [left; reflexivity | exact E1]|]. apply IH; [|reflexivity]. intros x y Hx. apply H. right. exact Hx.
Qed.
Definition fine_scheme (n : nat) (v : sscheme) : Prop :=
  Forall (fun p => forall k, stp_kind p = Some k -> fine n k) (ss_params v) /\
  Forall (fun c => fine_use (scn_target c) /\ fine_fields n (scn_args c)) (ss_constrs v) /\ fine n (ss_body v).
Lemma match_scheme_fine n ls v : Forall (fine (S (S n))) ls -> match_scheme ls = Some v -> fine_scheme (S (S n)) v.
Proof.
  intros H E. unfold match_scheme in E. destruct (take_forall ls) as [[vs rest]|] eqn:T; [|discriminate].
  destruct (take_where rest) as [[[|body [|b2 bs]] cs]|] eqn:U; try discriminate. injection E as <-.
  assert (Tf : Forall (fine (S (S n))) rest /\ Forall (fun p => forall k, stp_kind p = Some k -> fine (S (S n)) k) vs).
  { destruct ls as [|f ls]; cbn in T; [injection T as <- <-; split; constructor|]. destruct (as_form f) as [[h ps]|] eqn:F; [|injection T as <- <-; split; [exact H | constructor]].
    destruct (text_eqb h (t_ "forall")); [|injection T as <- <-; split; [exact H | constructor]].
    destruct (all_some match_tparam ps) as [vs'|] eqn:A; [|discriminate]. injection T as <- <-. inversion H as [|? ? H1 H2]; subst. split; [exact H2|].
    apply as_form_some in F. destruct F as [l [lk ->]]. apply fine_form in H1. destruct H1 as [_ H1]. rewrite Forall_forall in H1.
    apply (all_some_fine match_tparam _ ps); [|exact A]. intros a b Ha Eb k Hk. specialize (H1 a Ha).
    unfold match_tparam in Eb. destruct (as_name a); [injection Eb as <-; discriminate|].
    destruct a as [la ra]; cbn [rep] in Eb. destruct ra as [| | | | |[|x [|y [|z zs]]]| | |]; try discriminate. destruct (as_name x); [|discriminate].
    injection Eb as <-. cbn in Hk. injection Hk as <-. apply fine_list in H1. destruct H1 as [_ H1]. inversion H1 as [|? ? _ H3]; subst. inversion H3; subst.
    apply fine_more. apply fine_more. assumption. }
  destruct Tf as [Hr Hv].
  assert (Tw : fine (S (S n)) body /\ Forall (fun c => fine_use (scn_target c) /\ fine_fields (S (S n)) (scn_args c)) cs).
  { unfold take_where in U. destruct (split_last rest) as [[init w]|] eqn:L.
    - apply split_last_some in L. subst rest. apply Forall_app_last in Hr. destruct Hr as [H1 H2].
      assert (K : forall x y, Some (init ++ [w], @nil sconstr) = Some ([x], y) -> x = w /\ y = []).
      { intros x y G. injection G as G <-. destruct init as [|i [|j init]]; [injection G as <-; split; reflexivity|discriminate|discriminate]. }
      destruct (as_form w) as [[h ks]|] eqn:F; [destruct (text_eqb h (t_ "where"))|].
      + destruct (all_some match_constr ks) as [cs'|] eqn:A; [|discriminate]. injection U as -> <-. inversion H1; subst. split; [assumption|].
        apply as_form_some in F. destruct F as [l [lk ->]]. apply fine_form in H2. destruct H2 as [_ H2]. rewrite Forall_forall in H2.
        apply (all_some_fine match_constr _ ks); [|exact A]. intros a b Ha Eb. specialize (H2 a Ha).
        unfold match_constr in Eb. destruct (as_parameterized a) as [[u o]|] eqn:P; [|discriminate]. injection Eb as <-. cbn.
        destruct (parameterized_fine n a u o H2 P) as [P1 P2]. split; [exact P1|]. destruct o; [|exact I]. cbn in *. apply fine_mores. apply fine_mores. exact P2.
      + apply K in U. destruct U as [-> ->]. split; [exact H2 | constructor].
      + apply K in U. destruct U as [-> ->]. split; [exact H2 | constructor].
    - injection U as -> <-. discriminate. }
  destruct Tw as [Hb Hc]. split; [exact Hv|]. split; [exact Hc | exact Hb].
Qed.
Lemma runs_scheme n v : fine_scheme n v -> runs (build_scheme W (S n) v).
Proof.
  intros [H1 [H2 H3]]. unfold build_scheme. apply runs_bind.
  { apply runs_all. eapply Forall_impl; [|exact H1]. intros p Hp. unfold build_tparam. apply runs_bind.
    - apply runs_opt. intros k Ek. unfold build_kind_ann. apply runs_bind; [apply runs_kind; exact (Hp k Ek)|].
      intros a _. apply runs_bind; [apply runs_next | intros; apply runs_ret].
    - intros k _. apply runs_bind; [apply runs_declare | intros; apply runs_ret]. }
  intros ps _. apply runs_bind.
  { apply runs_all. eapply Forall_impl; [|exact H2]. intros c [Hc1 Hc2]. unfold build_constr. apply runs_bind; [apply runs_use; exact Hc1|].
    intros u _. apply runs_bind; [|intros ts _; apply runs_bind; [apply runs_next | intros; apply runs_ret]].
    apply runs_all. destruct (scn_args c) as [args|]; [|constructor]. eapply Forall_impl; [|exact Hc2]. apply runs_type. }
  intros cs _. apply runs_bind; [apply runs_type; exact H3|]. intros t _. apply runs_bind; [apply runs_next | intros; apply runs_ret].
Qed.

Definition fine_pattern (n : nat) (v : spattern) : Prop :=
  match v with
  | SPVar _ (Some s) => fine n s
  | SPTuple ss => List.length ss <= 16 /\ Forall (fine n) ss
  | SPDecon u o => fine_use u /\ fine_fields n o
  | _ => True
  end.
Lemma match_pattern_rest_fine n s v : fine (S n) s -> match_pattern_rest s = inl v -> fine_pattern n v.
Proof.
  intros H E. unfold match_pattern_rest in E. destruct (rep s) eqn:R; try (injection E as <-; exact I); try discriminate.
  - words; injection E as <-; repeat split.
  - destruct (as_parameterized s) as [[u o]|] eqn:P; [|discriminate]. injection E as <-. exact (parameterized_fine _ _ _ _ H P).
  - destruct (as_parameterized s) as [[u o]|] eqn:P; [|discriminate]. injection E as <-. exact (parameterized_fine _ _ _ _ H P).
Qed.
Lemma match_pattern_fine n s v : fine (S n) s -> match_pattern s = inl v -> fine_pattern n v.
Proof.
  intros H E. unfold match_pattern in E. destruct (as_form s) as [[h rest]|] eqn:F; [|exact (match_pattern_rest_fine _ _ _ H E)].
  destruct (text_eqb h (t_ "let")); [|destruct (text_eqb h (t_ ":")); [|exact (match_pattern_rest_fine _ _ _ H E)]];
    apply as_form_some in F; destruct F as [l [lk ->]]; apply fine_form in H; destruct H as [H1 H2].
  - destruct rest as [|x [|p [|q rest]]]; try discriminate; destruct (as_name x); try discriminate; injection E as <-; [exact I|].
    inversion H2 as [|? ? _ H3]; subst. inversion H3; subst. assumption.
  - injection E as <-. split; assumption.
Qed.
Lemma runs_pattern n : forall s, fine n s -> runs (build_pattern W (S n) s).
Proof.
  induction n as [|n IH]; intros s H; [destruct (fine_0 s H)|]. cbn [build_pattern]. apply runs_node; [exact H|]. intros v E.
  apply (match_pattern_fine n) in E; [|exact H]. apply runs_drop.
  assert (IHs : forall l, Forall (fine n) l -> runs (all (build_pattern W (S n)) l)) by (intros l Hl; apply runs_all; eapply Forall_impl; [apply IH | exact Hl]).
  destruct v as [s0|x o|ss| |u fields|]; cbn [fine_pattern] in E; try apply runs_ret.
  - destruct (rep s0); apply runs_ret.
  - apply runs_bind; [apply runs_declare|]. intros b _. apply runs_bind; [|intros; apply runs_ret]. apply runs_opt. intros a ->. apply IH. exact E.
  - destruct E as [E0 E1]. apply runs_bind; [apply IHs; exact E1|]. intros ks G. apply all_length in G.
    apply runs_bind; [apply runs_sized; lia | intros; apply runs_ret].
  - destruct E as [E1 E2]. apply runs_bind; [apply runs_use; exact E1|]. intros u' _. apply runs_bind; [|intros; apply runs_ret].
    apply runs_opt. intros a ->. apply IHs. exact E2.
Qed.

Section Bodies.
Variable n : nat.
Hypothesis IH : forall s, fine n s -> runs (build_expr W (S n) s).
Lemma runs_body ss : Forall (fine n) ss -> runs (build_body W (build_expr W (S n)) ss).
Proof.
  intros H. destruct ss as [|s [|s2 ss]]; [apply runs_ret | inversion H; subst; apply IH; assumption|].
  unfold build_body. destruct (split_last (s :: s2 :: ss)) as [[i z]|] eqn:L; [|apply split_last_none in L; discriminate].
  apply split_last_some in L. rewrite L in H. apply Forall_app_last in H. destruct H as [H1 H2].
  apply runs_bind; [apply runs_all; eapply Forall_impl; [apply IH | exact H1]|]. intros es _. apply runs_bind; [apply IH; exact H2 | intros; apply runs_ret].
Qed.
Lemma runs_block ss : Forall (fine n) ss -> runs (build_block W (build_expr W (S n)) ss).
Proof. intros H. apply runs_drop. apply runs_body. exact H. Qed.
Lemma annotated_fine s x ps sc : fine n s -> as_annotated s = Some (x, ps, Some sc) -> fine_scheme n sc.
Proof.
  intros H E. destruct n as [|[|[|m]]].
  - destruct (fine_0 _ H).
  - exfalso. unfold as_annotated in E. destruct (as_form s) as [[k [|b ann]]|] eqn:F.
    + destruct (as_header s); discriminate.
    + apply as_form_some in F. destruct F as [l [lk ->]]. apply fine_form in H. destruct H as [_ H]. inversion H as [|? ? H1]; subst. exact (fine_0 _ H1).
    + destruct (as_header s); discriminate.
  - unfold as_annotated in E. destruct (as_form s) as [[k [|b ann]]|] eqn:F.
    + destruct (as_header s); discriminate.
    + apply as_form_some in F. destruct F as [l [lk ->]]. pose proof H as Hall. apply fine_form in H. destruct H as [_ H]. inversion H as [|? ? H1 H2]; subst.
      destruct (text_eqb k ANNOTATE); [|destruct (as_header _); discriminate]. destruct (as_header b); [|discriminate].
      destruct (match_scheme ann) as [v|] eqn:Sc; [|discriminate]. injection E as _ <-.
      apply (match_scheme_fine 0 ann); [apply fine_mores; exact H2 | exact Sc].
    + destruct (as_header s); discriminate.
  - unfold as_annotated in E. destruct (as_form s) as [[k [|b ann]]|] eqn:F.
    + destruct (as_header s); discriminate.
    + apply as_form_some in F. destruct F as [l [lk ->]]. apply fine_form in H. destruct H as [_ H]. inversion H as [|? ? H1 H2]; subst.
      destruct (text_eqb k ANNOTATE); [|destruct (as_header _); discriminate]. destruct (as_header b); [|discriminate].
      destruct (match_scheme ann) as [v|] eqn:Sc; [|discriminate]. injection E as _ <-.
      apply (match_scheme_fine (S m) ann); [apply fine_mores; exact H2 | exact Sc].
    + destruct (as_header s); discriminate.
Qed.
Lemma runs_def s : fine n s -> runs (build_def W (build_expr W (S n)) (S n) s).
Proof.
  intros H. unfold build_def. apply runs_bind; [apply runs_lift|]. intros v [c1 [c2 G]].
  assert (E : match_def s = inl v) by (destruct (match_def s); cbn in G; [injection G as _ ->; reflexivity | discriminate]). clear G.
  unfold match_def in E. destruct (as_apply s) as [[a body]|] eqn:A; [|discriminate]. destruct (as_annotated a) as [[[x ps] sc]|] eqn:N; [|discriminate].
  injection E as <-. cbn [sd_params sd_scheme sd_body sd_name sd_loc]. apply as_apply_some in A. destruct A as [l ->].
  assert (Hl : fine (S n) (Sexp l (RList (a :: body)))) by (apply fine_more; exact H).
  apply fine_list in Hl. destruct Hl as [_ Hl]. inversion Hl as [|? ? H1 H2]; subst.
  apply runs_bind; [apply runs_opt; intros ns _; apply runs_all; clear; induction ns; constructor; [apply runs_declare | assumption]|]. intros bs _.
  apply runs_bind. { apply runs_opt. intros v ->. apply runs_scheme. exact (annotated_fine _ _ _ _ H1 N). }
  intros sc' _. apply runs_bind; [apply runs_block; exact H2|]. intros e _.
  destruct bs; [apply runs_bind; [apply runs_declare | intros; apply runs_ret]|].
  destruct sc' as [sc'|]; [destruct (is_monomorphic sc'); [|apply runs_refuse]|]; apply runs_bind; try apply runs_declare; intros; apply runs_ret.
Qed.
Lemma runs_clause s : fine n s -> runs (build_clause W (build_expr W (S n)) (S n) s).
Proof.
  intros H. apply runs_node; [apply fine_more; exact H|]. intros [sp body] E. unfold match_clause in E.
  destruct (as_apply s) as [x|] eqn:A; [|discriminate]. injection E as ->. apply as_apply_some in A. destruct A as [l ->].
  assert (Hl : fine (S n) (Sexp l (RList (sp :: body)))) by (apply fine_more; exact H).
  apply fine_list in Hl. destruct Hl as [_ Hl]. inversion Hl as [|? ? H1 H2]; subst. cbn [fst snd].
  apply runs_bind; [apply runs_pattern; exact H1|]. intros p _. apply runs_bind; [apply runs_block; exact H2 | intros; apply runs_ret].
Qed.
End Bodies.

Definition fine_expr (n : nat) (v : sexpr) : Prop :=
  match v with
  | SEBegin body => Forall (fine n) body
  | SELet defs body => Forall (fine n) defs /\ Forall (fine n) body
  | SEIf a b c => fine n a /\ fine n b /\ fine n c
  | SEWhile a body | SEMatch a body | SEApp a body => fine n a /\ Forall (fine n) body
  | SEReturn (Some a) => fine n a
  | SETuple ss => List.length ss <= 16 /\ Forall (fine n) ss
  | SEUse u => fine_use u
  | SEAnnotate _ e v => fine n e /\ fine_scheme n v
  | _ => True
  end.
Lemma match_expr_rest_fine n s v : fine (S n) s -> match_expr_rest s = inl v -> fine_expr n v.
Proof.
  intros H E. unfold match_expr_rest in E. destruct (as_use s) as [u|] eqn:U.
  - pose proof (fine_as_use _ _ _ H U) as Hu. destruct u as [x|l x].
    + destruct (text_eqb (s_name x) (t_ "unit")); injection E as <-; exact I.
    + injection E as <-. exact Hu.
  - destruct (as_apply s) as [[a args]|] eqn:A.
    + injection E as <-. apply as_apply_some in A. destruct A as [l ->]. apply fine_list in H. destruct H as [_ H]. inversion H; subst. split; assumption.
    + destruct (rep s); try discriminate; injection E as <-; exact I.
Qed.
Lemma match_expr_fine n s v : fine (S n) s -> match_expr s = inl v -> fine_expr n v.
Proof.
  intros H E. unfold match_expr in E. destruct (as_form s) as [[h rest]|] eqn:F; [|exact (match_expr_rest_fine _ _ _ H E)].
  pose proof H as H0. apply as_form_some in F. destruct F as [l [lk ->]]. apply fine_form in H. destruct H as [H1 H2].
  step_word E; [injection E as <-; exact H2|].
  step_word E. { destruct rest as [|[ld [| | | | |defs| | |]] rest]; try discriminate. injection E as <-. inversion H2 as [|? ? H3 H4]; subst. split; [|exact H4].
    destruct n as [|m]; [destruct (fine_0 _ H3)|]. apply fine_list in H3. apply fine_mores. apply H3. }
  step_word E. { destruct rest as [|a [|b [|c [|d rest]]]]; try discriminate. injection E as <-. inversion H2 as [|? ? H3 H4]; subst. inversion H4 as [|? ? H5 H6]; subst. inversion H6; subst. split; [exact H3|]. split; assumption. }
  step_word E. { destruct rest as [|a rest]; try discriminate. injection E as <-. inversion H2; subst. split; assumption. }
  step_word E. { destruct rest as [|a rest]; try discriminate. injection E as <-. inversion H2; subst. split; assumption. }
  step_word E. { destruct rest as [|a [|b rest]]; try discriminate; injection E as <-; [exact I | inversion H2; subst; assumption]. }
  step_word E. { injection E as <-. split; assumption. }
  step_word E. { destruct rest as [|a [|b rest]]; try discriminate. injection E as <-. exact I. }
  step_word E. { destruct rest as [|a [|b rest]]; try discriminate. destruct (as_name a); [|discriminate]. injection E as <-. exact I. }
  step_word E.
  { destruct rest as [|a rest]; try discriminate. destruct (match_scheme rest) as [v0|] eqn:Sc; [|discriminate]. injection E as <-.
    inversion H2 as [|? ? H3 H4]; subst. split; [exact H3|].
    destruct n as [|[|m]]; [destruct (fine_0 _ H3)| |exact (match_scheme_fine m rest v0 H4 Sc)].
    assert (G : fine_scheme 2 v0) by (apply (match_scheme_fine 0 rest); [apply fine_mores; exact H4 | exact Sc]).
    pose proof Sc as S0. unfold match_scheme in S0. destruct (take_forall rest) as [[vs rest']|] eqn:T; [|discriminate].
    destruct (take_where rest') as [[[|body [|b2 bs]] cs]|] eqn:U; try discriminate. injection S0 as <-.
    (* at depth one there are only atoms *)
    assert (At : forall x, fine 1 x -> as_form x = None).
    { intros x Hx. destruct (as_form x) as [[k r]|] eqn:Fx; [|reflexivity]. apply as_form_some in Fx. destruct Fx as [l' [lk' ->]].
      apply fine_list in Hx. destruct Hx as [_ Hx]. inversion Hx as [|? ? Hy]; subst. destruct (fine_0 _ Hy). }
    destruct rest as [|r0 rest]; [cbn in T; injection T as <- <-; discriminate|]. inversion H4 as [|? ? H5 H6]; subst.
    cbn in T. rewrite (At r0 H5) in T. injection T as <- <-. unfold take_where in U.
    destruct (split_last (r0 :: rest)) as [[i z]|] eqn:L; [|apply split_last_none in L; discriminate].
    apply split_last_some in L. rewrite L in H4. apply Forall_app_last in H4. destruct H4 as [_ H4]. rewrite (At z H4) in U. injection U as -> -> <-.
    split; [constructor|]. split; [constructor | exact H5]. }
  exact (match_expr_rest_fine _ _ _ H0 E).
Qed.
Lemma runs_expr n : forall s, fine n s -> runs (build_expr W (S n) s).
Proof.
  induction n as [|n IH]; intros s H; [destruct (fine_0 s H)|]. cbn [build_expr]. apply runs_node; [exact H|]. intros v E.
  apply (match_expr_fine n) in E; [|exact H]. change (build_expr W (S n)) with (build_expr W (S n)) in IH. apply runs_drop.
  assert (IHs : forall l, Forall (fine n) l -> runs (all (build_expr W (S n)) l)) by (intros l Hl; apply runs_all; eapply Forall_impl; [apply IH | exact Hl]).
  destruct v as [body|defs body|c t e|c body|t cs|o|ss| |[x|l x]|callee args|q|x|l e v|s0]; cbn [fine_expr fine_use] in E.
  - apply runs_body; assumption.
  - destruct E as [E1 E2]. apply runs_bind; [apply runs_all; eapply Forall_impl; [|exact E1]; intros a Ha; apply runs_def; assumption|].
    intros ds _. apply runs_bind; [apply runs_block; assumption | intros; apply runs_ret].
  - destruct E as [E1 [E2 E3]]. apply runs_bind; [apply IH; exact E1|]. intros x _. apply runs_bind; [apply IH; exact E2|]. intros y _.
    apply runs_bind; [apply IH; exact E3 | intros; apply runs_ret].
  - destruct E as [E1 E2]. apply runs_bind; [apply IH; exact E1|]. intros x _. apply runs_bind; [apply runs_block; assumption | intros; apply runs_ret].
  - destruct E as [E1 E2]. apply runs_bind; [apply IH; exact E1|]. intros x _.
    apply runs_bind; [apply runs_all; eapply Forall_impl; [|exact E2]; intros a Ha; apply runs_clause; assumption | intros; apply runs_ret].
  - apply runs_bind; [|intros; apply runs_ret]. apply runs_opt. intros a ->. apply IH. exact E.
  - destruct E as [E0 E1]. destruct ss as [|a ss]; [apply runs_ret|]. apply runs_bind; [apply runs_sized; exact E0|]. intros k _.
    apply runs_bind; [apply runs_next|]. intros i _. apply runs_bind; [apply IHs; exact E1 | intros; apply runs_ret].
  - apply runs_ret.
  - apply runs_bind; [apply runs_next | intros; apply runs_ret].
  - destruct (native W x) as [c|]; [|destruct E; reflexivity].
    destruct (is_value (variant_of W c)); [destruct (is_static (variant_of W c))|destruct (is_value_con (variant_of W c))]; first [apply runs_ret | apply runs_refuse].
  - destruct E as [E1 E2]. apply runs_bind; [apply IH; exact E1|]. intros x _. apply runs_bind; [apply IHs; exact E2 | intros; apply runs_ret].
  - apply runs_ret.
  - apply runs_bind; [apply runs_next | intros; apply runs_ret].
  - destruct E as [E1 E2]. apply runs_bind; [apply IH; exact E1|]. intros x _. apply runs_bind; [apply runs_scheme; exact E2|].
    intros sc _. destruct (is_monomorphic sc); [apply runs_ret | apply runs_refuse].
  - destruct (rep s0); apply runs_ret.
Qed.
End Runs.
