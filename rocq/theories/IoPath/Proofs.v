From Coq Require Import NArith.
From Verif.Base Require Import Base BaseFacts.
From Verif.Utf8 Require Import Spec.
From Verif.Strings Require Import Model Spec Proofs ProofsOrder ProofsSplit.
From Verif.IoPath Require Import Model Spec.
Local Open Scope list_scope.

(** ** Cutting strings *)
Lemma take_at a b : is_string a -> is_string b -> take (List.length a) (a ++ b) = Ret a.
Proof.
  intros [ca [Ka ->]] [cb [Kb ->]]. pose proof (take_text (List.length (flat_map utf8 ca)) (ca ++ cb)) as Q.
  rewrite flat_map_app in Q. destruct (proj1 (Q ltac:(apply Forall_app; split; assumption))) as [R _].
  - left. exists ca, cb. split; reflexivity.
  - rewrite R. f_equal. rewrite firstn_app, firstn_all, Nat.sub_diag, firstn_O, app_nil_r. reflexivity.
Qed.
Lemma skip_at a b : is_string a -> is_string b -> skip (List.length a) (a ++ b) = Ret b.
Proof.
  intros [ca [Ka ->]] [cb [Kb ->]]. pose proof (skip_text (List.length (flat_map utf8 ca)) (ca ++ cb)) as Q.
  rewrite flat_map_app in Q. destruct (proj1 (Q ltac:(apply Forall_app; split; assumption))) as [R _].
  - left. exists ca, cb. split; reflexivity.
  - rewrite R. f_equal. rewrite skipn_app, skipn_all, Nat.sub_diag. reflexivity.
Qed.
Lemma substring_at a b c : is_string a -> is_string b -> is_string c ->
  substring (List.length a) (List.length a + List.length b) (a ++ b ++ c) = Ret b.
Proof.
  intros [ca [Ka ->]] [cb [Kb ->]] [cc [Kc ->]].
  pose proof (substring_text (List.length (flat_map utf8 ca)) (List.length (flat_map utf8 ca) + List.length (flat_map utf8 cb)) (ca ++ cb ++ cc)) as Q.
  rewrite !flat_map_app in Q. destruct (proj1 (Q ltac:(repeat (apply Forall_app; split; try assumption)))) as [R _].
  - split; [lia|]. split; [exists ca, (cb ++ cc); split; reflexivity|]. exists (ca ++ cb), cc. split; [apply app_assoc|].
    rewrite flat_map_app, app_length. reflexivity.
  - rewrite R. f_equal. rewrite skipn_app, skipn_all, Nat.sub_diag. cbn [skipn app].
    rewrite firstn_app. replace (_ + _ - _)%nat with (List.length (flat_map utf8 cb)) by lia.
    rewrite firstn_all, Nat.sub_diag, firstn_O, app_nil_r. reflexivity.
Qed.
Lemma ascii_string c : (c < 128)%N -> is_string [c].
Proof.
  intro H. exists [c]. split; [constructor; [|constructor]|].
  - unfold known, scalar. split; [lia|lia].
  - cbn. unfold utf8. apply N.ltb_lt in H. rewrite H. reflexivity.
Qed.
Lemma slash_string : is_string slash.
Proof. apply ascii_string. reflexivity. Qed.
Lemma dot_string : is_string dot.
Proof. apply ascii_string. reflexivity. Qed.
Lemma string_cut c a b : (c < 128)%N -> is_string (a ++ [c] ++ b) -> is_string a /\ is_string b.
Proof. intros H S. exact (cut_strings [c] _ a b (ascii_string c H) ltac:(discriminate) S eq_refl). Qed.

(** ** Names *)
Lemma segments_ne p : segments p <> [].
Proof. destruct p as [|x p]; cbn; [discriminate|]. destruct (N.eqb x 47); [discriminate|]. destruct (segments p); discriminate. Qed.
Lemma segments_free a : slashfree a -> segments a = [a].
Proof.
  induction a as [|x a IH]; intro F; [reflexivity|]. cbn [segments].
  destruct (N.eqb_spec x 47) as [->|_]; [destruct F; left; reflexivity|].
  rewrite IH by (intro I; apply F; right; exact I). reflexivity.
Qed.
Lemma segments_app a b : slashfree a -> segments (a ++ [47%N] ++ b) = a :: segments b.
Proof.
  induction a as [|x a IH]; intro F; [reflexivity|]. cbn [segments app].
  destruct (N.eqb_spec x 47) as [->|_]; [destruct F; left; reflexivity|].
  change (a ++ 47%N :: b) with (a ++ [47%N] ++ b). rewrite IH by (intro I; apply F; right; exact I). reflexivity.
Qed.
Lemma segments_cut a b : segments (a ++ [47%N] ++ b) = segments a ++ segments b.
Proof.
  induction a as [|x a IH]; [reflexivity|]. cbn [app segments]. cbn [app] in IH. rewrite IH.
  destruct (N.eqb x 47); [reflexivity|]. destruct (segments a) as [|y l] eqn:E; [destruct (segments_ne _ E)|reflexivity].
Qed.
Lemma names_cut a b : names (a ++ [47%N] ++ b) = names a ++ names b.
Proof. unfold names. rewrite segments_cut. apply filter_app. Qed.
Lemma names_free a : slashfree a -> names a = match a with [] => [] | _ => [a] end.
Proof. intro F. unfold names. rewrite segments_free by exact F. destruct a; reflexivity. Qed.
Lemma names_slashes t : Forall (fun x => x = 47%N) t -> names t = [].
Proof. induction 1 as [|x t -> _ IH]; [reflexivity|]. exact IH. Qed.
Lemma names_after t p : Forall (fun x => x = 47%N) t -> names (t ++ p) = names p.
Proof. induction 1 as [|x t -> _ IH]; [reflexivity|]. exact IH. Qed.
Lemma names_before t p : Forall (fun x => x = 47%N) t -> names (p ++ t) = names p.
Proof.
  intro F. destruct F as [|x t -> F]; [rewrite app_nil_r; reflexivity|].
  change (p ++ 47%N :: t) with (p ++ [47%N] ++ t). rewrite names_cut, (names_slashes t F). apply app_nil_r.
Qed.
Lemma names_ok p : Forall (fun n => n <> [] /\ slashfree n) (names p).
Proof.
  assert (Q : Forall slashfree (segments p)).
  { induction p as [|x p IH]; cbn [segments]; [repeat constructor; intros []|].
    destruct (N.eqb_spec x 47) as [_|Hx]; [constructor; [intros []|exact IH]|].
    destruct (segments p) as [|a l]; [constructor; [intros [H|[]]; congruence|constructor]|].
    inversion IH as [|? ? H1 H2]; subst. constructor; [|exact H2]. intros [H|H]; [congruence|exact (H1 H)]. }
  apply Forall_forall. intros n I. apply filter_In in I. destruct I as [I E]. split; [destruct n; discriminate|].
  rewrite Forall_forall in Q. apply Q, I.
Qed.
Lemma first_slash p : exists a, slashfree a /\ (p = a \/ exists b, p = a ++ [47%N] ++ b).
Proof.
  induction p as [|x p [a [F H]]]; [exists []; split; [intros []|left; reflexivity]|].
  destruct (N.eq_dec x 47) as [->|Hx]; [exists []; split; [intros []|right; exists p; reflexivity]|].
  exists (x :: a). split; [intros [E|I]; [congruence|exact (F I)]|].
  destruct H as [->|[b ->]]; [left; reflexivity|right; exists b; reflexivity].
Qed.

(** ** Components *)
Lemma skip_separators_spec fuel : forall s, is_string s -> List.length s < fuel ->
  exists t r, skip_separators fuel s = Ret r /\ s = t ++ r /\ Forall (fun x => x = 47%N) t /\ rooted r = false /\ is_string r.
Proof.
  induction fuel as [|fuel IH]; intros s S L; [lia|]. cbn [skip_separators].
  destruct s as [|x s]; [exists [], []; repeat split; [constructor|exact S]|].
  change (Nat.leb 1 (List.length (x :: s))) with true. cbn [byte_at nth_error bind].
  destruct (N.eqb_spec x 47) as [->|Hx].
  - destruct (string_cut 47 [] s ltac:(reflexivity) S) as [_ S'].
    pose proof (skip_at slash s slash_string S') as Q. cbn [List.length slash app] in Q. rewrite Q. cbn [bind].
    cbn [List.length] in L. destruct (IH s S' ltac:(lia)) as [t [r [Q1 [-> [Q3 [Q4 Q5]]]]]].
    exists (47%N :: t), r. split; [exact Q1|]. split; [reflexivity|]. split; [constructor; [reflexivity|exact Q3]|]. split; assumption.
  - exists [], (x :: s). split; [reflexivity|]. split; [reflexivity|]. split; [constructor|]. split; [|exact S].
    cbn. apply N.eqb_neq. exact Hx.
Qed.
Lemma skip_repeated_spec s : is_string s ->
  exists r, skip_repeated s = Ret r /\ names r = names s /\ rooted r = false /\ is_string r /\ List.length r <= List.length s.
Proof.
  intro S. destruct (skip_separators_spec (Datatypes.S (List.length s)) s S (Nat.lt_succ_diag_r _)) as [t [r [Q1 [-> [Q3 [Q4 Q5]]]]]].
  exists r. split; [exact Q1|]. split; [symmetry; apply names_after, Q3|]. split; [exact Q4|]. split; [exact Q5|]. rewrite app_length. lia.
Qed.
Lemma starts_slash p : starts_with slash p = rooted p.
Proof.
  destruct p as [|x p]; [reflexivity|]. unfold starts_with. change (is_empty slash) with false. change (Nat.leb (List.length slash) (List.length (x :: p))) with true.
  cbn [andb all_equal slash rooted]. rewrite (N.eqb_sym 47 x). destruct (N.eqb x 47); [destruct p; reflexivity|reflexivity].
Qed.
Lemma find_slash a b : slashfree a -> is_string (a ++ [47%N] ++ b) -> fits (a ++ [47%N] ++ b) -> find slash (a ++ [47%N] ++ b) = Ret (Some (List.length a)).
Proof.
  intros F S Fi. destruct (find_spec slash _ slash_string S Fi) as [r [Q1 Q2]]. rewrite Q1. f_equal.
  assert (O : occurs_at slash (a ++ [47%N] ++ b) (List.length a)) by (exists a, b; split; reflexivity).
  destruct r as [i|]; [|destruct (Q2 _ O)]. destruct Q2 as [[x [y [E L]]] M]. f_equal. specialize (M _ O).
  destruct (Nat.eq_dec i (List.length a)) as [->|N]; [reflexivity|]. exfalso. apply F. unfold slash in E.
  apply (in_before 47%N x y a b); [exact E|lia].
Qed.
Lemma find_none a : slashfree a -> is_string a -> fits a -> find slash a = Ret None.
Proof.
  intros F S Fi. destruct (find_spec slash _ slash_string S Fi) as [r [Q1 Q2]]. rewrite Q1. f_equal.
  destruct r as [i|]; [|reflexivity]. destruct Q2 as [[x [y [E _]]] _]. exfalso. apply F. rewrite E. apply in_or_app. right. left. reflexivity.
Qed.
Lemma component_normal a : a <> dot -> a <> dot ++ dot -> component_of a = Normal a.
Proof.
  intros H1 H2. unfold component_of. destruct a as [|x a]; [reflexivity|].
  destruct (N.eq_dec x 46) as [->|Hx].
  - destruct a as [|y a]; [destruct H1; reflexivity|]. destruct (N.eq_dec y 46) as [->|Hy].
    + destruct a; [destruct H2; reflexivity|reflexivity].
    + destruct y as [|y]; [reflexivity|]. repeat (destruct y as [y|y|]; try reflexivity). congruence.
  - destruct x as [|x]; [reflexivity|]. repeat (destruct x as [x|x|]; try reflexivity). congruence.
Qed.
Lemma dotted_prefix x a b : slashfree a -> slashfree x -> (exists y, a ++ [47%N] ++ b = (x ++ slash) ++ y) -> a = x.
Proof.
  intros Fa Fx [y E]. rewrite <- app_assoc in E. unfold slash in E.
  assert (L : List.length a = List.length x).
  { destruct (Nat.lt_trichotomy (List.length a) (List.length x)) as [L|[L|L]]; [|exact L|].
    - destruct Fx. symmetry in E. apply (in_before 47%N a b x y); [exact E|exact L].
    - destruct Fa. apply (in_before 47%N x y a b); [exact E|exact L]. }
  assert (Q := f_equal (firstn (List.length a)) E). rewrite firstn_app, firstn_all, Nat.sub_diag, firstn_O, app_nil_r in Q.
  rewrite L, firstn_app, firstn_all, Nat.sub_diag, firstn_O, app_nil_r in Q. exact Q.
Qed.
Lemma dot_free : slashfree dot.
Proof. intros [H|[]]. discriminate. Qed.
Lemma dots_free : slashfree (dot ++ dot).
Proof. intros [H|[H|[]]]; discriminate. Qed.

Lemma next_name p : p <> [] -> rooted p = false -> is_string p -> fits p ->
  exists a r, next p = Ret (Some (component_of a, r)) /\ names p = a :: names r /\ rooted r = false /\ is_string r /\ List.length r < List.length p.
Proof.
  intros Hp R S Fi. unfold next.
  replace (is_empty p) with false by (destruct p; [congruence|reflexivity]).
  rewrite starts_slash, R.
  destruct (first_slash p) as [a [F [->|[b ->]]]].
  - (* the last name *)
    assert (Q1 : forall x, starts_with (x ++ slash) a = false).
    { intro x. destruct (starts_with (x ++ slash) a) eqn:E; [|reflexivity]. apply starts_with_iff in E. destruct E as [y ->].
      destruct F. apply in_or_app. left. apply in_or_app. right. left. reflexivity. }
    rewrite (Q1 dot). rewrite (app_assoc dot dot slash), (Q1 (dot ++ dot)).
    rewrite find_none by assumption. cbn [bind].
    exists a, []. split.
    + f_equal. f_equal. f_equal. destruct (string_eq a dot) eqn:E; [apply string_eq_spec in E; subst a; reflexivity|].
      destruct (string_eq a (dot ++ dot)) eqn:E'; [apply string_eq_spec in E'; subst a; reflexivity|].
      symmetry. apply component_normal; intro H; [apply string_eq_spec in H|apply string_eq_spec in H]; congruence.
    + split; [rewrite names_free by exact F; destruct a; [congruence|reflexivity]|]. split; [reflexivity|].
      split; [apply is_string_nil|]. destruct a; [congruence|cbn; lia].
  - assert (Ha : a <> []) by (intros ->; discriminate).
    destruct (string_cut 47 a b ltac:(reflexivity) S) as [Sa Sb].
    assert (Q1 : forall x, slashfree x -> starts_with (x ++ slash) (a ++ [47%N] ++ b) = string_eq a x).
    { intros x Fx. destruct (string_eq a x) eqn:E.
      - apply string_eq_spec in E. subst x. apply starts_with_iff. exists b. rewrite <- app_assoc. reflexivity.
      - destruct (starts_with (x ++ slash) (a ++ [47%N] ++ b)) eqn:E'; [|reflexivity]. apply starts_with_iff in E'.
        apply (dotted_prefix x a b F Fx) in E'. apply string_eq_spec in E'. congruence. }
    assert (Nm : names (a ++ [47%N] ++ b) = a :: names b).
    { rewrite names_cut, names_free by exact F. destruct a; [congruence|reflexivity]. }
    destruct (skip_repeated_spec b Sb) as [r [R1 [R2 [R3 [R4 R5]]]]].
    assert (K : forall x, is_string x -> skip (List.length x + 1) (x ++ [47%N] ++ b) = Ret b).
    { intros x Sx. pose proof (skip_at (x ++ slash) b (is_string_app _ _ Sx slash_string) Sb) as Q.
      rewrite app_length, <- app_assoc in Q. exact Q. }
    rewrite (Q1 dot dot_free). rewrite (app_assoc dot dot slash), (Q1 (dot ++ dot) dots_free).
    destruct (string_eq a dot) eqn:E; [|destruct (string_eq a (dot ++ dot)) eqn:E'].
    + apply string_eq_spec in E. subst a. change 2 with (List.length dot + 1) at 1. rewrite (K dot dot_string). cbn [bind]. rewrite R1. cbn [bind].
      exists dot, r. split; [reflexivity|]. split; [rewrite Nm, R2; reflexivity|]. split; [exact R3|]. split; [exact R4|].
      rewrite !app_length. cbn. lia.
    + apply string_eq_spec in E'. subst a. change 3 with (List.length (dot ++ dot) + 1) at 1. rewrite (K (dot ++ dot) Sa). cbn [bind]. rewrite R1. cbn [bind].
      exists (dot ++ dot), r. split; [reflexivity|]. split; [rewrite Nm, R2; reflexivity|]. split; [exact R3|]. split; [exact R4|].
      rewrite !app_length. cbn. lia.
    + rewrite find_slash by assumption. cbn [bind].
      assert (Sb' : is_string ([47%N] ++ b)) by (apply is_string_app; [apply slash_string|exact Sb]).
      rewrite take_at, skip_at by assumption. cbn [bind].
      destruct (skip_repeated_spec ([47%N] ++ b) Sb') as [r' [T1 [T2 [T3 [T4 T5]]]]]. rewrite T1. cbn [bind].
      exists a, r'. split.
      * f_equal. f_equal. f_equal. symmetry. apply component_normal; intro H; apply string_eq_spec in H; congruence.
      * split; [rewrite Nm, T2; reflexivity|]. split; [exact T3|]. split; [exact T4|].
        rewrite app_length in *. destruct a; [congruence|]. cbn in *. lia.
Qed.
Lemma components_names fuel : forall p, rooted p = false -> is_string p -> fits p -> List.length p < fuel ->
  components_loop fuel p = Ret (map component_of (names p)).
Proof.
  induction fuel as [|fuel IH]; intros p R S Fi L; [lia|]. cbn [components_loop].
  destruct p as [|x p0]; [reflexivity|]. set (p := x :: p0) in *.
  destruct (next_name p ltac:(discriminate) R S Fi) as [a [r [Q1 [Q2 [Q3 [Q4 Q5]]]]]].
  rewrite Q1. cbn [bind]. rewrite (IH r Q3 Q4) by (try (apply (fits_le r p Fi)); lia). cbn [bind]. rewrite Q2. reflexivity.
Qed.
Lemma components_spec p : is_string p -> fits p -> components p = Ret (meaning p).
Proof.
  intros S Fi. unfold components, meaning. destruct (rooted p) eqn:R.
  - destruct p as [|x p]; [discriminate|]. cbn in R. apply N.eqb_eq in R. subst x.
    destruct (string_cut 47 [] p ltac:(reflexivity) S) as [_ S']. cbn [components_loop].
    destruct (skip_repeated_spec p S') as [r [Q1 [Q2 [Q3 [Q4 Q5]]]]].
    unfold next. change (is_empty (47%N :: p)) with false. rewrite starts_slash. cbn [rooted].
    change (N.eqb 47 47) with true.
    pose proof (skip_at slash p slash_string S') as K. cbn [List.length slash app] in K. rewrite K. cbn [bind]. rewrite Q1. cbn [bind].
    rewrite components_names; [|exact Q3|exact Q4|apply (fits_le r _ Fi); cbn; lia|cbn; lia].
    cbn [bind]. rewrite Q2. reflexivity.
  - apply components_names; try assumption. lia.
Qed.
