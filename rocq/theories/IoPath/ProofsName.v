From Coq Require Import NArith.
From Verif.Base Require Import Base BaseFacts.
From Verif.Utf8 Require Import Spec.
From Verif.Strings Require Import Model Spec Proofs ProofsOrder ProofsSplit.
From Verif.IoPath Require Import Model Spec Proofs.
Local Open Scope list_scope.

Notation slashes := (Forall (fun x => x = 47%N)).

Lemma byte_mid (a b : str) x : byte_at (List.length a) (a ++ x :: b) = Ret x.
Proof. unfold byte_at. rewrite nth_error_app2, Nat.sub_diag by lia. reflexivity. Qed.
Lemma last_cases (l : list N) : l = [] \/ exists l' x, l = l' ++ [x].
Proof. destruct l as [|y l] using rev_ind; [left; reflexivity|right; exists l, y; reflexivity]. Qed.

(** ** The last name *)
Lemma located_exists p : exists d b t, located p d b t.
Proof.
  induction p as [|x p [d [b [t [E [F [T [D B]]]]]]]].
  - exists [], [], []. split; [reflexivity|]. split; [intros []|]. split; [constructor|]. split; [left; reflexivity|reflexivity].
  - destruct b as [|y b].
    + specialize (B eq_refl). subst d. cbn [app] in E. subst p. destruct (N.eq_dec x 47) as [->|Hx].
      * exists [], [], (47%N :: t). split; [reflexivity|]. split; [intros []|]. split; [constructor; [reflexivity|exact T]|]. split; [left; reflexivity|reflexivity].
      * exists [], [x], t. split; [reflexivity|]. split; [intros [H|[]]; congruence|]. split; [exact T|]. split; [left; reflexivity|discriminate].
    + destruct D as [->|[d' ->]].
      * destruct (N.eq_dec x 47) as [->|Hx].
        -- exists [47%N], (y :: b), t. split; [rewrite E; reflexivity|]. split; [exact F|]. split; [exact T|]. split; [right; exists []; reflexivity|discriminate].
        -- exists [], (x :: y :: b), t. split; [rewrite E; reflexivity|]. split; [intros [H|H]; [congruence|exact (F H)]|].
           split; [exact T|]. split; [left; reflexivity|discriminate].
      * exists (x :: d' ++ [47%N]), (y :: b), t. split; [rewrite E; reflexivity|]. split; [exact F|]. split; [exact T|].
        split; [right; exists (x :: d'); reflexivity|discriminate].
Qed.

Lemma end_loop_slashes t : slashes t -> forall a u, end_loop (a ++ t ++ u) (List.length (a ++ t)) = end_loop (a ++ t ++ u) (List.length a).
Proof.
  induction t as [|x t IH] using rev_ind; intros T a u; [rewrite app_nil_r; reflexivity|].
  apply Forall_app in T. destruct T as [T T1]. inversion T1 as [|? ? Hx _]; subst x.
  replace (List.length (a ++ t ++ [47%N])) with (Datatypes.S (List.length (a ++ t))) by (rewrite !app_length; cbn; lia). cbn [end_loop]. rewrite <- !app_assoc. cbn [app].
  rewrite (app_assoc a t). rewrite byte_mid. cbn [bind N.eqb Pos.eqb]. rewrite <- app_assoc. apply IH. exact T.
Qed.
Lemma end_loop_stop a x u : x <> 47%N -> end_loop ((a ++ [x]) ++ u) (List.length (a ++ [x])) = Ret (List.length (a ++ [x])).
Proof.
  intro H. rewrite app_length, Nat.add_1_r. cbn [end_loop]. rewrite <- app_assoc. cbn [app]. rewrite byte_mid. cbn [bind].
  apply N.eqb_neq in H. rewrite H. reflexivity.
Qed.
Lemma start_loop_free b : slashfree b -> forall d u, start_loop (d ++ b ++ u) (List.length (d ++ b)) = start_loop (d ++ b ++ u) (List.length d).
Proof.
  induction b as [|x b IH] using rev_ind; intros F d u; [rewrite app_nil_r; reflexivity|].
  replace (List.length (d ++ b ++ [x])) with (Datatypes.S (List.length (d ++ b))) by (rewrite !app_length; cbn; lia). cbn [start_loop]. rewrite <- !app_assoc. cbn [app].
  rewrite (app_assoc d b). rewrite byte_mid. cbn [bind].
  destruct (N.eqb_spec x 47) as [->|_]; [destruct F; apply in_or_app; right; left; reflexivity|]. cbn [negb].
  rewrite <- app_assoc. apply IH. intro I. apply F. apply in_or_app. left. exact I.
Qed.
Lemma start_loop_stop d u : d = [] \/ (exists d', d = d' ++ [47%N]) -> start_loop (d ++ u) (List.length d) = Ret (List.length d).
Proof.
  intros [->|[d' ->]]; [reflexivity|]. rewrite app_length, Nat.add_1_r. cbn [start_loop]. rewrite <- app_assoc. cbn [app]. rewrite byte_mid. reflexivity.
Qed.
Lemma located_end p d b t : located p d b t -> last_component_end p = Ret (List.length (d ++ b)).
Proof.
  intros [-> [F [T [D B]]]]. unfold last_component_end. rewrite app_assoc.
  rewrite <- (app_nil_r t) at 1. rewrite (app_length (d ++ b)), <- (app_length (d ++ b) t), (end_loop_slashes t T), app_nil_r.
  destruct (last_cases b) as [->|[b' [x ->]]].
  - rewrite (B eq_refl). reflexivity.
  - rewrite (app_assoc d b' [x]). apply end_loop_stop. intros ->. apply F. apply in_or_app. right. left. reflexivity.
Qed.
Lemma located_start_end p d b t : located p d b t -> last_component_start_end p = Ret (List.length d, List.length (d ++ b)).
Proof.
  intro H. unfold last_component_start_end. rewrite (located_end p d b t H). cbn [bind].
  destruct H as [-> [F [T [D B]]]]. rewrite (start_loop_free b F), start_loop_stop by exact D. reflexivity.
Qed.
Lemma dot_loop_free x : ~ In 46%N x -> forall l a u, l <= List.length a ->
  dot_loop (a ++ x ++ u) l (List.length (a ++ x)) = dot_loop (a ++ x ++ u) l (List.length a).
Proof.
  induction x as [|y x IH] using rev_ind; intros F l a u L; [rewrite app_nil_r; reflexivity|].
  replace (List.length (a ++ x ++ [y])) with (Datatypes.S (List.length (a ++ x))) by (rewrite !app_length; cbn; lia). cbn [dot_loop]. rewrite <- !app_assoc. cbn [app].
  replace (Nat.ltb l (Datatypes.S (List.length (a ++ x)))) with true by (symmetry; apply Nat.ltb_lt; rewrite app_length; lia).
  rewrite (app_assoc a x). rewrite byte_mid. cbn [bind].
  destruct (N.eqb_spec y 46) as [->|_]; [destruct F; apply in_or_app; right; left; reflexivity|]. cbn [negb].
  rewrite <- app_assoc. apply IH; [|exact L]. intro I. apply F. apply in_or_app. left. exact I.
Qed.
Lemma dot_loop_stop a u l : l <= List.length a -> dot_loop ((a ++ [46%N]) ++ u) l (List.length (a ++ [46%N])) = Ret (List.length (a ++ [46%N])).
Proof.
  intro L. rewrite app_length, Nat.add_1_r. cbn [dot_loop].
  replace (Nat.ltb l (Datatypes.S (List.length a))) with true by (symmetry; apply Nat.ltb_lt; lia).
  rewrite <- app_assoc. cbn [app]. rewrite byte_mid. reflexivity.
Qed.
Lemma dot_loop_start p l : dot_loop p l l = Ret l.
Proof. destruct l; [reflexivity|]. cbn [dot_loop]. rewrite Nat.ltb_irrefl. reflexivity. Qed.
Lemma last_dot b : ~ In 46%N b \/ exists stem x, b = stem ++ [46%N] ++ x /\ ~ In 46%N x.
Proof.
  induction b as [|y b IH] using rev_ind; [left; intros []|].
  destruct (N.eq_dec y 46) as [->|Hy]; [right; exists b, []; split; [reflexivity|intros []]|].
  destruct IH as [IH|[stem [x [-> IH]]]].
  - left. intro I. apply in_app_or in I. destruct I as [I|[I|[]]]; [exact (IH I)|congruence].
  - right. exists stem, (x ++ [y]). split; [rewrite <- !app_assoc; reflexivity|].
    intro I. apply in_app_or in I. destruct I as [I|[I|[]]]; [exact (IH I)|congruence].
Qed.
Lemma located_dot p d b t : located p d b t ->
  last_component_start_dot_end p = Ret (List.length d, List.length d, List.length (d ++ b)) /\ ~ In 46%N b \/
  exists stem x, b = stem ++ [46%N] ++ x /\ ~ In 46%N x /\
    last_component_start_dot_end p = Ret (List.length d, List.length (d ++ stem ++ [46%N]), List.length (d ++ b)).
Proof.
  intro H. unfold last_component_start_dot_end. rewrite (located_start_end p d b t H). cbn [bind].
  destruct H as [-> [F [T [D B]]]]. destruct (last_dot b) as [Nd|[stem [x [-> Nd]]]].
  - left. rewrite (dot_loop_free b Nd) by lia. rewrite dot_loop_start. split; [reflexivity|exact Nd].
  - right. exists stem, x. split; [reflexivity|]. split; [exact Nd|].
    replace (d ++ (stem ++ [46%N] ++ x) ++ t) with ((d ++ stem ++ [46%N]) ++ x ++ t) by (rewrite <- !app_assoc; reflexivity).
    replace (d ++ stem ++ [46%N] ++ x) with ((d ++ stem ++ [46%N]) ++ x) by (rewrite <- !app_assoc; reflexivity).
    rewrite (dot_loop_free x Nd) by (rewrite app_length; lia).
    rewrite (app_assoc d stem [46%N]). rewrite dot_loop_stop by (rewrite app_length; lia). reflexivity.
Qed.

Lemma slashes_string t : slashes t -> is_string t.
Proof. induction 1 as [|x t -> _ IH]; [apply is_string_nil|]. apply (is_string_app [47%N] t slash_string IH). Qed.
Lemma located_strings p d b t : is_string p -> located p d b t -> is_string d /\ is_string b /\ is_string t.
Proof.
  intros S [-> [F [T [D B]]]].
  assert (Q : is_string (d ++ b) /\ is_string t).
  { split; [|apply slashes_string, T]. rewrite app_assoc in S. destruct T as [|x t -> T]; [rewrite app_nil_r in S; exact S|].
    apply (string_cut 47 (d ++ b) t ltac:(reflexivity) S). }
  destruct Q as [Q1 Q2]. destruct D as [->|[d' ->]]; [split; [apply is_string_nil|split; assumption]|].
  rewrite <- app_assoc in Q1. destruct (string_cut 47 d' b ltac:(reflexivity) Q1) as [Sd Sb].
  split; [apply is_string_app; [exact Sd|apply slash_string]|]. split; assumption.
Qed.

(** ** Base and directory *)
Lemma names_located p d b t : located p d b t -> names p = names d ++ match b with [] => [] | _ => [b] end.
Proof.
  intros [-> [F [T [D B]]]]. rewrite app_assoc, names_before by exact T.
  destruct D as [->|[d' ->]]; [apply names_free, F|].
  rewrite <- app_assoc, names_cut, (names_free b F). f_equal. symmetry. apply (names_before [47%N] d'). repeat constructor.
Qed.
Lemma base_name_spec p : is_string p -> base_name p = Ret (if is_empty p then [] else last (names p) slash).
Proof.
  intro S. unfold base_name. destruct (is_empty p) eqn:E; [destruct p; [reflexivity|discriminate]|].
  destruct (located_exists p) as [d [b [t H]]]. rewrite (located_start_end p d b t H). cbn [bind].
  destruct (located_strings p d b t S H) as [Sd [Sb St]]. rewrite (names_located p d b t H).
  destruct b as [|y b].
  - rewrite app_nil_r, Nat.eqb_refl. destruct H as [_ [_ [_ [_ B]]]]. rewrite (B eq_refl). reflexivity.
  - replace (Nat.eqb _ _) with false by (symmetry; apply Nat.eqb_neq; rewrite app_length; cbn; lia).
    destruct H as [-> _]. rewrite app_length, substring_at by assumption. rewrite last_last. reflexivity.
Qed.
Definition up (p : str) : list component := (if rooted p then [RootDir] else []) ++ map component_of (removelast (names p)).
Lemma meaning_dir p : is_string p ->
  exists q, dir_name p = Ret q /\ is_string q /\ q <> [] /\ meaning q = match up p with [] => [CurrentDir] | cs => cs end.
Proof.
  intro S. unfold dir_name. destruct (located_exists p) as [d [b [t H]]]. rewrite (located_start_end p d b t H). cbn [bind].
  destruct (located_strings p d b t S H) as [Sd [Sb St]].
  assert (N : removelast (names p) = names d).
  { rewrite (names_located p d b t H). destruct b; [|apply removelast_last]. destruct H as [_ [_ [_ [_ B]]]]. rewrite (B eq_refl). reflexivity. }
  unfold up. rewrite N. unfold absolute. rewrite starts_slash.
  destruct (Nat.leb (List.length d) 1) eqn:L.
  - apply Nat.leb_le in L. assert (Nd : names d = []).
    { destruct H as [_ [_ [_ [[->|[d' ->]] _]]]]; [reflexivity|]. rewrite app_length in L. destruct d'; [reflexivity|cbn in L; lia]. }
    rewrite Nd. destruct (rooted p).
    + exists slash. split; [reflexivity|]. split; [apply slash_string|]. split; [discriminate|reflexivity].
    + exists dot. split; [reflexivity|]. split; [apply dot_string|]. split; [discriminate|reflexivity].
  - apply Nat.leb_gt in L. destruct H as [E [F [T [D B]]]]. destruct D as [->|[d' ->]]; [cbn in L; lia|].
    rewrite app_length in L. cbn in L.
    rewrite <- app_assoc in E. destruct (string_cut 47 d' (b ++ t) ltac:(reflexivity)) as [Sd' Sbt]; [rewrite <- E; exact S|].
    exists d'. split; [|split; [exact Sd'|]].
    + rewrite app_length. cbn [List.length]. replace (List.length d' + 1 - 1) with (List.length d') by lia. rewrite E. apply take_at; [exact Sd'|].
      apply is_string_app; [apply slash_string|exact Sbt].
    + destruct d' as [|x d']; [cbn in L; lia|]. split; [discriminate|].
      assert (R : rooted p = rooted (x :: d')) by (rewrite E; reflexivity). rewrite R.
      rewrite (names_before [47%N] (x :: d')) by (repeat constructor). change (meaning (x :: d')) with ((if rooted (x :: d') then [RootDir] else []) ++ map component_of (names (x :: d'))).
      destruct (rooted (x :: d')) eqn:Rt; [reflexivity|]. cbn [app].
      destruct (names (x :: d')) as [|n l] eqn:En; [|reflexivity]. exfalso.
      (* a path that does not begin with a slash has a name *)
      cbn [rooted] in Rt. unfold names in En. cbn [segments] in En. rewrite Rt in En. destruct (segments d'); discriminate.
Qed.

(** ** Extensions *)
Lemma extension_spec p d b t : is_string p -> located p d b t ->
  (forall stem x, has_extension b stem x -> extension p = Ret (Some x)) /\
  ((forall stem x, ~ has_extension b stem x) -> extension p = Ret None).
Proof.
  intros S H. destruct (located_strings p d b t S H) as [Sd [Sb St]]. unfold extension.
  destruct (located_dot p d b t H) as [[Q Nd]|[stem [x [Eb [Nx Q]]]]]; rewrite Q; cbn [bind].
  - replace (Nat.ltb _ _) with false by (symmetry; apply Nat.ltb_ge; lia). split; [|reflexivity].
    intros stem x [-> _]. destruct Nd. apply in_or_app. right. left. reflexivity.
  - destruct (string_cut 46 stem x ltac:(reflexivity)) as [Ss Sx]; [rewrite <- Eb; exact Sb|].
    assert (U : forall stem' x', has_extension b stem' x' -> x' = x /\ stem' = stem).
    { intros stem' x' [E' [_ N']]. rewrite Eb in E'.
      assert (L : List.length stem = List.length stem').
      { destruct (Nat.lt_trichotomy (List.length stem) (List.length stem')) as [L|[L|L]]; [|exact L|]; exfalso.
        - apply Nx. assert (Q' := f_equal (skipn (List.length stem + 1)) E').
          rewrite (app_assoc stem), skipn_app, skipn_all2 in Q' by (rewrite app_length; cbn; lia).
          replace (_ - _) with 0 in Q' by (rewrite app_length; cbn; lia). cbn [skipn app] in Q'. rewrite Q'.
          rewrite skipn_app. apply in_or_app. right. replace (_ - _) with 0 by lia. left. reflexivity.
        - apply N'. assert (Q' := f_equal (skipn (List.length stem' + 1)) E'). symmetry in Q'.
          rewrite (app_assoc stem'), skipn_app, skipn_all2 in Q' by (rewrite app_length; cbn; lia).
          replace (_ - _) with 0 in Q' by (rewrite app_length; cbn; lia). cbn [skipn app] in Q'. rewrite Q'.
          rewrite skipn_app. apply in_or_app. right. replace (_ - _) with 0 by lia. left. reflexivity. }
      apply app_eq_app in E'. destruct E' as [w [[E1 E2]|[E1 E2]]].
      - assert (w = []) as -> by (apply length_zero_iff_nil; rewrite E1, app_length in L; lia). rewrite app_nil_r in E1. cbn in E2. injection E2 as E2. split; congruence.
      - assert (w = []) as -> by (apply length_zero_iff_nil; rewrite E1, app_length in L; lia). rewrite app_nil_r in E1. cbn in E2. injection E2 as E2. split; congruence. }
    assert (Ep : p = (d ++ stem ++ dot) ++ x ++ t).
    { destruct H as [-> _]. rewrite Eb. unfold dot. rewrite <- !app_assoc. reflexivity. }
    assert (Sds : is_string (d ++ stem ++ dot)) by (apply is_string_app; [exact Sd|apply is_string_app; [exact Ss|apply dot_string]]).
    destruct stem as [|y stem].
    + replace (Nat.ltb _ _) with false by (symmetry; apply Nat.ltb_ge; rewrite app_length; cbn; lia). split; [|reflexivity].
      intros stem' x' E'. destruct (U stem' x' E') as [_ ->]. destruct E' as [_ [C _]]. congruence.
    + replace (Nat.ltb _ _) with true by (symmetry; apply Nat.ltb_lt; rewrite !app_length; cbn; lia). split.
      * intros stem' x' E'. destruct (U stem' x' E') as [-> _].
        replace (List.length (d ++ b)) with (List.length (d ++ (y :: stem) ++ dot) + List.length x).
        2:{ rewrite Eb. unfold dot. rewrite !app_length. cbn [List.length]. lia. }
        rewrite Ep, substring_at by assumption. reflexivity.
      * intro C. destruct (C (y :: stem) x). split; [exact Eb|]. split; [discriminate|exact Nx].
Qed.
Lemma with_extension_spec p d b t : is_string p -> located p d b t -> forall ext,
  (forall stem x, has_extension b stem x -> with_extension ext p = Ret (d ++ (stem ++ suffix ext) ++ t)) /\
  ((forall stem x, ~ has_extension b stem x) -> with_extension ext p = Ret (d ++ (b ++ suffix ext) ++ t)).
Proof.
  intros S H ext. destruct (located_strings p d b t S H) as [Sd [Sb St]]. unfold with_extension.
  assert (Q0 : take (List.length (d ++ b)) p = Ret (d ++ b) /\ skip (List.length (d ++ b)) p = Ret t).
  { destruct H as [-> _]. rewrite app_assoc. split; [apply take_at|apply skip_at]; try apply is_string_app; assumption. }
  destruct Q0 as [Qt Qs].
  assert (Qe : match ext with Some e => dot ++ e | None => [] end = suffix ext) by (destruct ext; reflexivity).
  destruct (located_dot p d b t H) as [[Q Nd]|[stem [x [Eb [Nx Q]]]]]; rewrite Q; cbn [bind].
  - replace (Nat.ltb _ _) with false by (symmetry; apply Nat.ltb_ge; lia). rewrite Qt, Qs. cbn [bind]. rewrite Qe. split.
    + intros stem x [-> _]. destruct Nd. apply in_or_app. right. left. reflexivity.
    + intros _. rewrite <- !app_assoc. reflexivity.
  - destruct (string_cut 46 stem x ltac:(reflexivity)) as [Ss Sx]; [rewrite <- Eb; exact Sb|].
    destruct (extension_spec p d b t S H) as [X1 X2]. unfold extension in X1, X2. rewrite Q in X1, X2. cbn [bind] in X1, X2.
    assert (Ep : p = (d ++ stem) ++ (dot ++ x ++ t)).
    { destruct H as [-> _]. rewrite Eb. unfold dot. rewrite <- !app_assoc. reflexivity. }
    destruct stem as [|y stem].
    + replace (Nat.ltb _ _) with false in * by (symmetry; apply Nat.ltb_ge; rewrite app_length; cbn; lia).
      rewrite Qt, Qs. cbn [bind]. rewrite Qe. split; [|intros _; rewrite <- !app_assoc; reflexivity].
      intros stem' x' E'. specialize (X1 stem' x' E'). discriminate.
    + replace (Nat.ltb _ _) with true in * by (symmetry; apply Nat.ltb_lt; rewrite !app_length; cbn; lia).
      assert (Qk : take (List.length (d ++ (y :: stem) ++ [46%N]) - 1) p = Ret (d ++ y :: stem)).
      { replace (_ - 1) with (List.length (d ++ y :: stem)) by (rewrite !app_length; cbn [List.length]; lia).
        rewrite Ep. apply take_at; [apply is_string_app; assumption|]. apply is_string_app; [apply dot_string|]. apply is_string_app; assumption. }
      rewrite Qk, Qs. cbn [bind]. rewrite Qe. split.
      * intros stem' x' E'. pose proof (X1 stem' x' E') as X. destruct E' as [E' [E1 E2]].
        assert (x' = x).
        { pose proof (X1 (y :: stem) x) as X3. rewrite X3 in X; [injection X as X; congruence|]. split; [exact Eb|]. split; [discriminate|exact Nx]. }
        subst x'. rewrite Eb in E'. rewrite !app_assoc in E'. apply app_inv_tail in E'. apply app_inv_tail in E'. subst stem'.
        rewrite <- !app_assoc. reflexivity.
      * intro C. destruct (C (y :: stem) x). split; [exact Eb|]. split; [discriminate|exact Nx].
Qed.
Lemma default_extension_spec p d b t : is_string p -> located p d b t -> forall ext,
  (forall stem x, has_extension b stem x -> default_extension ext p = Ret p) /\
  ((forall stem x, ~ has_extension b stem x) -> default_extension ext p = Ret (d ++ (b ++ suffix (Some ext)) ++ t)).
Proof.
  intros S H ext. destruct (with_extension_spec p d b t S H (Some ext)) as [W1 W2].
  destruct (extension_spec p d b t S H) as [X1 X2]. unfold extension in *. unfold with_extension in *. unfold default_extension.
  destruct (located_dot p d b t H) as [[Q _]|[stem0 [x0 [_ [_ Q]]]]]; rewrite Q in *; cbn [bind] in *; clear Q.
  all: match goal with |- context [Nat.ltb ?l ?e] => destruct (Nat.ltb l e) end.
  all: split; [|intro C; specialize (W2 C); specialize (X2 C)].
  all: try (intros stem x E; specialize (X1 stem x E); specialize (W1 stem x E)).
  all: try reflexivity; try discriminate.
  all: try (destruct (substring _ _ p); discriminate).
  all: destruct (take _ p) as [a| |]; cbn [bind] in *; try discriminate; destruct (skip _ p) as [c| |]; cbn [bind] in *; try discriminate; exact W2.
Qed.
