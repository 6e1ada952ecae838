From Coq Require Import NArith.
From Verif.Base Require Import Base BaseFacts.
From Verif.Utf8 Require Import Spec.
From Verif.Strings Require Import Model Spec Proofs ProofsOrder ProofsSplit.
From Verif.IoPath Require Import Model Spec Proofs ProofsName.
Local Open Scope list_scope.

Lemma walk_app a : forall b dir, walk (a ++ b) dir = walk b (walk a dir).
Proof. induction a as [|[| | |n] a IH]; intros b dir; cbn [app walk]; try reflexivity; apply IH. Qed.
Lemma walk_fold cs : forall dir, fold_left put cs dir = walk cs dir.
Proof. induction cs as [|[| | |n] cs IH]; intros dir; cbn [fold_left put walk]; try reflexivity; apply IH. Qed.

(** ** Joining *)
Lemma join_meaning p q : is_string p -> is_string q -> p <> [] ->
  exists r, path_join p q = Ret r /\ is_string r /\ r <> [] /\ meaning r = if rooted q then meaning q else meaning p ++ meaning q.
Proof.
  intros Sp Sq Hp. unfold path_join, absolute. rewrite starts_slash. destruct (rooted q) eqn:R.
  - exists q. split; [reflexivity|]. split; [exact Sq|]. split; [destruct q; discriminate|reflexivity].
  - destruct (string_eq p slash) eqn:E.
    + apply string_eq_spec in E. subst p. exists (slash ++ q). split; [reflexivity|]. split; [apply is_string_app; assumption|]. split; [discriminate|].
      unfold meaning. rewrite R. reflexivity.
    + destruct (located_exists p) as [d [b [t H]]]. rewrite (located_end p d b t H). cbn [bind].
      destruct (located_strings p d b t Sp H) as [Sd [Sb St]].
      assert (Sdb : is_string (d ++ b)) by (apply is_string_app; assumption).
      assert (Ep : p = (d ++ b) ++ t) by (destruct H as [-> _]; apply app_assoc).
      exists ((d ++ b) ++ slash ++ q). split; [|split; [|split]].
      * rewrite Ep, take_at by assumption. reflexivity.
      * apply is_string_app; [exact Sdb|]. apply is_string_app; [apply slash_string|exact Sq].
      * destruct (d ++ b); discriminate.
      * unfold meaning. rewrite R, app_assoc_reverse. unfold slash. rewrite app_assoc, names_cut, map_app. rewrite app_assoc. cbn [app]. f_equal.
        destruct H as [_ [_ [T _]]].
        assert (N : names p = names (d ++ b)) by (rewrite Ep; apply names_before, T). rewrite N. f_equal.
        assert (Q : rooted ((d ++ b) ++ 47%N :: q) = rooted p).
        { rewrite Ep. destruct (d ++ b) as [|x l] eqn:Edb; [|reflexivity]. cbn [app] in *. destruct T as [|x t -> T]; [congruence|reflexivity]. }
        rewrite Q. reflexivity.
Qed.
Lemma walk_rooted cs : forall dir dir', walk (RootDir :: cs) dir = walk (RootDir :: cs) dir'.
Proof. reflexivity. Qed.
Lemma join_resolve p q : is_string p -> is_string q -> p <> [] ->
  exists r, path_join p q = Ret r /\ is_string r /\ r <> [] /\ forall dir, resolve dir r = resolve (resolve dir p) q.
Proof.
  intros Sp Sq Hp. destruct (join_meaning p q Sp Sq Hp) as [r [Q1 [Q2 [Q3 Q4]]]]. exists r. split; [exact Q1|]. split; [exact Q2|]. split; [exact Q3|].
  intro dir. unfold resolve. rewrite Q4. destruct (rooted q) eqn:R.
  - unfold meaning. rewrite R. reflexivity.
  - apply walk_app.
Qed.
Lemma join_nothing : exists q dir, is_string q /\ path_join [] q = Ret (slash ++ q) /\ resolve dir (slash ++ q) <> resolve (resolve dir []) q.
Proof.
  exists [97%N], [[98%N]]. split; [apply ascii_string; reflexivity|]. split; [reflexivity|]. vm_compute. discriminate.
Qed.

(** ** Directory and base *)
Lemma rooted_up p cs : up p = cs -> rooted p = true -> exists cs', cs = RootDir :: cs'.
Proof. intros <- R. unfold up. rewrite R. eexists. reflexivity. Qed.
Lemma dir_base p : is_string p -> exists d b r, dir_name p = Ret d /\ base_name p = Ret b /\ path_join d b = Ret r /\
  forall dir, resolve dir r = resolve dir p.
Proof.
  intro S. destruct (meaning_dir p S) as [d [Qd [Sd [Hd Md]]]]. pose proof (base_name_spec p S) as Qb.
  set (b := if is_empty p then [] else last (names p) slash) in *.
  assert (Sb : is_string b).
  { destruct (located_exists p) as [d' [b' [t H]]]. destruct (located_strings p d' b' t S H) as [_ [Sb _]].
    unfold b. destruct (is_empty p); [apply is_string_nil|]. rewrite (names_located p d' b' t H).
    destruct b' as [|y b']; [|rewrite last_last; exact Sb]. destruct H as [_ [_ [_ [_ B]]]]. rewrite (B eq_refl). apply slash_string. }
  destruct (join_meaning d b Sd Sb Hd) as [r [Qr [Sr [Hr Mr]]]]. exists d, b, r. split; [exact Qd|]. split; [exact Qb|]. split; [exact Qr|].
  intro dir. unfold resolve. rewrite Mr.
  destruct p as [|x p0]; [subst b; cbn in Mr |- *; rewrite Md; reflexivity|]. set (p := x :: p0) in *.
  replace (is_empty p) with false in b by reflexivity.
  assert (Wup : forall cs dir, walk (match up p with [] => [CurrentDir] | cs => cs end ++ cs) dir = walk (up p ++ cs) dir) by (intros; destruct (up p); reflexivity).
  assert (Cn : names p = [] \/ exists l n, names p = l ++ [n]).
  { destruct (names p) as [|n l] using rev_ind; [left; reflexivity|right; exists l, n; reflexivity]. }
  destruct Cn as [En|[l [n En]]].
  - subst b. rewrite En. cbn [last]. change (rooted slash) with true. cbn [orb].
    (* no names: the path is made of slashes *)
    assert (R : rooted p = true).
    { unfold p in En |- *. cbn [rooted]. destruct (N.eqb x 47) eqn:Ex; [reflexivity|]. unfold names in En. cbn [segments] in En. rewrite Ex in En.
      destruct (segments p0); discriminate. }
    unfold meaning. rewrite R, En. reflexivity.
  - subst b. rewrite En, last_last in Mr |- *.
    pose proof (names_ok p) as Ok. rewrite En in Ok. apply Forall_app in Ok. destruct Ok as [_ Ok]. inversion Ok as [|? ? [Nn Nf] _]; subst.
    assert (R : rooted n = false).
    { destruct n as [|y n]; [reflexivity|]. cbn. apply N.eqb_neq. intros ->. apply Nf. left. reflexivity. }
    change (is_empty p) with false. cbv iota. rewrite R, Md, Wup. unfold meaning, up. rewrite R, (names_free n Nf), En, removelast_last.
    destruct n as [|y n]; [congruence|]. rewrite map_app. cbn [app map]. rewrite <- app_assoc. reflexivity.
Qed.

(** ** Canonical paths *)
Lemma between_paths ns : forall a : list N, with_between slash (a :: ns) = a ++ absolute_path ns.
Proof.
  induction ns as [|n ns IH]; intro a; [cbn; rewrite app_nil_r; reflexivity|].
  change (with_between slash (a :: n :: ns)) with (a ++ slash ++ with_between slash (n :: ns)). rewrite IH. reflexivity.
Qed.
Lemma canonicalize_spec cwd p : is_string cwd -> fits cwd -> is_string p -> fits p ->
  canonicalize cwd p = Ret (absolute_path (resolve (resolve [] cwd) p)).
Proof.
  intros Sc Fc Sp Fp. unfold canonicalize. rewrite !components_spec by assumption. cbn [bind].
  rewrite !walk_fold, join_spec, between_paths. reflexivity.
Qed.
Lemma canonicalized_each ps : Forall (fun p => is_string p /\ fits p) ps -> forall dir,
  canonicalize_each ps dir = Ret (fold_left resolve ps dir).
Proof.
  induction 1 as [|p ps [S F] _ IH]; intro dir; [reflexivity|]. cbn [canonicalize_each fold_left].
  rewrite components_spec by assumption. cbn [bind]. rewrite walk_fold. apply IH.
Qed.
Lemma canonicalized_spec cwd ps : is_string cwd -> fits cwd -> Forall (fun p => is_string p /\ fits p) ps ->
  canonicalized_path cwd ps = Ret (absolute_path (fold_left resolve ps (resolve [] cwd))).
Proof.
  intros Sc Fc F. unfold canonicalized_path. rewrite components_spec by assumption. cbn [bind].
  rewrite walk_fold, (canonicalized_each ps F). cbn [bind]. rewrite join_spec, between_paths. reflexivity.
Qed.
Lemma path_resolve qs : Forall is_string qs -> forall p, is_string p -> p <> [] ->
  exists r, path_of p qs = Ret r /\ is_string r /\ r <> [] /\ forall dir, resolve dir r = fold_left resolve qs (resolve dir p).
Proof.
  induction 1 as [|q qs Sq _ IH]; intros p Sp Hp.
  - exists p. repeat split; assumption.
  - cbn [path_of fold_left]. destruct (join_resolve p q Sp Sq Hp) as [r [Q1 [Q2 [Q3 Q4]]]]. rewrite Q1. cbn [bind].
    destruct (IH r Q2 Q3) as [r' [R1 [R2 [R3 R4]]]]. exists r'. split; [exact R1|]. split; [exact R2|]. split; [exact R3|].
    intro dir. rewrite R4, Q4. reflexivity.
Qed.
Lemma joined_canonical cwd p qs : is_string cwd -> fits cwd -> p <> [] -> Forall (fun p => is_string p /\ fits p) (p :: qs) ->
  exists r, path_of p qs = Ret r /\ (fits r -> canonicalize cwd r = canonicalized_path cwd (p :: qs)).
Proof.
  intros Sc Fc Hp F. inversion F as [|? ? [Sp Fp] F']; subst.
  destruct (path_resolve qs) with (p := p) as [r [R1 [R2 [R3 R4]]]]; try assumption.
  { eapply Forall_impl; [|exact F']. intros a [H _]. exact H. }
  exists r. split; [exact R1|]. intro Fr. rewrite canonicalize_spec, canonicalized_spec by assumption. rewrite R4. reflexivity.
Qed.

(** A proper name: one that stands for an entry of a directory *)
Definition proper (n : list N) : Prop := n <> [] /\ slashfree n /\ n <> dot /\ n <> dot ++ dot /\ is_string n.
Lemma names_strings p : is_string p -> Forall is_string (names p).
Proof.
  remember (List.length p) as k eqn:E. revert p E. induction k as [k IH] using lt_wf_ind; intros p E S.
  destruct (first_slash p) as [a [F [->|[b ->]]]].
  - rewrite names_free by exact F. destruct a; [constructor|constructor; [exact S|constructor]].
  - destruct (string_cut 47 a b ltac:(reflexivity) S) as [Sa Sb]. rewrite names_cut. apply Forall_app. split.
    + rewrite names_free by exact F. destruct a; [constructor|constructor; [exact Sa|constructor]].
    + apply (IH (List.length b)); [subst k; rewrite !app_length; cbn; lia|reflexivity|exact Sb].
Qed.
Lemma removelast_Forall {A} (P : A -> Prop) l : Forall P l -> Forall P (removelast l).
Proof.
  induction 1 as [|x l Hx Hl IH]; [constructor|]. cbn [removelast]. destruct l; [constructor|constructor; [exact Hx|exact IH]].
Qed.
Lemma walk_proper cs : forall dir, Forall proper dir -> Forall (fun c => match c with Normal n => proper n | _ => True end) cs -> Forall proper (walk cs dir).
Proof.
  induction cs as [|c cs IH]; intros dir Hd Hc; [exact Hd|]. inversion Hc as [|? ? H1 H2]; subst.
  destruct c as [| | |n]; cbn [walk]; apply IH; try assumption; [constructor|apply removelast_Forall, Hd|].
  apply Forall_app. split; [exact Hd|constructor; [exact H1|constructor]].
Qed.
Lemma component_cases n : n = dot /\ component_of n = CurrentDir \/ n = dot ++ dot /\ component_of n = ParentDir \/ (n <> dot /\ n <> dot ++ dot) /\ component_of n = Normal n.
Proof.
  destruct (list_eq_dec N.eq_dec n dot) as [->|H1]; [left; split; reflexivity|].
  destruct (list_eq_dec N.eq_dec n (dot ++ dot)) as [->|H2]; [right; left; split; reflexivity|].
  right. right. split; [split; assumption|apply component_normal; assumption].
Qed.
Lemma resolve_proper dir p : Forall proper dir -> is_string p -> Forall proper (resolve dir p).
Proof.
  intros Hd S. apply walk_proper; [exact Hd|]. unfold meaning. apply Forall_app. split; [destruct (rooted p); repeat constructor|].
  apply Forall_map. pose proof (names_ok p) as Ok. pose proof (names_strings p S) as St.
  rewrite Forall_forall in *. intros n I. destruct (Ok n I) as [Nn Nf]. specialize (St n I).
  destruct (component_cases n) as [[_ ->]|[[_ ->]|[[H1 H2] ->]]]; [exact Logic.I|exact Logic.I|]. repeat split; assumption.
Qed.
Lemma names_absolute ns : Forall proper ns -> names (absolute_path ns) = ns.
Proof.
  induction 1 as [|n ns [Nn [Nf _]] _ IH]; [reflexivity|]. change (names (absolute_path (n :: ns))) with (names (n ++ absolute_path ns)).
  destruct ns as [|m ns]; [change (absolute_path []) with (@nil N); rewrite app_nil_r, names_free by exact Nf; destruct n; [congruence|reflexivity]|].
  change (absolute_path (m :: ns)) with ([47%N] ++ (m ++ absolute_path ns)) in *.
  rewrite names_cut, names_free by exact Nf. change (names ([47%N] ++ (m ++ absolute_path ns))) with (names (m ++ absolute_path ns)) in IH.
  rewrite IH. destruct n; [congruence|reflexivity].
Qed.
Lemma absolute_string ns : Forall proper ns -> is_string (absolute_path ns).
Proof.
  induction 1 as [|n ns [_ [_ [_ [_ S]]]] _ IH]; [apply is_string_nil|].
  change (absolute_path (n :: ns)) with (slash ++ n ++ absolute_path ns). apply is_string_app; [apply slash_string|]. apply is_string_app; assumption.
Qed.
Lemma absolute_meaning ns : Forall proper ns -> ns <> [] -> meaning (absolute_path ns) = RootDir :: map Normal ns.
Proof.
  intros P H. unfold meaning. rewrite (names_absolute ns P). destruct ns as [|n ns]; [congruence|]. cbn [absolute_path flat_map rooted app].
  change (N.eqb 47 47) with true. cbn [app]. f_equal. apply map_ext_in. intros m I. rewrite Forall_forall in P. destruct (P m I) as [_ [_ [H1 [H2 _]]]].
  apply component_normal; assumption.
Qed.
Lemma walk_normals ns : forall dir, walk (map Normal ns) dir = dir ++ ns.
Proof. induction ns as [|n ns IH]; intro dir; cbn [map walk]; [rewrite app_nil_r; reflexivity|]. rewrite IH, <- app_assoc. reflexivity. Qed.

Lemma canonical cwd p r : is_string cwd -> fits cwd -> is_string p -> fits p -> canonicalize cwd p = Ret r -> r <> [] ->
  is_string r /\ (exists ns, meaning r = RootDir :: map Normal ns) /\
  (forall dir, resolve dir r = resolve (resolve [] cwd) p) /\
  forall cwd', is_string cwd' -> fits cwd' -> fits r -> canonicalize cwd' r = Ret r.
Proof.
  intros Sc Fc Sp Fp E Hr. rewrite canonicalize_spec in E by assumption. injection E as E.
  pose proof (resolve_proper _ p (resolve_proper [] cwd (Forall_nil _) Sc) Sp) as P.
  set (ns := resolve (resolve [] cwd) p) in *. assert (Hns : ns <> []) by (intros H; rewrite H in E; subst r; apply Hr; reflexivity).
  pose proof (absolute_meaning ns P Hns) as M. rewrite E in M.
  assert (R : forall dir, resolve dir r = ns) by (intro dir; unfold resolve; rewrite M; cbn [walk]; rewrite walk_normals; reflexivity).
  split; [rewrite <- E; apply absolute_string, P|]. split; [exists ns; exact M|]. split; [exact R|].
  intros cwd' Sc' Fc' Fr. rewrite canonicalize_spec; try assumption; [|rewrite <- E; apply absolute_string, P]. rewrite R, E. reflexivity.
Qed.
Lemma canonicalize_root : exists cwd, is_string cwd /\ fits cwd /\ canonicalize cwd slash = Ret [] /\ canonicalize cwd [] = Ret cwd /\ cwd <> [].
Proof.
  exists [47%N; 97%N]. split; [apply (is_string_app [47%N] [97%N]); apply ascii_string; reflexivity|]. split; [reflexivity|].
  split; [vm_compute; reflexivity|]. split; [vm_compute; reflexivity|discriminate].
Qed.

(** ** Extensions *)
Lemma ext_dec b : (exists stem x, has_extension b stem x) \/ (forall stem x, ~ has_extension b stem x).
Proof.
  destruct (last_dot b) as [H|[stem [x [-> H]]]].
  - right. intros stem x [-> _]. apply H. apply in_or_app. right. left. reflexivity.
  - destruct stem as [|y stem]; [|left; exists (y :: stem), x; split; [reflexivity|split; [discriminate|exact H]]].
    right. intros stem' x' [E [N' _]]. destruct stem' as [|z stem']; [congruence|]. injection E as _ E. apply H. rewrite E. apply in_or_app. right. left. reflexivity.
Qed.
Lemma extension_again p e : is_string p -> extension p = Ret e -> with_extension e p = Ret p.
Proof.
  intros S E. destruct (located_exists p) as [d [b [t H]]].
  destruct (extension_spec p d b t S H) as [X1 X2]. destruct (with_extension_spec p d b t S H e) as [W1 W2].
  destruct (ext_dec b) as [[stem [x Hx]]|Hn].
  - rewrite (X1 stem x Hx) in E. injection E as <-. rewrite (W1 stem x Hx). f_equal. destruct H as [-> _]. destruct Hx as [-> _].
    cbn [suffix]. rewrite <- !app_assoc. reflexivity.
  - rewrite (X2 Hn) in E. injection E as <-. rewrite (W2 Hn). f_equal. destruct H as [-> _]. cbn [suffix]. rewrite app_nil_r. reflexivity.
Qed.
Lemma dir_name_located p d b t : located p d b t -> b <> [] ->
  dir_name p = if Nat.leb (List.length d) 1 then Ret (match d with [] => dot | _ => slash end) else take (List.length d - 1) p.
Proof.
  intros H Hb. unfold dir_name. rewrite (located_start_end p d b t H). cbn [bind]. unfold absolute. rewrite starts_slash.
  destruct (Nat.leb (List.length d) 1) eqn:L; [|reflexivity]. f_equal. destruct H as [-> [F [T [D B]]]].
  destruct D as [->|[d' ->]].
  - cbn [app]. destruct b as [|y b]; [congruence|]. cbn [app rooted]. destruct (N.eqb_spec y 47) as [->|_]; [destruct F; left; reflexivity|reflexivity].
  - apply Nat.leb_le in L. rewrite app_length in L. destruct d'; [reflexivity|cbn in L; lia].
Qed.
Lemma extension_set p x : is_string p -> names p <> [] -> is_string x -> slashfree x -> ~ In 46%N x ->
  exists q, with_extension (Some x) p = Ret q /\ is_string q /\ extension q = Ret (Some x) /\ dir_name q = dir_name p.
Proof.
  intros S Hn Sx Fx Nx. destruct (located_exists p) as [d [b [t H]]]. destruct (located_strings p d b t S H) as [Sd [Sb St]].
  assert (Hb : b <> []).
  { intros ->. rewrite (names_located p d [] t H) in Hn. destruct H as [_ [_ [_ [_ B]]]]. rewrite (B eq_refl) in Hn. apply Hn. reflexivity. }
  assert (Q : exists stem, stem <> [] /\ slashfree stem /\ is_string stem /\ with_extension (Some x) p = Ret (d ++ (stem ++ suffix (Some x)) ++ t)).
  { destruct (with_extension_spec p d b t S H (Some x)) as [W1 W2]. destruct H as [_ [F _]].
    destruct (ext_dec b) as [[stem [y Hy]]|Hd].
    - exists stem. destruct Hy as [Ey [Hs Ny]]. split; [exact Hs|].
      split; [intro I; apply F; rewrite Ey; apply in_or_app; left; exact I|].
      split; [|apply (W1 stem y); repeat split; assumption].
      rewrite Ey in Sb. apply (string_cut 46 stem y ltac:(reflexivity) Sb).
    - exists b. split; [exact Hb|]. split; [exact F|]. split; [exact Sb|]. apply W2, Hd. }
  destruct Q as [stem [Hs [Fs [Ss Q]]]]. cbn [suffix] in Q.
  set (b' := stem ++ 46%N :: x) in *.
  assert (H' : located (d ++ b' ++ t) d b' t).
  { destruct H as [_ [F [T [D B]]]]. split; [reflexivity|]. split.
    - intro I. apply in_app_or in I. destruct I as [I|[I|I]]; [exact (Fs I)|discriminate|exact (Fx I)].
    - split; [exact T|]. split; [exact D|]. intro C. destruct stem; discriminate. }
  assert (Hb' : b' <> []) by (destruct stem; discriminate).
  assert (S' : is_string (d ++ b' ++ t)).
  { apply is_string_app; [exact Sd|]. apply is_string_app; [|exact St]. apply is_string_app; [exact Ss|]. apply (is_string_app [46%N] x); [apply dot_string|exact Sx]. }
  exists (d ++ b' ++ t). split; [exact Q|]. split; [exact S'|]. split.
  - apply (proj1 (extension_spec _ d b' t S' H') stem x). split; [reflexivity|]. split; assumption.
  - rewrite (dir_name_located _ d b' t H' Hb'), (dir_name_located _ d b t H Hb). destruct (Nat.leb (List.length d) 1) eqn:L; [reflexivity|].
    apply Nat.leb_gt in L. destruct H as [-> [F [T [D B]]]]. destruct D as [->|[d' ->]]; [cbn in L; lia|].
    rewrite app_length. cbn [List.length]. replace (List.length d' + 1 - 1) with (List.length d') by lia.
    rewrite <- !app_assoc. cbn [app]. rewrite <- (app_nil_r d') in Sd. 
    assert (Sd' : is_string d'). { rewrite app_nil_r in Sd. apply (string_cut 47 d' [] ltac:(reflexivity)). exact Sd. }
    rewrite take_at; [rewrite take_at; [reflexivity|exact Sd'|]|exact Sd'|].
    + apply (is_string_app [47%N] (b ++ t)); [apply slash_string|]. apply is_string_app; assumption.
    + apply (is_string_app [47%N] (b' ++ t)); [apply slash_string|]. apply is_string_app; [|exact St]. apply is_string_app; [exact Ss|]. apply (is_string_app [46%N] x); [apply dot_string|exact Sx].
Qed.
Lemma extension_of_root : exists x, is_string x /\ rooted slash = true /\ with_extension (Some x) slash = Ret (dot ++ x ++ slash) /\ extension (dot ++ x ++ slash) = Ret None.
Proof. exists [97%N]. split; [apply ascii_string; reflexivity|]. split; [reflexivity|]. split; vm_compute; reflexivity. Qed.
Lemma base_name_last p : is_string p -> base_name p = Ret (match p with [] => [] | _ => last (names p) [47%N] end).
Proof. intro S. rewrite (base_name_spec p S). destruct p; reflexivity. Qed.
