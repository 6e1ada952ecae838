From Coq Require Import NArith ZArith Lia.
From Verif.Base Require Import Base.
From Verif.Utf8 Require Import Model Spec Proofs ProofsMain ProofsPrefix.
From Verif.Strings Require Import Model Spec Proofs.
Local Open Scope list_scope.

Lemma is_string_nil : is_string [].
Proof. now exists []. Qed.

Lemma is_string_app a b : is_string a -> is_string b -> is_string (a ++ b).
Proof. intros (ca & KA & ->) (cb & KB & ->). exists (ca ++ cb). rewrite flat_map_app. split; auto. now apply Forall_app. Qed.

Lemma cut_strings part s a b : is_string part -> part <> [] -> is_string s -> s = a ++ part ++ b -> is_string a /\ is_string b.
Proof.
  intros P NE (cs & K & ->) E. destruct (is_string_ne _ P NE) as (ps & KP & NP & ->).
  destruct (occurrence_chars _ _ _ _ K KP NP E) as (ca & cb & -> & -> & ->). apply Forall_app in K as [KA K]. apply Forall_app in K as [_ KB].
  split; [now exists ca|now exists cb].
Qed.

Lemma fits_le a b : fits b -> List.length a <= List.length b -> fits a.
Proof. unfold fits. lia. Qed.

(** Searching, then cutting at what was found. *)
Lemma find_cut part s : is_string part -> part <> [] -> is_string s -> fits s ->
  (find part s = Ret None /\ forall i, ~ occurs_at part s i) \/
  exists a b, find part s = Ret (Some (List.length a)) /\ s = a ++ part ++ b /\
    (forall i, occurs_at part s i -> List.length a <= i) /\ is_string a /\ is_string b /\
    unsafe_substring 0 (List.length a) s = a /\
    unsafe_substring (List.length a + List.length part) (List.length s) s = b.
Proof.
  intros P NE SS F. destruct (find_spec part s P SS F) as ([i|] & E & H); cbn in H; [right|left; auto].
  destruct H as [(a & b & Q & L) M]. exists a, b. subst i. rewrite unsafe_take, unsafe_skip. destruct (cut_strings part s a b) as [A B]; auto.
  refine (conj E (conj Q (conj M (conj A (conj B (conj _ _)))))).
  - rewrite Q. now apply firstn_app_at.
  - rewrite Q, List.app_assoc. apply skipn_app_at. rewrite List.app_length. reflexivity.
Qed.

(** ** Splitting *)

Lemma split_loop_spec sep fuel : is_string sep -> sep <> [] -> forall s, is_string s -> fits s -> List.length s < fuel ->
  exists l, split_loop fuel sep s = Ret l /\ pieces sep s l /\ Forall is_string l.
Proof.
  intros P NE. induction fuel as [|fuel IH]; intros s SS F L; [lia|]. cbn [split_loop].
  destruct (find_cut sep s P NE SS F) as [[E H]|(a & b & E & Q & M & A & B & UA & UB)]; rewrite E; cbn [Base.bind].
  - exists [s]. repeat constructor; auto.
  - rewrite UA, UB. assert (LB : List.length b < List.length s).
    { rewrite Q, !List.app_length. destruct sep; [congruence|]. cbn. lia. }
    destruct (IH b B) as (l & -> & PL & FL); [eapply fits_le; eauto; lia|lia|]. cbn [Base.bind]. exists (a :: l).
    refine (conj eq_refl (conj _ _)); [econstructor; eauto|auto].
Qed.

Lemma split_spec sep s : is_string sep -> sep <> [] -> is_string s -> fits s ->
  exists l, split sep s = Ret l /\ pieces sep s l /\ Forall is_string l.
Proof.
  intros P NE SS F. unfold split. replace (is_empty sep) with false by (destruct sep; [congruence|reflexivity]).
  apply split_loop_spec; auto.
Qed.

Lemma each_char_spec cs : Forall known cs -> each_char cs = Ret (map utf8 cs).
Proof.
  induction 1 as [|c cs K _ IH]; cbn [each_char map]; auto. destruct (encode_known c K) as (x & E & Q). unfold put_char. rewrite E, Q, IH.
  reflexivity.
Qed.

Lemma split_empty cs : Forall known cs -> split [] (flat_map utf8 cs) = Ret (map utf8 cs).
Proof. intro K. unfold split. cbn [is_empty Nat.eqb List.length]. rewrite chars_utf8 by auto. now apply each_char_spec. Qed.

Lemma pieces_ne sep s l : pieces sep s l -> l <> [].
Proof. destruct 1; discriminate. Qed.

Lemma with_between_cons sep s l : l <> [] -> with_between sep (s :: l) = s ++ sep ++ with_between sep l.
Proof. destruct l; [congruence|reflexivity]. Qed.

Lemma pieces_between sep s l : pieces sep s l -> with_between sep l = s.
Proof.
  induction 1 as [|s a b l E M P IH]; auto. rewrite with_between_cons by (eapply pieces_ne; eauto). now rewrite IH, E.
Qed.

Lemma pieces_det sep s l1 : pieces sep s l1 -> forall l2, pieces sep s l2 -> l1 = l2.
Proof.
  induction 1 as [s N|s a b l E M P IH]; intros l2 P2; destruct P2 as [s N2|s a2 b2 l2 E2 M2 P2]; auto.
  - destruct (N (List.length a2)). now exists a2, b2.
  - destruct (N2 (List.length a)). now exists a, b.
  - assert (LE : List.length a = List.length a2).
    { assert (List.length a <= List.length a2) by (apply M; now exists a2, b2).
      assert (List.length a2 <= List.length a) by (apply M2; now exists a, b). lia. }
    assert (a = a2) as ->.
    { rewrite <- (firstn_app_at a (sep ++ b) _ eq_refl), <- E, E2, LE. now apply firstn_app_at. }
    assert (b = b2) as ->.
    { rewrite E in E2. apply app_inv_head in E2. now apply app_inv_head in E2. }
    f_equal. auto.
Qed.

(** ** Joining *)

Lemma join_loop_spec (sep : list N) i (l : list (list N)) : forall buf : list N, i <> 0 -> l <> [] -> join_loop sep i l buf = buf ++ sep ++ with_between sep l.
Proof.
  revert i. induction l as [|s l IH]; intros i buf I NE; [congruence|]. cbn [join_loop].
  replace (Nat.ltb 0 i) with true by (symmetry; apply Nat.ltb_lt; lia). destruct l as [|s2 l].
  - cbn. now rewrite <- List.app_assoc.
  - rewrite IH by (auto || discriminate). rewrite (with_between_cons sep s (s2 :: l)) by discriminate. now rewrite <- !List.app_assoc.
Qed.

Lemma join_spec (sep : list N) (l : list (list N)) : join sep l = with_between sep l.
Proof.
  unfold join. destruct l as [|s [|s2 l]]; auto. change (join_loop sep 1 (s2 :: l) ([] ++ s) = with_between sep (s :: s2 :: l)).
  rewrite join_loop_spec, (with_between_cons sep s (s2 :: l)) by discriminate. reflexivity.
Qed.

Lemma with_between_string sep l : is_string sep -> Forall is_string l -> is_string (with_between sep l).
Proof.
  intro P. induction 1 as [|s l S FL IH]; [apply is_string_nil|]. destruct l as [|s2 l]; auto.
  rewrite with_between_cons by discriminate. auto using is_string_app.
Qed.

Lemma split_join sep s : is_string sep -> sep <> [] -> is_string s -> fits s -> exists l, split sep s = Ret l /\ join sep l = s.
Proof.
  intros P NE SS F. destruct (split_spec sep s P NE SS F) as (l & E & Q & _). exists l. split; auto. rewrite join_spec. now apply pieces_between.
Qed.

(** Strings without a character, joined with that character between them, are given back by splitting. *)
Lemma text_between c l : Forall known (flat_map (fun x => x) l) -> known c ->
  exists cs, Forall known cs /\ with_between (utf8 c) (map (flat_map utf8) l) = flat_map utf8 cs.
Proof.
  intros K KC. induction l as [|x l IH]; [now exists []|]. cbn [flat_map] in K. apply Forall_app in K as [KX KL].
  destruct (IH KL) as (cs & KS & E). cbn [map]. destruct l as [|y l].
  - now exists x.
  - rewrite with_between_cons by discriminate. cbn [map] in E |- *. rewrite E. exists (x ++ [c] ++ cs). split.
    + apply Forall_app. split; auto. now constructor.
    + now rewrite !text_app; cbn [flat_map]; rewrite app_nil_r.
Qed.

Lemma in_before (c : N) ca cb x y : x ++ [c] ++ y = ca ++ [c] ++ cb -> List.length ca < List.length x -> In c x.
Proof.
  intros E L. assert (H : nth_error x (List.length ca) = Some c).
  { rewrite <- (nth_error_app1 x ([c] ++ y)) by auto. rewrite E, nth_error_app2, Nat.sub_diag by auto. reflexivity. }
  eapply nth_error_In; eauto.
Qed.

Lemma join_pieces c l : known c -> l <> [] -> Forall (fun x => Forall known x /\ ~ In c x) l ->
  pieces (utf8 c) (with_between (utf8 c) (map (flat_map utf8) l)) (map (flat_map utf8) l).
Proof.
  intros KC NE F. assert (U : utf8 c = flat_map utf8 [c]) by (cbn; now rewrite app_nil_r).
  assert (K1 : Forall known [c]) by now constructor.
  induction F as [|x l [KX NX] F IH]; [congruence|]. cbn [map]. destruct l as [|y l].
  - constructor. intros i (a & b & E & L). rewrite U in E. cbn [map with_between] in E.
    destruct (occurrence_chars x [c] a b KX K1) as (ca & cb & -> & _); auto; [discriminate|]. apply NX, in_or_app. right. now left.
  - rewrite with_between_cons by discriminate.
    assert (KL : Forall known (flat_map (fun x => x) (y :: l))).
    { clear - F. revert F. generalize (y :: l). intros m F. induction F as [|z m [KZ _] F IH]; [constructor|]. cbn [flat_map]. apply Forall_app. auto. }
    destruct (text_between c (y :: l) KL KC) as (cs & KS & E). econstructor; [reflexivity| |apply IH; discriminate].
    intros i (a & b & Q & L). subst i. rewrite E, U, <- !text_app in Q.
    assert (K : Forall known (x ++ [c] ++ cs)) by (apply Forall_app; split; auto; now constructor).
    destruct (occurrence_chars _ [c] a b K K1) as (ca & cb & Q' & -> & _); auto; [discriminate|].
    destruct (Nat.lt_ge_cases (List.length ca) (List.length x)) as [L|L].
    + destruct NX. eapply in_before; eauto.
    + eapply prefix_length; eauto.
Qed.

Lemma join_split c l : known c -> l <> [] -> Forall (fun x => Forall known x /\ ~ In c x) l ->
  fits (join (utf8 c) (map (flat_map utf8) l)) -> split (utf8 c) (join (utf8 c) (map (flat_map utf8) l)) = Ret (map (flat_map utf8) l).
Proof.
  intros KC NE F FT. rewrite join_spec in *. pose proof (join_pieces c l KC NE F) as P.
  assert (U : is_string (utf8 c)) by (exists [c]; split; [now constructor|cbn; now rewrite app_nil_r]).
  destruct (split_spec (utf8 c) (with_between (utf8 c) (map (flat_map utf8) l))) as (l2 & E & P2 & _); auto.
  - apply utf8_nonempty.
  - apply with_between_string; auto. clear - F. induction F as [|x l [K _] F IH]; constructor; auto. now exists x.
  - rewrite E. f_equal. eapply pieces_det; eauto.
Qed.

(** ** Replacing *)

Lemma replace_loop_spec from to fuel : is_string from -> from <> [] -> forall s buf, is_string s -> fits s -> List.length s < fuel ->
  exists l, pieces from s l /\ replace_loop fuel from to s buf = Ret (buf ++ with_between to l) /\ Forall is_string l.
Proof.
  intros P NE. induction fuel as [|fuel IH]; intros s buf SS F L; [lia|]. cbn [replace_loop].
  destruct (find_cut from s P NE SS F) as [[E H]|(a & b & E & Q & M & A & B & UA & UB)]; rewrite E; cbn [Base.bind].
  - exists [s]. repeat constructor; auto.
  - rewrite UA, UB. assert (LB : List.length b < List.length s).
    { rewrite Q, !List.app_length. destruct from; [congruence|]. cbn. lia. }
    destruct (IH b ((buf ++ a) ++ to) B) as (l & PL & -> & FL); [eapply fits_le; eauto; lia|lia|]. exists (a :: l).
    refine (conj _ (conj _ _)); [econstructor; eauto| |auto]. rewrite with_between_cons by (eapply pieces_ne; eauto). now rewrite <- !List.app_assoc.
Qed.

Lemma replace_spec from to s : is_string from -> from <> [] -> is_string s -> fits s ->
  exists l, pieces from s l /\ replace from to s = Ret (with_between to l) /\ Forall is_string l.
Proof.
  intros P NE SS F. unfold replace. replace (is_empty from) with false by (destruct from; [congruence|reflexivity]).
  destruct (find_cut from s P NE SS F) as [[E H]|(a & b & E & Q & M & A & B & UA & UB)]; rewrite E; cbn [Base.bind].
  - exists [s]. repeat constructor; auto.
  - cbv zeta. rewrite UA, UB. assert (LB : List.length b < List.length s).
    { rewrite Q, !List.app_length. destruct from; [congruence|]. cbn. lia. }
    destruct (replace_loop_spec from to (S (List.length s)) P NE b (a ++ to) B) as (l & PL & -> & FL); [eapply fits_le; eauto; lia|lia|].
    exists (a :: l). refine (conj _ (conj _ _)); [econstructor; eauto| |auto].
    rewrite with_between_cons by (eapply pieces_ne; eauto). now rewrite <- !List.app_assoc.
Qed.

Lemma replace_empty_spec to cs : Forall known cs -> forall buf,
  replace_empty to cs buf = Ret (buf ++ flat_map (fun c => utf8 c ++ to) cs).
Proof.
  induction 1 as [|c cs K _ IH]; intro buf; cbn [replace_empty flat_map]; [now rewrite app_nil_r|].
  destruct (encode_known c K) as (x & E & Q). unfold put_char. rewrite E, Q. cbn [Base.bind]. rewrite IH. now rewrite <- !List.app_assoc.
Qed.

Lemma replace_nothing to cs : Forall known cs -> replace [] to (flat_map utf8 cs) = Ret (to ++ flat_map (fun c => utf8 c ++ to) cs).
Proof. intro K. unfold replace. cbn [is_empty Nat.eqb List.length]. rewrite chars_utf8 by auto. now apply replace_empty_spec. Qed.

(** ** Removing at the ends *)

Lemma skip_prefix p b : is_string p -> is_string (p ++ b) -> skip (List.length p) (p ++ b) = Ret b /\ is_string b.
Proof.
  intros (ps & KP & ->) (cs & K & E). destruct (prefix_chars ps KP cs b K (eq_sym E)) as (cs' & -> & ->). rewrite <- text_app.
  destruct (skip_text (List.length (text ps)) (ps ++ cs') K) as [A _]. destruct A as [A1 A2].
  - left. now exists ps, cs'.
  - rewrite text_app in *. now rewrite skipn_app_at in A1, A2 by auto.
Qed.

Lemma remove_start_spec fuel p : is_string p -> p <> [] -> forall s, is_string s -> List.length s < fuel ->
  exists k r, remove_start fuel p s = Ret r /\ s = times k p ++ r /\ (~ exists b, r = p ++ b) /\ is_string r.
Proof.
  intros P NE. induction fuel as [|fuel IH]; intros s SS L; [lia|]. cbn [remove_start]. destruct (starts_with p s) eqn:SW.
  - apply starts_with_iff in SW as [b ->]. destruct (skip_prefix p b P SS) as [-> B]. cbn [Base.bind]. rewrite List.app_length in L.
    destruct (IH b B) as (k & r & E & -> & N & R); [destruct p; [congruence|]; cbn in L; lia|]. exists (S k), r.
    refine (conj E (conj _ (conj N R))). unfold times. cbn [repeat List.concat]. now rewrite List.app_assoc.
  - exists 0, s. refine (conj eq_refl (conj eq_refl (conj _ SS))). intro H. apply starts_with_iff in H. congruence.
Qed.

Lemma take_suffix p a : is_string p -> p <> [] -> is_string (a ++ p) -> take (List.length (a ++ p) - List.length p) (a ++ p) = Ret a /\ is_string a.
Proof.
  intros P NE SS. destruct (is_string_ne _ P NE) as (ps & KP & NP & ->). destruct SS as (cs & K & E).
  destruct (occurrence_chars cs ps a [] K KP NP) as (ca & cb & Q & -> & B); [now rewrite app_nil_r|].
  destruct (take_text (List.length (text ca)) cs K) as [A _]. destruct A as [A1 A2].
  - left. now exists ca, (ps ++ cb).
  - rewrite List.app_length. replace (_ + _ - _) with (List.length (text ca)) by lia. rewrite <- E in *. now rewrite firstn_app_at in A1, A2 by auto.
Qed.

Lemma times_last k p : times (S k) p = times k p ++ p.
Proof.
  unfold times. induction k as [|k IH]; [cbn; now rewrite app_nil_r|]. change (p ++ List.concat (repeat p (S k)) = (p ++ List.concat (repeat p k)) ++ p).
  rewrite IH. now rewrite List.app_assoc.
Qed.

Lemma remove_end_spec fuel p : is_string p -> p <> [] -> forall s, is_string s -> List.length s < fuel ->
  exists k r, remove_end fuel p s = Ret r /\ s = r ++ times k p /\ (~ exists a, r = a ++ p) /\ is_string r.
Proof.
  intros P NE. induction fuel as [|fuel IH]; intros s SS L; [lia|]. cbn [remove_end]. destruct (ends_with p s) eqn:SW.
  - apply ends_with_iff in SW as [a ->]. destruct (take_suffix p a P NE SS) as [-> B]. cbn [Base.bind]. rewrite List.app_length in L.
    destruct (IH a B) as (k & r & E & -> & N & R); [destruct p; [congruence|]; cbn in L; lia|]. exists (S k), r.
    refine (conj E (conj _ (conj N R))). rewrite times_last. now rewrite List.app_assoc.
  - exists 0, s. refine (conj eq_refl (conj _ (conj _ SS))); [unfold times; cbn; now rewrite app_nil_r|]. intro H. apply ends_with_iff in H. congruence.
Qed.

Lemma remove_nothing cs : Forall known cs -> forall fuel,
  remove_start fuel [] (flat_map utf8 cs) = OutOfFuel /\ remove_end fuel [] (flat_map utf8 cs) = OutOfFuel.
Proof.
  intros K. induction fuel as [|fuel [IH1 IH2]]; [auto|]. cbn [remove_start remove_end starts_with ends_with is_empty List.length Nat.eqb]. split.
  - destruct (skip_text 0 cs K) as [A _]. destruct A as [-> _]; [left; apply between_0|]. exact IH1.
  - rewrite Nat.sub_0_r. destruct (take_text (List.length (text cs)) cs K) as [A _]. destruct A as [-> _]; [auto|]. rewrite firstn_all. exact IH2.
Qed.

(** ** Lines *)

Lemma newline_string : is_string [10%N].
Proof. exists [10%N]. split; [|reflexivity]. constructor; [|constructor]. unfold known, scalar. lia. Qed.

Lemma chomp_spec a : chomp a = a \/ a = chomp a ++ [13%N].
Proof.
  unfold chomp. destruct (rev a) as [|x r] eqn:E; auto. apply (f_equal (@rev N)) in E. rewrite rev_involutive in E. cbn in E.
  destruct (N.eq_dec x 13) as [->|NE]; auto. left. destruct x as [|p]; auto. do 4 (destruct p as [p|p|]; auto). congruence.
Qed.

Lemma chomp_string a : is_string a -> is_string (chomp a).
Proof.
  intro SS. destruct (chomp_spec a) as [->|E]; auto. assert (R : is_string [13%N]).
  { exists [13%N]. split; [|reflexivity]. constructor; [|constructor]. unfold known, scalar. lia. }
  destruct (cut_strings [13%N] a (chomp a) []) as [A _]; auto. discriminate.
Qed.

Lemma chomp_cut a b : exists cr,
  (if Nat.leb 1 (List.length a) then match nth_error (a ++ [10%N] ++ b) (List.length a - 1) with Some b => Ret (N.eqb 13 b) | None => Panic end
   else Ret false) = Ret cr /\
  unsafe_substring 0 (if cr then List.length a - 1 else List.length a) (a ++ [10%N] ++ b) = chomp a.
Proof.
  destruct (rev a) as [|x r] eqn:E.
  - apply (f_equal (@rev N)) in E. rewrite rev_involutive in E. subst a. exists false. split; reflexivity.
  - assert (A : a = rev r ++ [x]) by (rewrite <- (rev_involutive a), E; reflexivity). exists (N.eqb 13 x). rewrite unsafe_take.
    assert (LA : List.length a - 1 = List.length (rev r)) by (rewrite A, List.app_length; cbn; lia). split.
    + replace (Nat.leb 1 (List.length a)) with true by (symmetry; apply Nat.leb_le; rewrite A, List.app_length; cbn; lia).
      rewrite LA, A, <- List.app_assoc, nth_error_app2, Nat.sub_diag by auto. reflexivity.
    + unfold chomp. rewrite E. destruct (N.eqb_spec 13 x) as [<-|NE].
      * rewrite LA, A, <- List.app_assoc. now apply firstn_app_at.
      * rewrite firstn_app_at by auto. destruct x as [|p]; auto. do 4 (destruct p as [p|p|]; auto). congruence.
Qed.

Lemma lines_of_cons a l : l <> [] -> lines_of (a :: l) = chomp a :: lines_of l.
Proof. destruct l; [congruence|reflexivity]. Qed.

Lemma lines_loop_spec fuel : forall s, is_string s -> s <> [] -> fits s -> List.length s < fuel ->
  exists l, pieces [10%N] s l /\ lines_loop fuel s = Ret (lines_of l) /\ Forall is_string (lines_of l).
Proof.
  induction fuel as [|fuel IH]; intros s SS NS F L; [lia|]. cbn [lines_loop].
  assert (NN : [10%N] <> []) by discriminate.
  destruct (find_cut [10%N] s newline_string NN SS F) as [[E H]|(a & b & E & Q & M & A & B & UA & UB)]; rewrite E; cbn [Base.bind].
  - exists [s]. unfold lines_of. cbn [removelast map last]. destruct s; [congruence|]. repeat constructor; auto.
  - subst s. destruct (chomp_cut a b) as (cr & -> & C). cbn [Base.bind]. rewrite C. change (List.length a + 1) with (List.length a + List.length [10%N]).
    rewrite UB. destruct b as [|x b].
    + exists [a; []]. unfold lines_of. cbn [removelast map last]. refine (conj _ (conj eq_refl _)); [|constructor; auto using chomp_string].
      econstructor; eauto. constructor. intros i O. apply occurs_length in O. cbn in O. lia.
    + cbn [is_empty List.length Nat.eqb]. rewrite !List.app_length in L. cbn in L.
      destruct (IH (x :: b) B) as (l & P & -> & FL); [discriminate|eapply fits_le; eauto; rewrite !List.app_length; cbn; lia|cbn; lia|].
      exists (a :: l). rewrite lines_of_cons by (eapply pieces_ne; eauto). refine (conj _ (conj eq_refl _)); [econstructor; eauto|].
      constructor; auto using chomp_string.
Qed.

Lemma split_lines_spec s : is_string s -> fits s ->
  exists l, pieces [10%N] s l /\ split_lines s = Ret (lines_of l) /\ Forall is_string (lines_of l).
Proof.
  intros SS F. unfold split_lines. destruct s as [|b s].
  - exists [[]]. split; [|repeat constructor]. constructor. intros i O. apply occurs_length in O. cbn in O. lia.
  - cbn [is_empty List.length Nat.eqb]. apply lines_loop_spec; auto. discriminate.
Qed.
