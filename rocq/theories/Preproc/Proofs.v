(** The preprocessor computes the expansion of its specification. *)
From Verif.Base Require Import Base BaseFacts.
From Verif.Lexer Require Import Model.
From Verif.Sexp Require Import Model.
From Verif.Preproc Require Import Model Spec.

Lemma text_eqb_neq a b : text_eqb a b = false <-> a <> b.
Proof. rewrite <- text_eqb_eq. destruct (text_eqb a b); split; congruence. Qed.

(** * The variables *)
Lemma get_remove x y v : vars_get x (vars_remove y v) = if text_eqb x y then None else vars_get x v.
Proof.
  induction v as [|[z s] v IH]; [cbn; destruct (text_eqb x y); reflexivity|]. cbn [vars_remove filter fst]. destruct (text_eqb y z) eqn:E1; cbn [negb].
  - fold (vars_remove y v). rewrite IH. apply text_eqb_eq in E1. subst z. cbn [vars_get]. destruct (text_eqb x y); reflexivity.
  - cbn [vars_get]. fold (vars_remove y v). rewrite IH. destruct (text_eqb x z) eqn:E2; [|reflexivity]. apply text_eqb_eq in E2. subst z.
    destruct (text_eqb x y) eqn:E3; [|reflexivity]. apply text_eqb_eq in E3. subst y. rewrite text_eqb_refl in E1. discriminate.
Qed.

Lemma get_insert x y s v : vars_get x (vars_insert y s v) = if text_eqb x y then Some s else vars_get x v.
Proof. unfold vars_insert. cbn [vars_get]. rewrite get_remove. destruct (text_eqb x y); reflexivity. Qed.

Definition agree (v : vars) (e : env) : Prop := forall x, vars_get x v = e x.

Definition named (bs : list (text * sexp)) : list text :=
  flat_map (fun b => if text_eqb (fst b) (t_ "_") then [] else [fst b]) bs.

Lemma bind_all_agree bs : forall v e, agree v e -> agree (fst (bind_all bs v)) (extends e bs).
Proof.
  induction bs as [|[x s] bs IH]; intros v e H; [exact H|]. cbn [bind_all extends fold_left fst]. destruct (text_eqb x (t_ "_")) eqn:E.
  - apply IH. intros y. unfold extend. cbn [fst]. rewrite E. apply H.
  - specialize (IH (vars_insert x s v) (extend e (x, s))). destruct (bind_all bs (vars_insert x s v)) as (v', prevs). apply IH.
    intros y. rewrite get_insert. unfold extend. cbn [fst snd]. rewrite E, H. reflexivity.
Qed.

Lemma extends_other bs : forall e x, ~ In x (named bs) -> extends e bs x = e x.
Proof.
  induction bs as [|[y s] bs IH]; intros e x H; [reflexivity|]. cbn [extends fold_left]. change (fold_left extend bs (extend e (y, s))) with (extends (extend e (y, s)) bs).
  unfold named in H. cbn [flat_map fst] in H. rewrite in_app_iff in H. rewrite IH; [|unfold named; tauto]. unfold extend. cbn [fst snd].
  destruct (text_eqb y (t_ "_")); [reflexivity|]. destruct (text_eqb x y) eqn:E; [|reflexivity]. apply text_eqb_eq in E. subst y. exfalso. apply H. left. left. reflexivity.
Qed.

Lemma restore_get prevs : forall v, NoDup (map fst prevs) -> forall x,
  vars_get x (restore_all prevs v) = match find (fun p => text_eqb x (fst p)) prevs with Some p => snd p | None => vars_get x v end.
Proof.
  induction prevs as [|[y o] prevs IH]; intros v HD x; [reflexivity|]. cbn [restore_all find fst]. inversion_clear HD as [|? ? Hn HD'].
  assert (E : vars_get x (restore_all ((y, o) :: prevs) v) = match find (fun p => text_eqb x (fst p)) prevs with Some p => snd p | None => if text_eqb x y then o else vars_get x v end).
  { cbn [restore_all]. destruct o as [s|]; rewrite (IH _ HD'); destruct (find _ prevs); try reflexivity; [apply get_insert|rewrite get_remove; reflexivity]. }
  cbn [restore_all] in E. rewrite E. clear E. destruct (text_eqb x y) eqn:E; [|reflexivity]. apply text_eqb_eq in E. subst y. cbn [snd].
  destruct (find (fun p => text_eqb x (fst p)) prevs) as [p|] eqn:Ef; [|reflexivity]. apply find_some in Ef. destruct Ef as (Hin & Heq). apply text_eqb_eq in Heq. subst x.
  exfalso. apply Hn, in_map, Hin.
Qed.

Lemma bind_all_prevs bs : forall v, NoDup (named bs) -> map fst (snd (bind_all bs v)) = named bs /\
  forall x o, In (x, o) (snd (bind_all bs v)) -> o = vars_get x v.
Proof.
  induction bs as [|[y s] bs IH]; intros v HD; [split; [reflexivity|intros x o []]|]. unfold named in *. cbn [bind_all flat_map fst] in *. destruct (text_eqb y (t_ "_")) eqn:E.
  - apply IH, HD.
  - cbn [app] in HD |- *. inversion_clear HD as [|? ? Hn HD']. destruct (IH (vars_insert y s v) HD') as (H1 & H2). destruct (bind_all bs (vars_insert y s v)) as (v', prevs).
    cbn [snd fst map] in *. split; [rewrite H1; reflexivity|]. intros x o [H|H]; [congruence|]. rewrite (H2 x o H), get_insert.
    destruct (text_eqb x y) eqn:E2; [|reflexivity]. apply text_eqb_eq in E2. subst y. exfalso. apply Hn. rewrite <- H1. apply (in_map fst) in H. exact H.
Qed.

(** * Computations that keep the bindings and answer exactly the members of a relation *)
Definition good {A} (m : M A) (R : A -> Prop) (e : env) : Prop :=
  forall v, agree v e -> agree (fst (m v)) e /\ forall a, snd (m v) = Ok a <-> R a.

Lemma good_ext {A} (m : M A) (R R' : A -> Prop) e : good m R e -> (forall a, R a <-> R' a) -> good m R' e.
Proof. intros H HR v Hv. destruct (H v Hv) as (H1 & H2). split; [exact H1|]. intros a. rewrite H2. apply HR. Qed.

Lemma good_ret {A} (a : A) e : good (ret_m a) (fun b => b = a) e.
Proof. intros v Hv. split; [exact Hv|]. intros b. cbn. split; congruence. Qed.

Lemma good_fail {A} p e : good (fail_m p : M A) (fun _ => False) e.
Proof. intros v Hv. split; [exact Hv|]. intros b. cbn. split; [discriminate|intros []]. Qed.

Lemma good_bind {A B} (m : M A) (f : A -> M B) R R' e : good m R e -> (forall a, R a -> good (f a) (R' a) e) ->
  good (bind_m m f) (fun b => exists a, R a /\ R' a b) e.
Proof.
  intros Hm Hf v Hv. destruct (Hm v Hv) as (H1 & H2). unfold bind_m. destruct (m v) as (v', [a|p]); cbn [fst snd] in *.
  - assert (Ha : R a) by (apply H2; reflexivity). destruct (Hf a Ha v' H1) as (H3 & H4). split; [exact H3|]. intros b. rewrite H4. split; [intros H; exists a; auto|].
    intros (a' & Ha' & H). apply H2 in Ha'. injection Ha' as ->. exact H.
  - split; [exact H1|]. intros b. split; [discriminate|]. intros (a & Ha & _). apply H2 in Ha. discriminate.
Qed.

Lemma good_one m R e l p : good m R e -> good (one m l p) (fun x => R [x]) e.
Proof.
  intros H. unfold one. eapply good_ext.
  - eapply (good_bind _ _ R (fun a x => a = [x])); [exact H|]. intros [|a [|b r]] _.
    + eapply good_ext; [apply good_fail|]. intros x. split; [intros []|discriminate].
    + eapply good_ext; [apply good_ret|]. intros x. split; [congruence|]. intros E. injection E as ->. reflexivity.
    + eapply good_ext; [apply good_fail|]. intros x. split; [intros []|discriminate].
  - intros x. cbn beta. split; [intros (a & Ha & ->); exact Ha|]. intros Hx. exists [x]. auto.
Qed.

Lemma good_with_binds {A} (m : M A) R e bs : NoDup (named bs) -> good m R (extends e bs) -> good (with_binds bs m) R e.
Proof.
  intros HD Hm v Hv. unfold with_binds. pose proof (bind_all_agree bs v e Hv) as H1. destruct (bind_all_prevs bs v HD) as (H2 & H3).
  destruct (bind_all bs v) as (v', prevs). cbn [fst snd] in *. destruct (Hm v' H1) as (H4 & H5). destruct (m v') as (v'', r). cbn [fst snd] in *.
  split; [|exact H5]. intros x. rewrite restore_get; [|rewrite H2; exact HD]. destruct (find (fun p => text_eqb x (fst p)) prevs) as [[y o]|] eqn:Ef.
  - apply find_some in Ef. destruct Ef as (Hin & E). cbn [fst] in E. apply text_eqb_eq in E. subst y. cbn [snd]. rewrite (H3 x o Hin). apply Hv.
  - rewrite H4. apply extends_other. rewrite <- H2. intros Hin. apply in_map_iff in Hin. destruct Hin as (p & <- & Hin).
    pose proof (find_none _ _ Ef p Hin) as Hn. cbn in Hn. rewrite text_eqb_refl in Hn. discriminate.
Qed.

Lemma good_for_each features body m e : forall bss,
  (forall bs, In bs bss -> NoDup (named bs)) -> (forall bs, In bs bss -> good m (expands_seq features (extends e bs) body) (extends e bs)) ->
  good (for_each bss m) (fun out => exists outs, expands_each features e bss body outs /\ out = List.concat outs) e.
Proof.
  induction bss as [|bs bss IH]; intros HD Hm.
  - eapply good_ext; [apply good_ret|]. intros a. split; [intros ->; exists []; split; [constructor|reflexivity]|]. intros (outs & H & ->). inversion H; reflexivity.
  - cbn [for_each]. eapply good_ext.
    + eapply good_bind; [apply good_with_binds; [apply HD; left; reflexivity|apply Hm; left; reflexivity]|]. intros x _. cbn beta.
      eapply good_bind; [apply IH; intros b Hb; [apply HD|apply Hm]; right; exact Hb|]. intros xs _. apply good_ret.
    + intros out. cbn beta. split.
      * intros (x & Hx & xs & (outs & Ho & ->) & ->). exists (x :: outs). split; [constructor; assumption|reflexivity].
      * intros (outs & H & ->). inversion H; subst. eexists. split; [eassumption|]. eexists. split; [eexists; split; [eassumption|reflexivity]|reflexivity].
Qed.
