(** Nested scopes mean what the frames say. *)
From Verif.Base Require Import Base BaseFacts Assoc.
From Verif.Sexp Require Import Model.
From Verif.Scope Require Import Model Spec.

Lemma find_in_hget n f : find_in n f = hget n f.
Proof. induction f as [|[m c] f IH]; [reflexivity|]. cbn. rewrite IH. reflexivity. Qed.

Definition apply_entry (map : table) (e : text * option located) : table :=
  match e with (name, Some c) => hinsert name c map | (name, None) => hremove name map end.

Lemma restore_get l : forall map n, NoDup (keys l) ->
  hget n (fold_left apply_entry l map) = match hget n l with Some o => o | None => hget n map end.
Proof.
  induction l as [|[m o] l IH]; intros map n HD; [reflexivity|]. cbn in HD. inversion_clear HD as [|? ? Hn HD']. cbn [fold_left]. rewrite (IH _ n HD'). cbn [hget].
  destruct (text_eqb n m) eqn:E.
  - apply text_eqb_eq in E. subst m. apply hget_none in Hn. rewrite Hn. destruct o as [c|]; cbn [apply_entry]; [rewrite hget_insert|rewrite hget_remove]; rewrite text_eqb_refl; reflexivity.
  - destruct (hget n l) as [o'|]; [reflexivity|]. destruct o as [c|]; cbn [apply_entry]; [rewrite hget_insert|rewrite hget_remove]; rewrite E; reflexivity.
Qed.

Lemma hget_perm {V} (l l' : list (text * V)) n : Permutation l l' -> NoDup (keys l) -> hget n l' = hget n l.
Proof.
  intros HP HD. assert (HD' : NoDup (keys l')) by (eapply Permutation_NoDup; [apply Permutation_map, HP|exact HD]).
  destruct (hget n l) as [o|] eqn:E.
  - apply (hget_in n o l' HD'). apply (hget_in n o l HD) in E. eapply Permutation_in; eassumption.
  - apply hget_none in E. apply hget_none. intros H. apply E. eapply Permutation_in; [apply Permutation_sym, Permutation_map, HP|exact H].
Qed.

(** Each stash holds the meaning outside its scope of exactly the names of the scope. *)
Inductive stashed (out : text -> option located) : list stash -> list (list (text * located)) -> Prop :=
| sh_nil : stashed out [] []
| sh_cons st sts f fs : stashed out sts fs -> NoDup (keys st) ->
    (forall n, hget n st = match find_in n f with Some _ => Some (meaning_in n fs (out n)) | None => None end) ->
    stashed out (st :: sts) (f :: fs).

Definition related (s : scopes) (f : frames) : Prop :=
  (forall n, hget n (map_ s) = meaning n f) /\ stashed (fun n => find_in n (top f)) (stashes s) (inner f).

Section Order.
  Variable order : stash -> stash.
  Hypothesis Horder : forall st, Permutation (order st) st.

  Lemma step_ok o s f : related s f ->
    exists s', step order o s = Ret (s', snd (spec_step o f)) /\ ((forall e, snd (spec_step o f) <> Failed e) -> related s' (fst (spec_step o f))).
  Proof.
    intros (Hm & Hs). destruct s as [map sts], f as [tp inn]. cbn [map_ stashes top inner] in *. destruct o as [| |name c|name]; cbn [step map_ stashes].
    - eexists. split; [reflexivity|]. intros _. split; [exact Hm|]. cbn. constructor; [exact Hs|constructor|]. intros n. reflexivity.
    - destruct Hs as [|st sts f fs Hs HD Hst].
      + eexists. split; [reflexivity|]. intros _. split; [exact Hm|constructor].
      + eexists. split; [reflexivity|]. intros _. split; [|exact Hs]. intros n. cbn [map_ fst spec_step inner tl top]. change (drop order st map) with (fold_left apply_entry (order st) map).
        assert (HP : Permutation st (order st)) by (apply Permutation_sym, Horder).
        rewrite restore_get; [|eapply Permutation_NoDup; [apply Permutation_map, HP|exact HD]]. rewrite (hget_perm st (order st) n HP HD), Hst, Hm. unfold meaning. cbn [inner meaning_in top].
        destruct (find_in n f); reflexivity.
    - destruct Hs as [|st sts f fs Hs HD Hst].
      + eexists. cbn [top_define spec_step inner top fst snd]. split; [|].
        * unfold meaning in Hm. cbn [inner meaning_in top] in Hm. rewrite Hm. destruct (find_in name tp) as [old|]; [destruct (construct old =? construct c)%N|]; reflexivity.
        * intros _. split; [|constructor]. intros n. unfold meaning. cbn [map_ inner meaning_in top]. rewrite hget_insert, Hm. unfold meaning. cbn [inner meaning_in top find_in]. destruct (text_eqb n name); reflexivity.
      + cbn [spec_step inner fst snd top]. rewrite Hst. destruct (find_in name f) as [old|] eqn:Ef.
        * rewrite Hm. unfold meaning. cbn [inner meaning_in]. rewrite Ef. eexists. split; [reflexivity|]. intros H. exfalso. eapply H. reflexivity.
        * eexists. split; [reflexivity|]. intros _. split.
          -- intros n. unfold meaning. cbn [map_ inner meaning_in top find_in]. rewrite hget_insert, hget_remove, Hm. unfold meaning. cbn [inner meaning_in top]. destruct (text_eqb n name); reflexivity.
          -- cbn [stashes inner top]. constructor; [exact Hs|apply nodup_hinsert, HD|]. intros n. rewrite hget_insert. cbn [find_in]. destruct (text_eqb n name) eqn:E; [|apply Hst].
             apply text_eqb_eq in E. subst n. rewrite Hm. unfold meaning. cbn [inner meaning_in top]. rewrite Ef. reflexivity.
    - eexists. cbn [spec_step fst snd]. split; [rewrite Hm; reflexivity|]. intros _. split; assumption.
  Qed.

  Lemma session_ok ops : forall s f, related s f -> session order ops s = Ret (spec_session ops f).
  Proof.
    induction ops as [|o ops IH]; intros s f H; [reflexivity|]. cbn [session spec_session]. destruct (step_ok o s f H) as (s' & E & Hr). rewrite E. cbn [bind].
    destruct (spec_step o f) as (f', r). cbn [fst snd] in *. destruct r; [| |reflexivity]; (rewrite (IH s' f'); [reflexivity|apply Hr; discriminate]).
  Qed.
End Order.

Lemma local_scopes_ok order ops : (forall st, Permutation (order st) st) ->
  session order ops new_scopes = Ret (spec_session ops {| top := []; inner := [] |}).
Proof. intros H. apply session_ok; [exact H|]. split; [intros n; reflexivity|constructor]. Qed.
