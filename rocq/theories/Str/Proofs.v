From Verif.Base Require Import BaseFacts.
From Verif.Str Require Import Model Spec.

(** Direct recursive characterisations of the loops. *)
Fixpoint esc (t : text) : text :=
  match t with
  | [] => []
  | c :: t => match escape_char c with Some e => e ++ esc t | None => c :: esc t end
  end.

Fixpoint unesc (fuel : nat) (t : text) : option text :=
  match fuel with
  | O => None
  | S fuel =>
    match t with
    | [] => Some []
    | c :: t' =>
      if (c =? c_backslash)%N then
        match t' with
        | l :: t'' =>
          match unescape_char l, unesc fuel t'' with
          | Some x, Some r => Some (x :: r)
          | _, _ => None
          end
        | [] => None
        end
      else match unesc fuel t' with Some r => Some (c :: r) | None => None end
    end
  end.

Lemma find_char_none pat t : find_char pat t = None -> Forall (fun c => pat c = false) t.
Proof.
  induction t as [|c t IH]; cbn [find_char]; [constructor|].
  destruct (pat c) eqn:E; [discriminate|].
  destruct (find_char pat t) as [[a b]|]; [discriminate|]. intros _; constructor; auto.
Qed.

Lemma find_char_some pat t a b :
  find_char pat t = Some (a, b) ->
  t = a ++ b /\ Forall (fun c => pat c = false) a /\ exists c r, b = c :: r /\ pat c = true.
Proof.
  revert a b; induction t as [|c t IH]; intros a b; cbn [find_char]; [discriminate|].
  destruct (pat c) eqn:E.
  - intros H; inversion H; subst; cbn. split; [reflexivity|]. split; [constructor|].
    exists c, t; auto.
  - destruct (find_char pat t) as [[a' b']|] eqn:F; [|discriminate].
    intros H; inversion H; subst. destruct (IH _ _ eq_refl) as (-> & Ha & c' & r & -> & Hc).
    cbn. split; [reflexivity|]. split; [constructor; assumption|]. exists c', r; auto.
Qed.

Definition esc_pat c := match escape_char c with Some _ => true | None => false end.

Lemma esc_plain_app a b : Forall (fun c => esc_pat c = false) a -> esc (a ++ b) = a ++ esc b.
Proof.
  unfold esc_pat. induction 1 as [|c a Hc _ IH]; cbn [esc app]; [reflexivity|].
  destruct (escape_char c); [discriminate|]. rewrite IH; reflexivity.
Qed.

Lemma escape_loop fuel t buf :
  (List.length t < fuel)%nat ->
  replace_loop fuel esc_pat escape_repl t buf = Ret (Some (buf ++ esc t)).
Proof.
  revert t buf; induction fuel as [|fuel IH]; intros t buf Hf; [lia|].
  cbn [replace_loop]. destruct (find_char esc_pat t) as [[a b]|] eqn:F.
  - apply find_char_some in F as (-> & Ha & c & r & -> & Hc).
    cbn [escape_repl]. pose proof Hc as Hc'. unfold esc_pat in Hc'.
    destruct (escape_char c) as [e|] eqn:E; [|discriminate].
    rewrite app_length in Hf; cbn in Hf. rewrite IH by lia.
    rewrite esc_plain_app by assumption. cbn [esc]. rewrite E, !app_assoc. reflexivity.
  - apply find_char_none in F. rewrite <- (app_nil_r t) at 2.
    rewrite esc_plain_app by assumption. cbn. rewrite app_nil_r. reflexivity.
Qed.

Lemma escape_esc t : escape t = Ret (esc t).
Proof.
  unfold escape, replace. rewrite (escape_loop _ t []) by lia. reflexivity.
Qed.

Lemma escape_char_cases c e :
  escape_char c = Some e ->
  exists l, e = [c_backslash; l] /\ In (l, c) escape_table.
Proof.
  unfold escape_char.
  repeat match goal with |- context [(?a =? ?b)%N] => destruct (N.eqb_spec a b) as [->|] end;
    intros H; inversion H; subst; eexists; (split; [reflexivity|]); cbn; auto 10.
Qed.

Lemma escape_char_none c : escape_char c = None ->
  c <> c_backslash /\ c <> c_quote /\ c <> c_tab /\ c <> c_cr /\ c <> c_lf.
Proof.
  unfold escape_char.
  repeat match goal with |- context [(?a =? ?b)%N] => destruct (N.eqb_spec a b) as [->|] end;
    intros H; inversion H; subst; auto 10.
Qed.

Lemma unescape_char_spec l c : unescape_char l = Some c <-> In (l, c) escape_table.
Proof.
  unfold unescape_char, escape_table. split.
  - repeat match goal with |- context [(?a =? ?b)%N] => destruct (N.eqb_spec a b) as [->|] end;
      intros H; inversion H; subst; cbn; auto 10.
  - cbn. intros [H|[H|[H|[H|[H|[]]]]]]; inversion H; subst; reflexivity.
Qed.

Lemma denotes_esc s : denotes (esc s) s.
Proof.
  induction s as [|c s IH]; cbn [esc]; [constructor|].
  destruct (escape_char c) as [e|] eqn:E.
  - apply escape_char_cases in E as (l & -> & Hin). cbn. constructor; assumption.
  - apply escape_char_none in E as (H & _). constructor; assumption.
Qed.

Definition bs_pat c := (c =? c_backslash)%N.

Lemma unesc_plain_app a b : forall fuel,
  Forall (fun c => bs_pat c = false) a -> (List.length (a ++ b) < fuel)%nat ->
  exists fuel', (List.length b < fuel')%nat /\
    unesc fuel (a ++ b) = match unesc fuel' b with Some r => Some (a ++ r) | None => None end.
Proof.
  induction a as [|c a IH]; intros fuel Ha Hf.
  - exists fuel. split; [assumption|]. cbn. destruct (unesc fuel b); reflexivity.
  - destruct fuel as [|fuel]; [cbn in Hf; lia|]. inversion Ha as [|? ? Hc Ha']; subst.
    cbn [app unesc]. unfold bs_pat in Hc; rewrite Hc.
    destruct (IH fuel Ha') as (f' & Hf' & E). { cbn in Hf; lia. }
    exists f'. split; [assumption|]. rewrite E. destruct (unesc f' b); reflexivity.
Qed.

Lemma unesc_fuel f1 : forall f2 t, (List.length t < f1)%nat -> (List.length t < f2)%nat ->
  unesc f1 t = unesc f2 t.
Proof.
  induction f1 as [|f1 IH]; intros f2 t H1 H2; [lia|]. destruct f2 as [|f2]; [lia|].
  destruct t as [|c t]; cbn [unesc]; [reflexivity|]. cbn in H1, H2.
  destruct (c =? c_backslash)%N.
  - destruct t as [|l t]; [reflexivity|]. cbn in H1, H2.
    rewrite (IH f2 t) by lia. reflexivity.
  - rewrite (IH f2 t) by lia. reflexivity.
Qed.

Lemma unescape_loop fuel : forall t buf, (List.length t < fuel)%nat ->
  replace_loop fuel bs_pat unescape_repl t buf =
  Ret (match unesc (S (List.length t)) t with Some r => Some (buf ++ r) | None => None end).
Proof.
  induction fuel as [|fuel IH]; intros t buf Hf; [lia|].
  cbn [replace_loop]. destruct (find_char bs_pat t) as [[a b]|] eqn:F.
  - apply find_char_some in F as (-> & Ha & c & r & -> & Hc).
    destruct (unesc_plain_app a (c :: r) (S (List.length (a ++ c :: r))) Ha) as (f' & Hf' & ->); [lia|].
    destruct f' as [|f']; [cbn in Hf'; lia|]. cbn [unesc]. unfold bs_pat in Hc; rewrite Hc.
    rewrite app_length in Hf; cbn in Hf, Hf'.
    destruct r as [|l r]; cbn [unescape_repl]; [reflexivity|].
    destruct (unescape_char l) as [x|]; [|reflexivity]. cbn in Hf, Hf'.
    rewrite IH by lia. rewrite (unesc_fuel (S (List.length r)) f' r) by lia.
    destruct (unesc f' r) as [q|]; [|reflexivity]. rewrite <- !app_assoc; reflexivity.
  - apply find_char_none in F.
    destruct (unesc_plain_app t [] (S (List.length t)) F) as (f' & Hf' & E); [rewrite app_nil_r; lia|].
    rewrite app_nil_r in E. rewrite E. destruct f' as [|f']; [cbn in Hf'; lia|].
    cbn [unesc]. rewrite app_nil_r; reflexivity.
Qed.

Lemma unescape_unesc t : unescape t = Ret (unesc (S (List.length t)) t).
Proof.
  unfold unescape, replace. rewrite (unescape_loop _ t []) by lia.
  destruct (unesc (S (List.length t)) t); reflexivity.
Qed.

Lemma unesc_denotes fuel : forall t s, unesc fuel t = Some s -> denotes t s.
Proof.
  induction fuel as [|fuel IH]; intros t s; [discriminate|].
  destruct t as [|c t]; cbn [unesc].
  - intros H; inversion H; constructor.
  - destruct (N.eqb_spec c c_backslash) as [->|Hne].
    + destruct t as [|l t]; [discriminate|].
      destruct (unescape_char l) as [x|] eqn:El; [|discriminate].
      destruct (unesc fuel t) as [r|] eqn:Er; [|discriminate].
      intros H; inversion H; subst. constructor; [apply unescape_char_spec; assumption|auto].
    + destruct (unesc fuel t) as [r|] eqn:Er; [|discriminate].
      intros H; inversion H; subst. constructor; auto.
Qed.

Lemma denotes_unesc t s : denotes t s -> forall fuel, (List.length t < fuel)%nat -> unesc fuel t = Some s.
Proof.
  induction 1 as [|c t s Hc _ IH|l c t s Hin _ IH]; intros fuel Hf;
    (destruct fuel as [|fuel]; [lia|]); cbn [unesc].
  - reflexivity.
  - destruct (N.eqb_spec c c_backslash); [contradiction|]. cbn in Hf. rewrite IH by lia. reflexivity.
  - cbn [N.eqb]. rewrite N.eqb_refl. apply unescape_char_spec in Hin. rewrite Hin.
    cbn in Hf. rewrite IH by lia. reflexivity.
Qed.

Lemma unescape_iff t s : unescape t = Ret (Some s) <-> denotes t s.
Proof.
  rewrite unescape_unesc. split.
  - intros H. injection H as H'. eapply (unesc_denotes (S (List.length t))); exact H'.
  - intros H. rewrite (denotes_unesc _ _ H) by lia. reflexivity.
Qed.

Lemma unescape_total t : exists r, unescape t = Ret r.
Proof. rewrite unescape_unesc. eauto. Qed.

Lemma unescape_none_iff t : unescape t = Ret None <-> ~ exists s, denotes t s.
Proof.
  split.
  - intros H [s Hs]. apply unescape_iff in Hs. congruence.
  - intros H. rewrite unescape_unesc in *. destruct (unesc _ t) as [s|] eqn:E; [|reflexivity].
    exfalso; apply H; exists s. eapply unesc_denotes; eassumption.
Qed.

Lemma escape_denotes s : exists t, escape s = Ret t /\ denotes t s.
Proof. exists (esc s). split; [apply escape_esc|apply denotes_esc]. Qed.

Lemma roundtrip s : (let* t := escape s in unescape t) = Ret (Some s).
Proof. rewrite escape_esc; cbn [bind]. apply unescape_iff, denotes_esc. Qed.

Lemma esc_no_control s c : In c (esc s) -> c <> c_tab /\ c <> c_cr /\ c <> c_lf.
Proof.
  induction s as [|x s IH]; cbn [esc]; [intros []|].
  destruct (escape_char x) as [e|] eqn:E.
  - apply escape_char_cases in E as (l & -> & Hin). cbn [app In].
    intros [<-|[<-|H]]; [repeat split; discriminate| |auto].
    unfold escape_table in Hin; cbn in Hin.
    destruct Hin as [H|[H|[H|[H|[H|[]]]]]]; inversion H; subst; repeat split; discriminate.
  - apply escape_char_none in E as (_ & _ & Ht & Hr & Hl). intros [<-|H]; auto.
Qed.

Lemma esc_no_raw_quote s : ~ raw_quote (esc s).
Proof.
  intros (a & b & r & E & Hd). revert s b E.
  induction Hd as [|c t r' Hc _ IH|l c t r' Hin _ IH]; intros s b E.
  - destruct s as [|x s]; cbn [esc] in E; [discriminate|].
    destruct (escape_char x) as [e|] eqn:Ex.
    + apply escape_char_cases in Ex as (l & -> & _). discriminate.
    + apply escape_char_none in Ex as (_ & Hq & _). cbn in E; inversion E; subst; contradiction.
  - destruct s as [|x s]; cbn [esc] in E; [discriminate|].
    destruct (escape_char x) as [e|] eqn:Ex.
    + apply escape_char_cases in Ex as (l & -> & _). cbn in E; inversion E; subst; contradiction.
    + cbn in E; inversion E; subst. eapply IH; eassumption.
  - destruct s as [|x s]; cbn [esc] in E; [discriminate|].
    destruct (escape_char x) as [e|] eqn:Ex.
    + apply escape_char_cases in Ex as (l' & -> & _). cbn in E; inversion E; subst.
      eapply IH; eassumption.
    + apply escape_char_none in Ex as (Hb & _). cbn in E; inversion E; subst; contradiction.
Qed.

Lemma escape_safe s :
  exists t, escape s = Ret t /\ ~ raw_quote t /\
    forall c, In c t -> c <> c_tab /\ c <> c_cr /\ c <> c_lf.
Proof.
  exists (esc s). split; [apply escape_esc|]. split; [apply esc_no_raw_quote|apply esc_no_control].
Qed.
