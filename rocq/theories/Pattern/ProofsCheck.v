From Verif.Base Require Import Base BaseFacts Vec VecFacts.
From Verif.Pattern Require Import Model Spec Proofs.

Lemma concat_out_conv {A B} (f : nat -> A -> outcome (list B)) (P : A -> list B -> Prop) (l : list A) : forall acc,
  (forall x, In x l -> exists y, conv (fun n => f n x) y /\ P x y) ->
  exists ys, conv (fun n => concat_out (f n) l acc) (acc ++ List.concat ys) /\ Forall2 P l ys.
Proof.
  induction l as [|x l IH]; intros acc H.
  - exists []. split; [cbn; rewrite app_nil_r; apply conv_ret|constructor].
  - destruct (H x (or_introl eq_refl)) as (y & Hy & HP). destruct (IH (acc ++ y)) as (ys & Hc & HF); [intros z Hz; apply H; right; exact Hz|].
    exists (y :: ys). split; [|constructor; assumption]. cbn [concat_out List.concat]. rewrite app_assoc. eapply (conv_bind (fun n => f n x)); [exact Hy|]. exact Hc.
Qed.

Lemma filter_out_conv {A} (f : nat -> A -> outcome bool) (P : A -> bool -> Prop) (l : list A) :
  (forall x, In x l -> exists b, conv (fun n => f n x) b /\ P x b) ->
  exists l', conv (fun n => filter_out (f n) l) l' /\ incl l' l /\ forall x, In x l -> In x l' \/ P x false.
Proof.
  induction l as [|x l IH]; intros H.
  - exists []. split; [apply conv_ret|]. split; [apply incl_refl|intros x []].
  - destruct (H x (or_introl eq_refl)) as (b & Hb & HP). destruct IH as (l' & Hc & Hi & Hx); [intros z Hz; apply H; right; exact Hz|].
    exists (if b then x :: l' else l'). split; [|split].
    + cbn [filter_out]. eapply (conv_bind (fun n => f n x)); [exact Hb|]. eapply (conv_bind (fun n => filter_out (f n) l)); [exact Hc|]. apply conv_ret.
    + destruct b; [intros y [<-|Hy]; [left; reflexivity|right; apply Hi, Hy]|intros y Hy; right; apply Hi, Hy].
    + intros y [<-|Hy]; [destruct b; [left; left; reflexivity|right; exact HP]|].
      destruct (Hx y Hy) as [H1|H1]; [left; destruct b; [right; exact H1|exact H1]|right; exact H1].
Qed.

Lemma map_out_spec {A B} (f : A -> outcome B) (P : A -> B -> Prop) l : (forall x, In x l -> exists y, f x = Ret y /\ P x y) ->
  exists ys, map_out f l = Ret ys /\ Forall2 P l ys.
Proof.
  induction l as [|x l IH]; intros H; [exists []; split; [reflexivity|constructor]|].
  destruct (H x (or_introl eq_refl)) as (y & Ey & Py). destruct IH as (ys & Eys & Pys); [intros z Hz; apply H; right; exact Hz|].
  exists (y :: ys). split; [cbn; rewrite Ey; cbn; rewrite Eys; reflexivity|constructor; assumption].
Qed.

Lemma F2_in_l {A B} (R : A -> B -> Prop) l l' x : Forall2 R l l' -> In x l -> exists y, In y l' /\ R x y.
Proof. induction 1 as [|a b l l' H1 _ IH]; [intros []|]. intros [<-|H]; [exists b; cbn; auto|]. destruct (IH H) as (y & Hy & HR). exists y. cbn. auto. Qed.

Lemma F2_in_r {A B} (R : A -> B -> Prop) l l' y : Forall2 R l l' -> In y l' -> exists x, In x l /\ R x y.
Proof. induction 1 as [|a b l l' H1 _ IH]; [intros []|]. intros [<-|H]; [exists a; cbn; auto|]. destruct (IH H) as (x & Hx & HR). exists x. cbn. auto. Qed.

Section Typed.
  Variable S : types.
  Hypothesis HD : distinct S.
  Notation T := (type S).
  Notation row_type := (Forall2 (pat_type S)).
  Notation mat_type := (mat_type S).
  Notation rmatches := (Forall2 matches).
  Notation vals := (Forall2 (has_type S)).
  Notation rich := (rich S).
  Notation useful := (useful S).
  Definition nocm (m : matrix) : Prop := forall r, In r m -> Forall no_consts r.

  Lemma nocm_specialize t m : nocm m -> nocm (specialize t m).
  Proof.
    intros H r Hr. apply in_filter_map in Hr. destruct Hr as (r0 & Hin & E). specialize (H r0 Hin). destruct r0 as [|[t' ps|] r0]; cbn in E; try discriminate.
    - destruct (tag_eqb t' t); [|discriminate]. injection E as <-. inversion H as [|p r' Hp Hr']; subst. inversion Hp; subst. apply Forall_app. auto.
    - injection E as <-. inversion H; subst. apply Forall_app. split; [|assumption]. apply Forall_forall. intros p Hp. apply repeat_spec in Hp. subst. constructor.
  Qed.

  Lemma nocm_defaults m : nocm m -> nocm (defaults m).
  Proof.
    intros H r Hr. apply in_filter_map in Hr. destruct Hr as (r0 & Hin & E). specialize (H r0 Hin). destruct r0 as [|[t' ps|] r0]; cbn in E; try discriminate.
    injection E as <-. inversion H; subst. assumption.
  Qed.

  Lemma restore_ok t A fs ts r : tag_type S t A fs -> row_type r (fs ++ ts) ->
    exists ps r', r = ps ++ r' /\ row_type ps fs /\ row_type r' ts /\ restore_row t r = Ret (PCon t ps :: r').
  Proof.
    intros Ht Hr. apply F2_split in Hr. destruct Hr as (ps & r' & -> & H1 & H2). exists ps, r'. split; [reflexivity|]. split; [exact H1|]. split; [exact H2|].
    unfold restore_row. rewrite (tag_arity S t A fs Ht), <- (F2_len _ _ _ H1), app_length.
    destruct (Nat.leb_spec (List.length ps) (List.length ps + List.length r')); [|lia].
    rewrite firstn_app, Nat.sub_diag, firstn_all, skipn_app, Nat.sub_diag, skipn_all. cbn. rewrite app_nil_r. reflexivity.
  Qed.

  Definition missing_spec (m M : matrix) (ts : list T) : Prop :=
    mat_type M ts /\ (M = [] -> forall vs, vals vs ts -> mcov m vs) /\
    (rich -> forall r, In r M -> useful m r ts) /\
    (nocm m -> forall vs, vals vs ts -> mcov M vs -> ~ mcov m vs).

  Lemma missing_ok : forall a b m ts, (ccm m <= a)%nat -> (List.length ts <= b)%nat -> mat_type m ts ->
    exists M, conv (fun n => compute_missing n m (List.length ts)) M /\ missing_spec m M ts.
  Proof.
    assert (Hempty : forall ts, exists M, conv (fun n => compute_missing n [] (List.length ts)) M /\ missing_spec [] M ts).
    { intros ts. exists [repeat PWild (List.length ts)]. split; [eapply conv_step; [intros n; reflexivity|apply conv_ret]|]. split; [|split; [discriminate|split]].
      - intros r [<-|[]]. apply wild_type.
      - intros HR r [<-|[]]. destruct (row_inhabited S HD _ ts HR (wild_type S ts)) as (vs & H1 & H2). exists vs. split; [exact H1|]. split; [exact H2|]. intros (x & [] & _).
      - intros _ vs _ _ (x & [] & _). }
    induction a as [a IHa] using lt_wf_ind. induction b as [|b IHb]; intros m ts Ha Hb Hm.
    - destruct ts; [|cbn in Hb; lia]. destruct m as [|r0 m]; [apply (Hempty [])|].
      pose proof (Hm r0 (or_introl eq_refl)) as Hr0. inversion Hr0; subst. exists []. split; [|split; [intros r []|split; [|split]]].
      + eapply conv_step; [intros n; reflexivity|]. apply conv_ret.
      + intros _ vs Hv. inversion Hv; subst. exists []. split; [left; reflexivity|constructor].
      + intros _ r [].
      + intros _ vs _ (r & [] & _).
    - destruct m as [|r0 m0] eqn:Em; [apply Hempty|]. destruct ts as [|A ts].
      { pose proof (Hm r0 (or_introl eq_refl)) as Hr0. inversion Hr0; subst. exists []. split; [|split; [intros r []|split; [|split]]].
        + eapply conv_step; [intros n; reflexivity|]. apply conv_ret.
        + intros _ vs Hv. inversion Hv; subst. exists []. split; [left; reflexivity|constructor].
        + intros _ r [].
        + intros _ vs _ (r & [] & _). }
      rewrite <- Em in *. assert (Hne : m <> []) by (rewrite Em; discriminate).
      assert (Hr0 : exists p r, r0 = p :: r).
      { assert (Hr0 : row_type r0 (A :: ts)) by (apply Hm; rewrite Em; left; reflexivity). inversion Hr0; subst; eauto. }
      assert (Hstep : forall n, compute_missing (Datatypes.S n) m (List.length (A :: ts)) =
        if is_complete (collect_head_tags m) then
          concat_out (fun t => let* m := compute_missing n (specialize t m) (List.length (A :: ts) + arity t - 1) in restore_specialized t m) (collect_head_tags m) []
        else
          let* tails := compute_missing n (defaults m) (List.length ts) in
          Ret (flat_map (fun tail => map (fun head => head :: tail) (missing_heads (collect_head_tags m))) tails)).
      { intros n. cbn [compute_missing]. rewrite Em at 1. rewrite (assert_ok S m (A :: ts) _ Hm eq_refl Hne). destruct Hr0 as (p & r & ->). cbn [bind].
        destruct (is_complete (collect_head_tags m)); [reflexivity|]. cbn [List.length]. rewrite Nat.sub_succ, Nat.sub_0_r. reflexivity. }
      clear Em Hr0. destruct (is_complete (collect_head_tags m)) eqn:Hc.
      + destruct (head_tags_spec m) as (_ & Hin).
        set (P := fun t (M : matrix) => exists fs M0, tag_type S t A fs /\ missing_spec (specialize t m) M0 (fs ++ ts) /\
          Forall2 (fun r r' => exists ps r1, r = ps ++ r1 /\ row_type ps fs /\ row_type r1 ts /\ r' = PCon t ps :: r1) M0 M).
        destruct (concat_out_conv (fun n t => let* m := compute_missing n (specialize t m) (List.length (A :: ts) + arity t - 1) in restore_specialized t m) P (collect_head_tags m) []) as (Ms & Hcv & HF).
        { intros t Ht. apply Hin in Ht. destruct (head_tags_type S A ts m t Hm Ht) as (fs & Hty).
          destruct (IHa (ccm (specialize t m))) with (b := List.length (fs ++ ts)) (m := specialize t m) (ts := fs ++ ts) as (M0 & H1 & H2).
          - pose proof (ccm_specialize_lt t m Ht). lia.
          - lia.
          - lia.
          - eapply specialize_mat_type; eauto.
          - destruct (map_out_spec (restore_row t) (fun r r' => exists ps r1, r = ps ++ r1 /\ row_type ps fs /\ row_type r1 ts /\ r' = PCon t ps :: r1) M0) as (M & E & HM).
            { intros r Hr. destruct (restore_ok t A fs ts r Hty (proj1 H2 r Hr)) as (ps & r' & E1 & E2 & E3 & E4). eauto 9. }
            exists M. split; [|exists fs, M0; auto].
            replace (List.length (A :: ts) + arity t - 1)%nat with (List.length (fs ++ ts))
              by (rewrite app_length, (tag_arity S t A fs Hty); cbn [List.length]; lia).
            eapply (conv_bind (fun n => compute_missing n (specialize t m) (List.length (fs ++ ts)))); [exact H1|]. unfold restore_specialized. rewrite E. apply conv_ret. }
        cbn [app] in Hcv. exists (List.concat Ms). split; [eapply conv_step; [exact Hstep|exact Hcv]|]. split; [|split; [|split]].
        * intros r Hr. apply in_concat in Hr. destruct Hr as (M & HM & Hr). destruct (F2_in_r _ _ _ M HF HM) as (t & Ht & fs & M0 & Hty & Hms & HF2).
          destruct (F2_in_r _ _ _ r HF2 Hr) as (r0' & _ & ps & r1 & _ & E2 & E3 & ->). constructor; [apply pat_type_con; eauto|exact E3].
        * intros Enil vs Hv. inversion Hv as [|v A' vs' ts' Hv1 Hv2]; subst. destruct (value_tag S v A Hv1) as (t & fs & args & Ht & Hh & Hargs).
          pose proof (complete_spec S A ts m Hm Hc t fs Ht) as Hhd. apply Hin in Hhd. destruct (F2_in_l _ _ _ t HF Hhd) as (M & HM & fs' & M0 & Hty & Hms & HF2).
          assert (M = []) by (destruct M as [|x M]; [reflexivity|]; exfalso; assert (In x (List.concat Ms)) as HX by (apply in_concat; exists (x :: M); split; [exact HM|left; reflexivity]); rewrite Enil in HX; destruct HX).
          subst M. inversion HF2; subst. rewrite (tag_type_fields S HD t A fs' fs Hty Ht) in *.
          apply (specialize_cov S HD t A fs ts m v args vs' Ht Hm Hh (F2_len _ _ _ Hargs)). apply (proj1 (proj2 Hms) eq_refl). apply Forall2_app; assumption.
        * intros HR r Hr. apply in_concat in Hr. destruct Hr as (M & HM & Hr). destruct (F2_in_r _ _ _ M HF HM) as (t & Ht & fs & M0 & Hty & Hms & HF2).
          destruct (F2_in_r _ _ _ r HF2 Hr) as (r0' & Hr0' & ps & r1 & -> & E2 & E3 & ->). apply (useful_specialize S HD t A fs ts m ps r1 Hty Hm E2).
          exact (proj1 (proj2 (proj2 Hms)) HR _ Hr0').
        * intros Hnc vs Hv (r & Hr & Hmr). apply in_concat in Hr. destruct Hr as (M & HM & Hr). destruct (F2_in_r _ _ _ M HF HM) as (t & Ht & fs & M0 & Hty & Hms & HF2).
          destruct (F2_in_r _ _ _ r HF2 Hr) as (r0' & Hr0' & ps & r1 & -> & E2 & E3 & ->).
          inversion Hmr as [|p v r' vs' Hm1 Hm2]; subst. inversion Hv as [|v' A' vs2 ts' Hv1 Hv2]; subst.
          apply (matches_con S t ps v A fs Hty (F2_len _ _ _ E2)) in Hm1. destruct Hm1 as (args & Hh & Hm1).
          apply (headed_type S HD t A fs v args Hty Hh) in Hv1.
          rewrite (specialize_cov S HD t A fs ts m v args vs' Hty Hm Hh (F2_len _ _ _ Hv1)).
          apply (proj2 (proj2 (proj2 Hms)) (nocm_specialize t m Hnc)); [apply Forall2_app; assumption|]. exists (ps ++ r1). split; [exact Hr0'|apply Forall2_app; assumption].
      + destruct (IHb (defaults m) ts) as (M & H1 & Hms).
        { pose proof (ccm_defaults m). lia. }
        { cbn in Hb. lia. }
        { eapply defaults_mat_type; eauto. }
        destruct (heads_spec S HD A ts m Hm Hc) as (Hhne & Hhs).
        exists (flat_map (fun tail => map (fun head => head :: tail) (missing_heads (collect_head_tags m))) M). split; [|split; [|split; [|split]]].
        * eapply conv_step; [exact Hstep|]. eapply (conv_bind (fun n => compute_missing n (defaults m) (List.length ts))); [exact H1|]. apply conv_ret.
        * intros r Hr. apply in_flat_map in Hr. destruct Hr as (tail & Htl & Hr). apply in_map_iff in Hr. destruct Hr as (h & <- & Hh).
          constructor; [apply (Hhs h Hh)|apply (proj1 Hms), Htl].
        * intros Enil vs Hv. inversion Hv as [|v A' vs' ts' Hv1 Hv2]; subst. apply defaults_cov. apply (proj1 (proj2 Hms)); [|exact Hv2].
          destruct M as [|tail M]; [reflexivity|]. exfalso. cbn [flat_map] in Enil. apply app_eq_nil in Enil. destruct Enil as (Enil & _). apply map_eq_nil in Enil. contradiction.
        * intros HR r Hr. apply in_flat_map in Hr. destruct Hr as (tail & Htl & Hr). apply in_map_iff in Hr. destruct Hr as (h & <- & Hh).
          destruct (proj2 (Hhs h Hh) HR) as (v & t & fs & args & Hv1 & Hmv & Ht & Hhd & Hnh). destruct (proj1 (proj2 (proj2 Hms)) HR tail Htl) as (vs & Hv & Hmr & Hn).
          exists (v :: vs). split; [constructor; assumption|]. split; [constructor; assumption|]. intros Hcov. apply Hn. eapply defaults_cov_inv; eauto.
        * intros Hnc vs Hv (r & Hr & Hmr). apply in_flat_map in Hr. destruct Hr as (tail & Htl & Hr). apply in_map_iff in Hr. destruct Hr as (h & <- & Hh).
          inversion Hmr as [|p v r' vs' Hm1 Hm2]; subst. inversion Hv as [|v' A' vs2 ts' Hv1 Hv2]; subst. intros Hcov.
          apply (proj2 (proj2 (proj2 Hms)) (nocm_defaults m Hnc) vs' Hv2); [exists tail; auto|].
          destruct (value_tag S v A Hv1) as (t & fs & args & Ht & Hhd & Hargs). eapply (defaults_cov_inv S HD A ts t fs m v args vs'); eauto.
          intros Hhi. destruct (head_tags_spec m) as (_ & Hin). apply Hin in Hhi. unfold missing_heads in Hh.
          destruct (collect_head_tags m) as [|t0 tags] eqn:Etags; [destruct Hhi|]. destruct t0 as [c|con sibs].
          { destruct (proj1 (Hin (Const c)) (or_introl eq_refl)) as (ps & r & Hir). specialize (Hnc _ Hir). inversion Hnc as [|x l Hx _]; subst. inversion Hx. }
          cbn [siblings] in Hh. apply in_map_iff in Hh. destruct Hh as (t' & <- & Ht'). apply filter_In in Ht'. destruct Ht' as (Ht'1 & Ht'2).
          destruct (head_tags_type S A ts m (Finite con sibs) Hm (proj1 (Hin _) (or_introl eq_refl))) as (fs0 & Hty0).
          destruct (siblings_type S con sibs A fs0 t' Hty0 Ht'1) as (fs' & Hty').
          apply (matches_con S t' _ v A fs' Hty') in Hm1; [|rewrite repeat_length; exact (tag_arity S t' A fs' Hty')].
          destruct Hm1 as (args' & Hhd' & _). destruct (headed_unique S HD t t' A fs fs' v args args' Ht Hty' Hhd Hhd') as (<- & _).
          apply contains_in in Hhi. rewrite Hhi in Ht'2. discriminate.
  Qed.

  (** * Incompatible patterns share no value *)
  Lemma incompatible_sound : forall p q A v, pat_type S p A -> pat_type S q A -> is_incompatible_with p q = true -> matches p v -> matches q v -> False.
  Proof.
    fix IH 1. intros [t ps|] [t' qs|] A v Hp Hq; cbn [is_incompatible_with]; try discriminate.
    apply pat_type_con in Hp, Hq. destruct Hp as (fs & Ht & Hps), Hq as (fs' & Ht' & Hqs). intros Hi Hm Hm'.
    apply (matches_con S t ps v A fs Ht (F2_len _ _ _ Hps)) in Hm. apply (matches_con S t' qs v A fs' Ht' (F2_len _ _ _ Hqs)) in Hm'.
    destruct Hm as (args & Hh & Hm), Hm' as (args' & Hh' & Hm'). destruct (headed_unique S HD t t' A fs fs' v args args' Ht Ht' Hh Hh') as (<- & <-).
    replace (tag_eqb t t) with true in Hi by (symmetry; apply tag_eqb_eq; reflexivity). cbn [negb orb] in Hi.
    rewrite <- (tag_type_fields S HD t A fs fs' Ht Ht') in Hqs. clear Ht Ht' Hh Hh' fs' v t A.
    revert qs fs args Hps Hqs Hi Hm Hm'. induction ps as [|p ps IHps]; intros [|q qs] fs args Hps Hqs Hi Hm Hm'; try discriminate.
    inversion Hps; subst. inversion Hqs; subst. inversion Hm; subst. inversion Hm'; subst. apply orb_true_iff in Hi. destruct Hi as [Hi|Hi].
    - refine (IH p q _ _ _ _ Hi _ _); eassumption.
    - eapply IHps; eauto.
  Qed.

  Lemma row_incompatible_sound p ts : row_type p ts -> forall q vs, row_type q ts -> row_incompatible p q = true -> rmatches p vs -> rmatches q vs -> False.
  Proof.
    induction 1 as [|x A p ts Hx Hp IH]; intros q vs Hq Hi Hm Hm'; [destruct q; discriminate|]. inversion Hq; subst. inversion Hm; subst. inversion Hm'; subst.
    cbn in Hi. apply orb_true_iff in Hi. destruct Hi as [Hi|Hi]; [|eapply IH; eauto].
    match goal with H1 : pat_type S ?y A, H2 : matches x ?v |- _ => refine (incompatible_sound x y A v _ _ Hi _ _); eassumption end.
  Qed.

  (** * The whole check *)
  Definition same_cov (m m' : matrix) (ts : list T) : Prop := forall vs, vals vs ts -> (mcov m vs <-> mcov m' vs).

  Lemma usefulness_conv m r ts : mat_type m ts -> row_type r ts ->
    exists u, conv (fun n => compute_usefulness n m r) u /\ (u = false -> ~ useful m r ts) /\ (u = true -> rich -> useful m r ts).
  Proof. intros H1 H2. apply (usefulness_ok S HD (ccm m + ccr r) (List.length r)); auto. Qed.

  Lemma matches_dec : forall p v, {matches p v} + {~ matches p v}.
  Proof.
    fix IH 1. intros [t ps|] v; [|left; constructor]. destruct t as [c|con sibs], v as [c' args|c']; try (right; intros H; inversion H; fail).
    - destruct ps as [|p ps]; [|right; intros H; inversion H]. destruct (N.eq_dec c c') as [->|Hn]; [left; constructor|right; intros H; inversion H; congruence].
    - destruct (N.eq_dec (use_ con) c') as [<-|Hn]; [|right; intros H; inversion H; congruence].
      assert (Hd : forall args, {rmatches ps args} + {~ rmatches ps args}).
      { clear args. induction ps as [|p ps IHps]; intros [|a args]; try (right; intros H; inversion H; fail); [left; constructor|].
        destruct (IH p a) as [H1|H1]; [|right; intros H; inversion H; contradiction].
        destruct (IHps args) as [H2|H2]; [left; constructor; assumption|right; intros H; inversion H; contradiction]. }
      destruct (Hd args) as [H|H]; [left; constructor; exact H|right; intros H'; inversion H'; contradiction].
  Qed.

  Lemma rmatches_dec r : forall vs, {rmatches r vs} + {~ rmatches r vs}.
  Proof.
    induction r as [|p ps IHps]; intros [|a args]; try (right; intros H; inversion H; fail); [left; constructor|].
    destruct (matches_dec p a) as [H1|H1]; [|right; intros H; inversion H; contradiction].
    destruct (IHps args) as [H2|H2]; [left; constructor; assumption|right; intros H; inversion H; contradiction].
  Qed.

  Lemma mcov_dec m vs : {mcov m vs} + {~ mcov m vs}.
  Proof.
    induction m as [|r m IH]; [right; intros (r & [] & _)|]. destruct (rmatches_dec r vs) as [H|H]; [left; exists r; cbn; auto|].
    destruct IH as [H2|H2]; [left; destruct H2 as (r' & H1 & H2); exists r'; cbn; auto|].
    right. intros (r' & [<-|H1] & H3); [contradiction|]. apply H2. exists r'. auto.
  Qed.

  Lemma not_useful m r ts : ~ useful m r ts -> forall vs, vals vs ts -> rmatches r vs -> mcov m vs.
  Proof. intros H vs Hv Hr. destruct (mcov_dec m vs) as [Hc|Hc]; [exact Hc|]. exfalso. apply H. exists vs. auto. Qed.

  Lemma useful_same m m' r ts : same_cov m m' ts -> useful m r ts -> useful m' r ts.
  Proof. intros He (vs & H1 & H2 & H3). exists vs. split; [exact H1|]. split; [exact H2|]. rewrite <- (He vs H1). exact H3. Qed.

  Lemma useless_check_ok m r ts : mat_type m ts -> row_type r ts ->
    exists o, conv (fun n => useless_check n m r) o /\
      match o with
      | Some m' => mat_type m' ts /\ m' <> [] /\ same_cov m' (m ++ [r]) ts /\ (rich -> useful m r ts) /\ (forall x, In x m' -> In x m \/ x = r)
      | None => forall vs, vals vs ts -> rmatches r vs -> mcov m vs
      end.
  Proof.
    intros Hm Hr. unfold useless_check. set (related := filter (fun r' => negb (row_incompatible r' r)) m).
    assert (Hrel : mat_type related ts) by (intros x Hx; apply filter_In in Hx; apply Hm, Hx).
    assert (Hcov : forall vs, rmatches r vs -> (mcov related vs <-> mcov m vs)).
    { intros vs Hv. split; intros (x & Hx & Hmx).
      - apply filter_In in Hx. exists x. split; [apply Hx|exact Hmx].
      - exists x. split; [|exact Hmx]. apply filter_In. split; [exact Hx|]. destruct (row_incompatible x r) eqn:E; [|reflexivity]. exfalso.
        eapply (row_incompatible_sound x ts (Hm x Hx) r vs); eauto. }
    destruct (usefulness_conv related r ts Hrel Hr) as (u & Hu & Hf & Ht). destruct u.
    - set (P := fun (x : row) (b : bool) => b = false -> forall vs, vals vs ts -> rmatches x vs -> rmatches r vs).
      destruct (filter_out_conv (fun n x => compute_usefulness n [r] x) P m) as (m' & Hc & Hincl & Hx).
      { intros x Hx. destruct (usefulness_conv [r] x ts) as (b & Hb & Hbf & _); [intros y [<-|[]]; exact Hr|apply Hm, Hx|]. exists b. split; [exact Hb|].
        intros E vs Hv Hmx. destruct (not_useful [r] x ts (Hbf E) vs Hv Hmx) as (y & [<-|[]] & Hy). exact Hy. }
      exists (Some (m' ++ [r])). split; [|split; [|split; [|split; [|split]]]].
      + eapply (conv_bind (fun n => compute_usefulness n related r)); [exact Hu|]. cbn beta iota.
        eapply (conv_bind (fun n => filter_out (fun x => compute_usefulness n [r] x) m)); [exact Hc|]. apply conv_ret.
      + intros x Hx'. apply in_app_iff in Hx'. destruct Hx' as [Hx'|[<-|[]]]; [apply Hm, Hincl, Hx'|exact Hr].
      + intros E. apply app_eq_nil in E. destruct E. discriminate.
      + intros vs Hv. split; intros (x & Hx' & Hmx); apply in_app_iff in Hx'; destruct Hx' as [Hx'|[<-|[]]].
        * exists x. split; [apply in_app_iff; left; apply Hincl, Hx'|exact Hmx].
        * exists r. split; [apply in_app_iff; right; left; reflexivity|exact Hmx].
        * destruct (Hx x Hx') as [H1|H1]; [exists x; split; [apply in_app_iff; auto|exact Hmx]|].
          exists r. split; [apply in_app_iff; right; left; reflexivity|]. exact (H1 eq_refl vs Hv Hmx).
        * exists r. split; [apply in_app_iff; right; left; reflexivity|exact Hmx].
      + intros HR. destruct (Ht eq_refl HR) as (vs & H1 & H2 & H3). exists vs. split; [exact H1|]. split; [exact H2|]. rewrite <- (Hcov vs H2). exact H3.
      + intros x Hx'. apply in_app_iff in Hx'. destruct Hx' as [Hx'|[<-|[]]]; [left; apply Hincl, Hx'|right; reflexivity].
    - exists None. split; [eapply (conv_bind (fun n => compute_usefulness n related r)); [exact Hu|apply conv_ret]|].
      intros vs Hv Hmr. apply (Hcov vs Hmr). exact (not_useful related r ts (Hf eq_refl) vs Hv Hmr).
  Qed.

  Definition all_useful_rows (rows : list row) (ts : list T) : Prop :=
    forall pre r post, rows = pre ++ r :: post -> useful pre r ts.

  Lemma check_loop_ok rows : forall m pre ts, mat_type m ts -> same_cov m pre ts -> (m = [] <-> pre = []) -> incl m pre -> Forall (fun r => row_type r ts) rows ->
    (pre = [] -> rows <> []) -> (rich -> all_useful_rows pre ts) ->
    exists o, conv (fun n => check_loop n m rows) o /\
      match o with
      | CheckOk => (forall vs, vals vs ts -> mcov (pre ++ rows) vs) /\ (rich -> all_useful_rows (pre ++ rows) ts)
      | Useless r => exists a b, rows = a ++ r :: b /\ (forall vs, vals vs ts -> rmatches r vs -> mcov (pre ++ a) vs) /\ (rich -> all_useful_rows (pre ++ a) ts)
      | NonExhaustive M => M <> [] /\ missing_spec (pre ++ rows) M ts /\ (rich -> all_useful_rows (pre ++ rows) ts)
      end.
  Proof.
    induction rows as [|r rows IH]; intros m pre ts Hm Hsc Hnil Hincl Hrows Hne Hu.
    - rewrite app_nil_r. assert (Hm0 : m <> []) by (intros E; apply (Hne (proj1 Hnil E)); reflexivity).
      assert (Hlen : match m with [] => 0%nat | r :: _ => List.length r end = List.length ts).
      { destruct m as [|r m]; [contradiction|]. exact (F2_len _ _ _ (Hm r (or_introl eq_refl))). }
      destruct (missing_ok (ccm m) (List.length ts) m ts (le_n _) (le_n _) Hm) as (M & Hc & H1 & H2 & H3 & H4).
      exists (match M with [] => CheckOk | _ => NonExhaustive M end). split.
      + cbn [check_loop]. unfold exhaustiveness_check. rewrite Hlen.
        eapply (conv_bind (fun n => compute_missing n m (List.length ts))); [exact Hc|]. apply conv_ret.
      + destruct M as [|r0 M0] eqn:EM.
        * split; [|exact Hu]. intros vs Hv. apply (Hsc vs Hv). exact (H2 eq_refl vs Hv).
        * rewrite <- EM in *. split; [rewrite EM; discriminate|]. split; [|exact Hu]. split; [exact H1|]. split; [rewrite EM; discriminate|]. split.
          -- intros HR r Hr. eapply useful_same; [exact Hsc|]. exact (H3 HR r Hr).
          -- intros Hnc vs Hv Hcov. rewrite <- (Hsc vs Hv). apply H4; [intros x Hx; apply Hnc, Hincl, Hx|exact Hv|exact Hcov].
    - inversion_clear Hrows as [|x l Hr Hrs]. destruct (useless_check_ok m r ts Hm Hr) as (o & Hc & Ho). destruct o as [m'|].
      + destruct Ho as (Hm' & Hne' & Hsc' & Hus & Hin').
        destruct (IH m' (pre ++ [r]) ts) as (o & Hco & Ho).
        * exact Hm'.
        * intros vs Hv. rewrite (Hsc' vs Hv). unfold mcov. split; intros (x & Hx & Hmx); apply in_app_iff in Hx; destruct Hx as [Hx|Hx].
          -- destruct (proj1 (Hsc vs Hv)) as (y & Hy & Hmy); [exists x; auto|]. exists y. split; [apply in_app_iff; auto|exact Hmy].
          -- exists x. split; [apply in_app_iff; auto|exact Hmx].
          -- destruct (proj2 (Hsc vs Hv)) as (y & Hy & Hmy); [exists x; auto|]. exists y. split; [apply in_app_iff; auto|exact Hmy].
          -- exists x. split; [apply in_app_iff; auto|exact Hmx].
        * split; [contradiction|]. intros E. apply app_eq_nil in E. destruct E. discriminate.
        * intros x Hx. apply in_app_iff. destruct (Hin' x Hx) as [Hx'|Hx']; [left; apply Hincl, Hx'|right; left; auto].
        * exact Hrs.
        * intros E. apply app_eq_nil in E. destruct E. discriminate.
        * intros HR a x b E. destruct b as [|y b] using rev_ind.
          -- apply app_inj_tail in E. destruct E as (-> & ->). eapply useful_same; [exact Hsc|]. exact (Hus HR).
          -- rewrite app_comm_cons, app_assoc in E. apply app_inj_tail in E. destruct E as (-> & _). exact (Hu HR a x b eq_refl).
        * exists o. split; [cbn [check_loop]; eapply (conv_bind (fun n => useless_check n m r)); [exact Hc|exact Hco]|].
          destruct o as [|x|M].
          -- rewrite <- app_assoc in Ho. exact Ho.
          -- destruct Ho as (a & b & -> & H1 & H2). exists (r :: a), b. split; [reflexivity|]. rewrite <- app_assoc in H1, H2. split; assumption.
          -- rewrite <- app_assoc in Ho. exact Ho.
      + exists (Useless r). split; [cbn [check_loop]; eapply (conv_bind (fun n => useless_check n m r)); [exact Hc|apply conv_ret]|].
        exists [], rows. split; [reflexivity|]. rewrite app_nil_r. split; [|exact Hu]. intros vs Hv Hmr. apply (Hsc vs Hv). exact (Ho vs Hv Hmr).
  Qed.

  (** * One column *)
  Lemma single_cov l v : mcov (map (fun p => [p]) l) [v] <-> covered l v.
  Proof.
    split.
    - intros (r & Hr & Hm). apply in_map_iff in Hr. destruct Hr as (p & <- & Hp). inversion Hm; subst. exists p. auto.
    - intros (p & Hp & Hm). exists [p]. split; [apply (in_map (fun p => [p])), Hp|]. constructor; [exact Hm|constructor].
  Qed.

  Lemma single_useful l t : all_useful_rows (map (fun p => [p]) l) [t] -> all_useful S t l.
  Proof.
    intros H pre p post ->. destruct (H (map (fun p => [p]) pre) [p] (map (fun p => [p]) post)) as (vs & Hv & Hm & Hn); [rewrite map_app; reflexivity|].
    inversion Hv as [|v A vs' ts' H1 H2]; subst. inversion H2; subst. inversion Hm; subst. exists v. split; [exact H1|]. split; [assumption|].
    rewrite <- single_cov. exact Hn.
  Qed.

  Lemma map_single_split (l : list pattern) a r b : map (fun p => [p]) l = a ++ r :: b ->
    exists a' p b', l = a' ++ p :: b' /\ a = map (fun p => [p]) a' /\ r = [p] /\ b = map (fun p => [p]) b'.
  Proof.
    intros E. apply map_eq_app in E. destruct E as (a' & l' & -> & <- & E2). destruct l' as [|p b']; [discriminate|]. cbn in E2. injection E2 as <- <-.
    exists a', p, b'. auto.
  Qed.

  Lemma validate_ok t clauses : Forall (fun p => pat_type S p t) clauses ->
    exists r, conv (fun n => validate_match n clauses) r /\
    match r with
    | MatchOk => (forall v, has_type S v t -> covered clauses v) /\ (rich -> all_useful S t clauses)
    | UselessPattern p => exists pre post, clauses = pre ++ p :: post /\
        (forall v, has_type S v t -> matches p v -> covered pre v) /\ (rich -> all_useful S t pre)
    | NonExhaustivePattern ps => ps <> [] /\ Forall (fun p => pat_type S p t) ps /\
        (rich -> all_useful S t clauses /\ forall p, In p ps -> exists v, has_type S v t /\ matches p v /\ ~ covered clauses v) /\
        (Forall no_consts clauses -> forall v, has_type S v t -> covered ps v -> ~ covered clauses v)
    end.
  Proof.
    intros Hty. destruct clauses as [|p0 cl] eqn:Ecl.
    { exists (NonExhaustivePattern [PWild]). split; [apply conv_ret|]. split; [discriminate|]. split; [constructor; [constructor|constructor]|]. split.
      - intros (HI & _). split; [intros [|x pre] p post E; discriminate|]. intros p [<-|[]]. destruct (HI t) as (v & Hv). exists v. split; [exact Hv|]. split; [constructor|intros (p & [] & _)].
      - intros _ v _ _ (p & [] & _). }
    rewrite <- Ecl in *. assert (Hne : clauses <> []) by (rewrite Ecl; discriminate).
    destruct (check_loop_ok (map (fun p => [p]) clauses) [] [] [t]) as (o & Hc & Ho).
    - intros r [].
    - intros vs _. reflexivity.
    - tauto.
    - apply incl_refl.
    - apply Forall_forall. intros r Hr. apply in_map_iff in Hr. destruct Hr as (p & <- & Hp). rewrite Forall_forall in Hty. constructor; [apply Hty, Hp|constructor].
    - intros _ E. apply map_eq_nil in E. contradiction.
    - intros _ [|x pre] r post E; discriminate.
    - assert (Hwrap : forall r body, (forall n : nat, body n = Ret r) -> conv (fun n => let* r := check n (map (fun p => [p]) clauses) in
          match r with
          | CheckOk => Ret MatchOk
          | Useless r => let* p := take_head r in Ret (UselessPattern p)
          | NonExhaustive m => let* ps := map_out take_head m in Ret (NonExhaustivePattern ps)
          end) r -> conv (fun n => validate_match n clauses) r).
      { intros r body _ H. eapply conv_ext; [|exact H]. intros n. unfold validate_match. rewrite Ecl. reflexivity. }
      assert (Hbind : forall r, match o with
          | CheckOk => Ret MatchOk
          | Useless r => let* p := take_head r in Ret (UselessPattern p)
          | NonExhaustive m => let* ps := map_out take_head m in Ret (NonExhaustivePattern ps)
          end = Ret r -> conv (fun n => validate_match n clauses) r).
      { intros r E. apply (Hwrap r (fun _ => Ret r)); [reflexivity|]. eapply (conv_bind (fun n => check n (map (fun p => [p]) clauses))); [exact Hc|]. rewrite E. apply conv_ret. }
      clear Hwrap. cbn [app] in Ho. destruct o as [|r|M].
      + exists MatchOk. split; [apply Hbind; reflexivity|]. destruct Ho as (H1 & H2). split.
        * intros v Hv. apply single_cov, H1. constructor; [exact Hv|constructor].
        * intros HR. apply single_useful, H2, HR.
      + destruct Ho as (a & b & E & H1 & H2). apply map_single_split in E. destruct E as (a' & p & b' & -> & -> & -> & ->).
        exists (UselessPattern p). split; [apply Hbind; reflexivity|]. exists a', b'. split; [reflexivity|]. split.
        * intros v Hv Hm. apply single_cov, H1; constructor; auto.
        * intros HR. apply single_useful, H2, HR.
      + destruct Ho as (HMne & (H1 & _ & H3 & H4) & H5).
        destruct (map_out_spec take_head (fun r p => r = [p]) M) as (ps & Eps & HF).
        { intros r Hr. specialize (H1 r Hr). inversion H1 as [|p A r' ts' Hp Hr']; subst. inversion Hr'; subst. exists p. auto. }
        exists (NonExhaustivePattern ps). split; [apply Hbind; rewrite Eps; reflexivity|]. split; [intros ->; inversion HF; subst; contradiction|].
        assert (HMp : forall p, In p ps -> In [p] M) by (intros p Hp; destruct (F2_in_r _ _ _ p HF Hp) as (r & Hr & ->); exact Hr).
        split; [|split].
        * apply Forall_forall. intros p Hp. specialize (H1 [p] (HMp p Hp)). inversion H1; subst. assumption.
        * intros HR. split; [apply single_useful, H5, HR|]. intros p Hp. destruct (H3 HR [p] (HMp p Hp)) as (vs & Hv & Hm & Hn).
          inversion Hv as [|v A vs' ts' Hv1 Hv2]; subst. inversion Hv2; subst. inversion Hm; subst. exists v. split; [exact Hv1|]. split; [assumption|]. rewrite <- single_cov. exact Hn.
        * intros Hnc v Hv (p & Hp & Hm) Hcov. apply (H4) with (vs := [v]).
          -- intros r Hr. apply in_map_iff in Hr. destruct Hr as (q & <- & Hq). rewrite Forall_forall in Hnc. constructor; [apply Hnc, Hq|constructor].
          -- constructor; [exact Hv|constructor].
          -- exists [p]. split; [apply HMp, Hp|constructor; [exact Hm|constructor]].
          -- apply single_cov, Hcov.
  Qed.
End Typed.
