(** * What is true of expressions on the way *)
From Verif.Base Require Import Base.
From Verif.Ir Require Import Model.
From Verif.Closure Require Import Model Spec Rel ProofsSim ProofsScope.

Lemma NoDup_app_inv : forall {A} (a b : list A), NoDup (a ++ b) -> NoDup a /\ NoDup b /\ (forall x, In x a -> ~ In x b).
Proof.
  intros A a b. induction a as [|x a IH]; intro H; [repeat split; [constructor|exact H|intros ? []]|]. cbn in H. inversion H as [|? ? N H']; subst.
  destruct (IH H') as (Ha & Hb & Hd). split; [constructor; [|exact Ha]|split; [exact Hb|]].
  - intro I. apply N, in_or_app. auto.
  - intros y [<-|I] J; [apply N, in_or_app; auto|exact (Hd y I J)].
Qed.

Lemma NoDup_app_intro : forall {A} (a b : list A), NoDup a -> NoDup b -> (forall x, In x a -> ~ In x b) -> NoDup (a ++ b).
Proof.
  intros A a b Ha Hb Hd. induction Ha as [|x a N Ha IH]; [exact Hb|]. cbn. constructor.
  - intro I. apply in_app_or in I as [I|I]; [exact (N I)|]. exact (Hd x (or_introl eq_refl) I).
  - apply IH. intros y I. apply Hd. right. exact I.
Qed.

Lemma NoDup_flat_in : forall {A B} (f : A -> list B) l a, NoDup (flat_map f l) -> In a l -> NoDup (f a).
Proof.
  intros A B f l a. induction l as [|b l IH]; intros H I; [destruct I|]. cbn in H. apply NoDup_app_inv in H as (H1 & H2 & _). destruct I as [<-|I]; auto.
Qed.

(** ** The invariant *)
Record ok (N n : nat) (m : sub) (vs fs : list nat) (x : expr) : Prop := Ok {
  ok_scoped : scoped vs fs x;
  ok_nodup : NoDup (defs x);
  ok_defs : forall d, In d (defs x) -> fresh m vs fs d /\ sf m d = None /\ (d < N)%nat;
  ok_vars : forall u, In u vs -> (sv m u < n)%nat;
  ok_funs : forall f, In f fs -> exists g e, sf m f = Some (g, e) /\ (forall i, e = Some i -> i < n)%nat;
  ok_next : (N <= n)%nat }.

Lemma fresh_under : forall m vs fs B d, fresh m vs fs d -> Forall (fresh m vs fs) B -> ~ In d B -> fresh m (B ++ vs) fs d.
Proof.
  intros m vs fs B d (H1 & H2 & H3 & H4) HB N. split; [exact H1|]. split; [exact H2|]. split; [|exact H4].
  intros u I. apply in_app_or in I as [I|I]; [|apply H3, I]. rewrite Forall_forall in HB. destruct (HB u I) as [-> _]. intros ->. contradiction.
Qed.

Lemma ok_under : forall N n m vs fs X B x n', ok N n m vs fs X -> scoped (B ++ vs) fs x -> NoDup (B ++ defs x) -> incl (B ++ defs x) (defs X) -> (n <= n')%nat ->
  ok N n' m (B ++ vs) fs x /\ Forall (fresh m vs fs) B.
Proof.
  intros N n m vs fs X B x n' [SC ND HD HV HF HN] SC' ND' ID L.
  assert (FB : Forall (fresh m vs fs) B) by (apply Forall_forall; intros d I; apply HD, ID, in_or_app; auto).
  apply NoDup_app_inv in ND' as (NB & NX & DJ).
  split; [|exact FB]. constructor; auto.
  - intros d I. destruct (HD d) as (F & S0 & LN); [apply ID, in_or_app; auto|]. split; [|auto]. apply fresh_under; auto. intro J. exact (DJ d J I).
  - intros u I. apply in_app_or in I as [I|I]; [|specialize (HV u I); lia]. rewrite Forall_forall in FB. destruct (FB u I) as [-> _].
    destruct (HD u) as (_ & _ & LN); [apply ID, in_or_app; auto|]. lia.
  - intros f I. destruct (HF f I) as (g & e & E & K). exists g, e. split; [exact E|]. intros i EI. specialize (K i EI). lia.
  - lia.
Qed.

Lemma ok_sub : forall N n m vs fs X x n', ok N n m vs fs X -> scoped vs fs x -> NoDup (defs x) -> incl (defs x) (defs X) -> (n <= n')%nat -> ok N n' m vs fs x.
Proof. intros N n m vs fs X x n' H SC ND I L. apply (ok_under N n m vs fs X [] x n' H SC ND I L). Qed.

(** ** Captured variables *)
Lemma in_insert : forall x y l, In x (insert y l) <-> x = y \/ In x l.
Proof.
  assert (Y : forall a b : nat, a = b <-> b = a) by (intros; split; congruence).
  intros x y l. induction l as [|z l IH]; cbn [insert In]; [rewrite (Y y x); tauto|].
  destruct (y <? z)%nat; [cbn [In]; rewrite (Y y x); tauto|]. destruct (Nat.eqb_spec y z) as [->|N]; cbn [In]; [rewrite (Y z x); tauto|]. rewrite IH. tauto.
Qed.

Lemma in_captured : forall l t, In t (captured_vars l) <->
  In t (flat_map (fun f => uses (snd f)) l) /\ ~ In t (flat_map (fun f => map fst (snd (fst (fst f))) ++ fst (fst (fst f)) :: defs (snd f)) l).
Proof.
  intros l t. unfold captured_vars. set (us := flat_map (fun f => uses (snd f)) l). set (ds := flat_map (fun f => map fst (snd (fst (fst f))) ++ fst (fst (fst f)) :: defs (snd f)) l).
  assert (E : forall k, In t (fold_right insert [] k) <-> In t k).
  { induction k as [|a k IH]; [reflexivity|]. cbn. rewrite in_insert, IH. split; intros [Q|Q]; auto. }
  rewrite E, filter_In. split; intros [H1 H2]; split; auto.
  - intro I. unfold mem in H2. apply negb_true_iff in H2. assert (X : existsb (Nat.eqb t) ds = true) by (apply existsb_exists; exists t; split; [exact I|apply Nat.eqb_refl]). congruence.
  - unfold mem. apply negb_true_iff. destruct (existsb (Nat.eqb t) ds) eqn:X; [|reflexivity]. apply existsb_exists in X as (d & I & Q). apply Nat.eqb_eq in Q. subst d. contradiction.
Qed.

Definition app_fun (m : sub) (f : nat * list param * ct * expr) : nat * list param * ct * expr := (fst f, app m (snd f)).
Definition fun_defs (f : nat * list param * ct * expr) : list nat := map fst (fparams f) ++ fid f :: defs (snd f).

Definition vars_of (m : sub) (l : list (nat * list param * ct * expr)) : list nat := captured_vars (map (app_fun m) l).

Lemma in_vars_of : forall m l t, In t (vars_of m l) <-> (exists f, In f l /\ In t (uses (app m (snd f)))) /\ ~ In t (flat_map fun_defs l).
Proof.
  intros m l t. unfold vars_of. rewrite in_captured.
  assert (E1 : In t (flat_map (fun f => uses (snd f)) (map (app_fun m) l)) <-> exists f, In f l /\ In t (uses (app m (snd f)))).
  { rewrite in_flat_map. split.
    - intros (y & I & U). apply in_map_iff in I as (f & <- & I). exists f. auto.
    - intros (f & I & U). exists (app_fun m f). split; [apply in_map, I|exact U]. }
  assert (E2 : flat_map (fun f => map fst (snd (fst (fst f))) ++ fst (fst (fst f)) :: defs (snd f)) (map (app_fun m) l) = flat_map fun_defs l).
  { rewrite !flat_map_concat_map, map_map. f_equal. apply map_ext. intro f. unfold fun_defs, fparams, fid, app_fun. cbn. rewrite defs_app. reflexivity. }
  rewrite E1, E2. reflexivity.
Qed.

Definition in_fun_env (m : sub) (vs : list nat) (f : nat) : bool :=
  match sf m f with Some (_, Some e) => mem e vs | _ => true end.
Definition capture_of (m : sub) (vs fs : list nat) (n k : nat) (tys : list ct) (l : list (nat * list param * ct * expr)) : capture :=
  let vars := vars_of m l in
  Capture (combine (map fid l) (List.seq k (List.length l))) vars (List.seq n (List.length vars)) tys
    (match vars with [] => None | _ => Some (n + List.length vars)%nat end)
    (filter (fun u => mem (sv m u) vars) vs) (filter (in_fun_env m vars) fs).
Definition next_of (n : nat) (vars : list nat) : nat := match vars with [] => n | _ => S (n + List.length vars) end.

Lemma mem_in : forall x l, mem x l = true <-> In x l.
Proof.
  intros x l. unfold mem. rewrite existsb_exists. split; [intros (y & I & E); apply Nat.eqb_eq in E; subst; exact I|]. intro I. exists x. split; [exact I|apply Nat.eqb_refl].
Qed.

Lemma renamed_in : forall vs ns t, List.length vs = List.length ns -> In t vs -> In (renamed vs ns t) ns.
Proof.
  unfold renamed. induction vs as [|v vs IH]; intros [|n ns] t L I; cbn in *; try lia; try contradiction. destruct (Nat.eqb_spec t v) as [->|N]; [left; reflexivity|].
  right. apply IH; [lia|]. destruct I; [congruence|assumption].
Qed.
Lemma renamed_out : forall vs ns t, ~ In t vs -> renamed vs ns t = t.
Proof.
  unfold renamed. intros vs ns t N. rewrite assoc_none; [reflexivity|]. intro I. apply N. clear N. revert ns I. induction vs as [|v vs IH]; intros [|n ns] I; cbn in *; try contradiction.
  destruct I as [I|I]; [auto|right; eapply IH, I].
Qed.

Section Group.
Variables (N n k : nat) (m : sub) (vs fs : list nat) (l : list (nat * list param * ct * expr)) (b : expr) (tys0 : list ct).
Hypothesis HO : ok N n m vs fs (ELetLocal l b).
Hypothesis HT : List.length (vars_of m l) = List.length tys0.
Let c := capture_of m vs fs n k tys0 l.

Lemma ids_in_defs : forall f, In f l -> In (fid f) (flat_map fun_defs l).
Proof. intros f I. apply in_flat_map. exists f. split; [exact I|]. apply in_or_app. right. left. reflexivity. Qed.

Lemma group_defs : forall d, In d (flat_map fun_defs l) -> In d (defs (ELetLocal l b)).
Proof. intros d I. cbn. apply in_or_app. left. exact I. Qed.

Lemma fresh_not_in_vars : forall d, fresh m vs fs d -> ~ In d (vars_of m l) \/ In d (flat_map fun_defs l).
Proof.
  intros d (H1 & H2 & H3 & H4). destruct (in_dec Nat.eq_dec d (flat_map fun_defs l)) as [J|J]; [right; exact J|]. left. intro I.
  apply in_vars_of in I as ((f & If & U) & _). destruct HO as [SC ND HD HV HF HN]. inversion SC as [| | | | | | | | | | | | |? ? ? ? SF SB|]; subst.
  rewrite Forall_forall in SF. specialize (SF f If).
  apply uses_app with (vs := map fst (snd (fst (fst f))) ++ vs) (fs := map fid l ++ fs) in U; [|exact SF|].
  2:{ intros z Z. destruct (HD z) as (F & S0 & _); [cbn; apply in_or_app; left; apply (in_flat _ l f z If); apply in_or_app; right; right; exact Z|]. split; [exact (proj1 F)|exact S0]. }
  destruct U as [(u & Iu & E)|[(g & h & Ig & E)|[[Ig E]|Id]]].
  - apply in_app_or in Iu as [Iu|Iu].
    + destruct (HD u) as (F & _); [cbn; apply in_or_app; left; apply (in_flat _ l f u If); apply in_or_app; left; exact Iu|]. rewrite (proj1 F) in E. subst u. apply J, (in_flat _ l f d If). apply in_or_app. left. exact Iu.
    + exact (H3 u Iu (eq_sym E)).
  - apply in_app_or in Ig as [Ig|Ig]; [|exact (H4 g h d Ig E eq_refl)]. apply in_map_iff in Ig as (f' & <- & If'). 
    destruct (HD (fid f')) as (_ & S0 & _); [apply group_defs, ids_in_defs, If'|]. congruence.
  - apply in_app_or in Ig as [Ig|Ig]; [|exact (H2 Ig)]. apply in_map_iff in Ig as (f' & <- & If'). apply J, ids_in_defs, If'.
  - apply J, (in_flat _ l f d If). apply in_or_app. right. right. exact Id.
Qed.

Lemma defs_not_captured : forall d, In d (defs (ELetLocal l b)) -> ~ In d (vars_of m l).
Proof.
  intros d I J. destruct (ok_defs _ _ _ _ _ _ HO d I) as (F & _). destruct (fresh_not_in_vars d F) as [K|K]; [exact (K J)|].
  apply in_vars_of in J as [_ J]. exact (J K).
Qed.

Lemma vars_sources : forall t, In t (vars_of m l) -> (exists u, In u vs /\ t = sv m u) \/ (exists f g, In f fs /\ sf m f = Some (g, Some t)).
Proof.
  intros t I. apply in_vars_of in I as ((f & If & U) & J). destruct HO as [SC ND HD HV HF HN]. inversion SC as [| | | | | | | | | | | | |? ? ? ? SF SB|]; subst.
  rewrite Forall_forall in SF. specialize (SF f If).
  apply uses_app with (vs := map fst (snd (fst (fst f))) ++ vs) (fs := map fid l ++ fs) in U; [|exact SF|].
  2:{ intros z Z. destruct (HD z) as (F & S0 & _); [cbn; apply in_or_app; left; apply (in_flat _ l f z If); apply in_or_app; right; right; exact Z|]. split; [exact (proj1 F)|exact S0]. }
  destruct U as [(u & Iu & E)|[(g & h & Ig & E)|[[Ig E]|Id]]].
  - apply in_app_or in Iu as [Iu|Iu]; [|left; eauto]. exfalso. 
    destruct (HD u) as (F & _); [cbn; apply in_or_app; left; apply (in_flat _ l f u If); apply in_or_app; left; exact Iu|]. rewrite (proj1 F) in E. subst u. apply J, (in_flat _ l f t If). apply in_or_app. left. exact Iu.
  - apply in_app_or in Ig as [Ig|Ig]; [|right; eauto]. apply in_map_iff in Ig as (f' & <- & If'). 
    destruct (HD (fid f')) as (_ & S0 & _); [apply group_defs, ids_in_defs, If'|]. congruence.
  - exfalso. apply in_app_or in Ig as [Ig|Ig]; [apply in_map_iff in Ig as (f' & <- & If'); apply J, ids_in_defs, If'|].
    destruct (HF t Ig) as (g & e & E' & _). congruence.
  - exfalso. apply J, (in_flat _ l f t If). apply in_or_app. right. right. exact Id.
Qed.

Lemma vars_below : forall t, In t (vars_of m l) -> (t < n)%nat.
Proof.
  intros t I. destruct (vars_sources t I) as [(u & Iu & ->)|(f & g & If & E)]; [apply (ok_vars _ _ _ _ _ _ HO), Iu|].
  destruct (ok_funs _ _ _ _ _ _ HO f If) as (g' & e & E' & K). rewrite E in E'. injection E' as <- <-. apply K. reflexivity.
Qed.

Lemma en_value : forall e, en c = Some e -> e = (n + List.length (vars_of m l))%nat.
Proof. intros e E. unfold c, capture_of in E. cbn in E. destruct (vars_of m l); [discriminate E|]. injection E as <-. reflexivity. Qed.

Lemma group_captures : captures m vs fs c.
Proof.
  unfold captures, c, capture_of. cbn [lt vars news tys en vs1 fs1]. rewrite seq_length. split; [reflexivity|]. split; [exact HT|]. split; [apply seq_NoDup|].
  split; [destruct (vars_of m l); [reflexivity|discriminate]|]. split; [|split; [|split; [|exact vars_sources]]].
  - intros e E. pose proof (en_value e E) as ->. clear E. split; [|split].
    + rewrite in_seq. lia.
    + intros u Iu E. pose proof (ok_vars _ _ _ _ _ _ HO u Iu). lia.
    + intros f g e' If E EQ. destruct (ok_funs _ _ _ _ _ _ HO f If) as (g' & e & E' & K). rewrite E in E'. injection E' as <- <-. specialize (K e' eq_refl). lia.
  - intros u I. apply filter_In in I as [I J]. split; [exact I|]. apply mem_in, J.
  - intros f I. apply filter_In in I as [I J]. split; [exact I|]. intros g e E. unfold in_fun_env in J. rewrite E in J. apply mem_in, J.
Qed.

Lemma group_ids : forall f, In f l -> sf m (fid f) = None /\ ~ In (fid f) vs /\ ~ In (fid f) fs.
Proof.
  intros f I. destruct (ok_defs _ _ _ _ _ _ HO (fid f)) as ((H1 & H2 & H3 & H4) & S0 & _); [apply group_defs, ids_in_defs, I|].
  split; [exact S0|]. split; [|exact H2]. intro J. exact (H3 _ J H1).
Qed.

Let m' := for_funs m (lt c) (vars c) (news c) (en c).

Lemma sf_inner : forall f, sf m' f = match sf m f with
  | Some (g, e) => Some (g, option_map (renamed (vars c) (news c)) e)
  | None => match assoc f (lt c) with Some g => Some (g, en c) | None => None end
  end.
Proof. reflexivity. Qed.
Lemma sv_inner : forall u, sv m' u = renamed (vars c) (news c) (sv m u).
Proof. reflexivity. Qed.
Lemma sf_body : forall f, sf (for_body m (lt c) (en c)) f = match sf m f with
  | Some x => Some x
  | None => match assoc f (lt c) with Some g => Some (g, en c) | None => None end
  end.
Proof. reflexivity. Qed.

Lemma lt_ids : forall f, assoc f (lt c) <> None -> In f (map fid l).
Proof.
  intros f H. destruct (assoc f (lt c)) as [g|] eqn:E; [|congruence]. apply assoc_in_keys in E. unfold c, capture_of in E. cbn in E. rewrite map_fst_combine in E; [exact E|]. rewrite map_length, seq_length. reflexivity.
Qed.

Lemma ids_lt : forall f, In f (map fid l) -> exists g, assoc f (lt c) = Some g.
Proof. intros f I. apply assoc_some. unfold c, capture_of. cbn. rewrite map_fst_combine; [exact I|]. rewrite map_length, seq_length. reflexivity. Qed.

Lemma inner_fresh : forall d, In d (defs (ELetLocal l b)) -> ~ In d (map fid l) -> fresh m' (vs1 c) (map fid l ++ fs1 c) d /\ sf m' d = None.
Proof.
  intros d I NI. destruct (ok_defs _ _ _ _ _ _ HO d I) as ((H1 & H2 & H3 & H4) & S0 & LN). pose proof (defs_not_captured d I) as NC.
  destruct group_captures as (L1 & L2 & ND & EN0 & EN1 & HV & HF & _). pose proof (ok_next _ _ _ _ _ _ HO) as LNn.
  assert (NW : forall t, In t (news c) -> (n <= t)%nat) by (intros t It; unfold c, capture_of in It; cbn in It; apply in_seq in It; lia).
  split; [split; [|split; [|split]]|].
  - rewrite sv_inner, H1. apply renamed_out. exact NC.
  - intro J. apply in_app_or in J as [J|J]; [exact (NI J)|]. apply H2. exact (proj1 (HF d J)).
  - intros u Iu. destruct (HV u Iu) as [Iu' J]. rewrite sv_inner. pose proof (renamed_in (vars c) (news c) (sv m u) L1 J) as K. apply NW in K. lia.
  - intros f g e If E. rewrite sf_inner in E. apply in_app_or in If as [If|If].
    + assert (SN : sf m f = None) by (apply in_map_iff in If as (f' & <- & If'); exact (proj1 (group_ids f' If'))). rewrite SN in E.
      destruct (assoc f (lt c)); [|discriminate E]. injection E as <- E. apply en_value in E. lia.
    + destruct (HF f If) as [If' J]. destruct (sf m f) as [[g' [e'|]]|] eqn:SE; [| |].
      * apply (f_equal (fun x => match x with Some (_, Some y) => y | _ => e end)) in E. change (renamed (vars c) (news c) e' = e) in E. rename E into EQ. pose proof (renamed_in (vars c) (news c) e' L1 (J g' e' eq_refl)) as K. apply NW in K. rewrite EQ in K. lia.
      * discriminate E.
      * destruct (assoc f (lt c)); [|discriminate E]. injection E as <- E. apply en_value in E. lia.
  - rewrite sf_inner, S0. destruct (assoc d (lt c)) eqn:E; [|reflexivity]. exfalso. apply NI, lt_ids. congruence.
Qed.

Lemma fun_nodup : forall f, In f l -> NoDup (map fst (fparams f) ++ defs (snd f)) /\ incl (map fst (fparams f) ++ defs (snd f)) (defs (ELetLocal l b)) /\
  (forall d, In d (map fst (fparams f) ++ defs (snd f)) -> ~ In d (map fid l)).
Proof.
  intros f I. pose proof (ok_nodup _ _ _ _ _ _ HO) as ND. cbn in ND. apply NoDup_app_inv in ND as (ND & _ & _). change (NoDup (flat_map fun_defs l)) in ND.
  split; [|split].
  - pose proof (NoDup_flat_in fun_defs l f ND I) as K. unfold fun_defs in K. apply NoDup_remove_1 in K. exact K.
  - intros d D. apply group_defs, (in_flat _ l f d I). unfold fun_defs. apply in_or_app. apply in_app_or in D as [D|D]; [left; exact D|right; right; exact D].
  - intros d D J. apply in_map_iff in J as (f' & <- & J). revert ND I J D. clear. induction l as [|a l0 IH]; intros ND I J D; [destruct I|].
    cbn in ND. apply NoDup_app_inv in ND as (N1 & N2 & DJ). destruct I as [->|I], J as [->|J].
    + unfold fun_defs in N1. apply NoDup_remove_2 in N1. exact (N1 D).
    + apply (DJ (fid f')).
      * unfold fun_defs. apply in_or_app. apply in_app_or in D as [D|D]; [left; exact D|right; right; exact D].
      * apply (in_flat _ l0 f' _ J). unfold fun_defs. apply in_or_app. right. left. reflexivity.
    + apply (DJ (fid f')).
      * unfold fun_defs. apply in_or_app. right. left. reflexivity.
      * apply (in_flat _ l0 f _ I). unfold fun_defs. apply in_or_app. apply in_app_or in D as [D|D]; [left; exact D|right; right; exact D].
    + exact (IH N2 I J D).
Qed.

Lemma fun_ok : forall f n', In f l -> (N <= n')%nat -> (vars_of m l <> [] -> next_of n (vars_of m l) <= n')%nat ->
  Forall (fresh m' (vs1 c) (map fid l ++ fs1 c)) (map fst (fparams f)) /\ (forall e, en c = Some e -> ~ In e (map fst (fparams f))) /\
  ok N n' m' (map fst (fparams f) ++ vs1 c) (map fid l ++ fs1 c) (snd f).
Proof.
  intros f n' If LM LN'. destruct (fun_nodup f If) as (ND & IN & NI). pose proof (ok_next _ _ _ _ _ _ HO) as LNn.
  destruct group_captures as (L1 & L2 & NDn & EN0 & EN1 & HV & HF & _).
  assert (FB : Forall (fresh m' (vs1 c) (map fid l ++ fs1 c)) (map fst (fparams f))).
  { apply Forall_forall. intros d D. apply inner_fresh; [apply IN|apply NI]; apply in_or_app; auto. }
  assert (NW : forall t, In t (news c) -> (t < n')%nat).
  { intros t It. unfold c, capture_of in It. cbn in It. apply in_seq in It. clear - It LN'. unfold next_of in LN'. destruct (vars_of m l) as [|z q]; [cbn in It; lia|]. specialize (LN' ltac:(discriminate)). cbn [List.length] in *. lia. }
  assert (NE : forall e, en c = Some e -> (e < n')%nat).
  { intros e E. pose proof (en_value e E) as EV. unfold c, capture_of in E. cbn [en] in E. unfold next_of in LN'. clear - E EV LN'. destruct (vars_of m l); [discriminate E|]. specialize (LN' ltac:(discriminate)). subst e. lia. }
  split; [exact FB|]. split.
  { intros e E J. apply en_value in E. subst e. destruct (ok_defs _ _ _ _ _ _ HO (n + List.length (vars_of m l))%nat) as (_ & _ & LL); [apply IN, in_or_app; left; exact J|]. lia. }
  apply NoDup_app_inv in ND as (N1 & N2 & DJ). destruct HO as [SC ND0 HD HVo HFo HN].
  constructor.
  - inversion SC as [| | | | | | | | | | | | |? ? ? ? SF SB|]; subst. rewrite Forall_forall in SF. specialize (SF f If).
    apply (scoped_restrict m _ _ _ _ _ SF).
    + intros u Iu U. apply in_or_app. apply in_app_or in Iu as [Iu|Iu]; [left; exact Iu|right]. unfold c, capture_of. cbn. apply filter_In. split; [exact Iu|]. apply mem_in, in_vars_of.
      split; [eauto|]. intro J. apply group_defs in J. destruct (HD _ J) as ((_ & _ & F & _) & _). exact (F u Iu eq_refl).
    + intros g Ig U. apply in_or_app. apply in_app_or in Ig as [Ig|Ig]; [left; exact Ig|right]. unfold c, capture_of. cbn. apply filter_In. split; [exact Ig|]. unfold in_fun_env.
      destruct (sf m g) as [[h [e|]]|] eqn:E; try reflexivity. apply mem_in, in_vars_of. split; [exists f; split; [exact If|eapply U; reflexivity]|].
      intro J. apply group_defs in J. destruct (HD _ J) as ((_ & _ & _ & F) & _). exact (F g h e Ig E eq_refl).
    + intros d D. destruct (HD d) as (_ & S0 & _); [apply IN, in_or_app; right; exact D|exact S0].
  - exact N2.
  - intros d D. assert (I' : In d (map fst (fparams f) ++ defs (snd f))) by (apply in_or_app; auto).
    destruct (inner_fresh d (IN d I') (NI d I')) as [F S0]. split; [|split; [exact S0|apply HD, IN, I']]. apply fresh_under; auto. intro J. exact (DJ d J D).
  - intros u Iu. apply in_app_or in Iu as [Iu|Iu].
    + rewrite Forall_forall in FB. destruct (FB u Iu) as [-> _]. destruct (HD u) as (_ & _ & LL); [apply IN, in_or_app; auto|]. clear - LL LM. lia.
    + destruct (HV u Iu) as [_ J]. apply NW. rewrite sv_inner. apply renamed_in; assumption.
  - intros g Ig. apply in_app_or in Ig as [Ig|Ig].
    + destruct (ids_lt g Ig) as [h A]. exists h, (en c). assert (SN : sf m g = None) by (apply in_map_iff in Ig as (f' & <- & If'); exact (proj1 (group_ids f' If'))).
      rewrite sf_inner, SN, A. split; [reflexivity|]. exact NE.
    + destruct (HF g Ig) as [Ig' J]. destruct (HFo g Ig') as (h & e & E & K). exists h, (option_map (renamed (vars c) (news c)) e). rewrite sf_inner, E. split; [reflexivity|].
      intros i EI. destruct e as [e|]; [|discriminate EI]. injection EI as <-. apply NW, renamed_in; [exact L1|]. apply (J h e E).
  - exact LM.
Qed.

Lemma body_ok : ok N (next_of n (vars_of m l)) (for_body m (lt c) (en c)) vs (map fid l ++ fs) b.
Proof.
  destruct HO as [SC ND HD HV HF HN]. inversion SC as [| | | | | | | | | | | | |? ? ? ? SF SB|]; subst.
  cbn in ND. apply NoDup_app_inv in ND as (ND1 & ND2 & DJ). change (forall x, In x (flat_map fun_defs l) -> ~ In x (defs b)) in DJ.
  assert (LN : (n <= next_of n (vars_of m l))%nat) by (unfold next_of; destruct (vars_of m l); lia).
  assert (NI : forall d, In d (defs b) -> ~ In d (map fid l)).
  { intros d D J. apply in_map_iff in J as (f & <- & J). exact (DJ _ (ids_in_defs f J) D). }
  constructor.
  - exact SB.
  - exact ND2.
  - intros d D. destruct (HD d) as ((H1 & H2 & H3 & H4) & S0 & LL); [cbn; apply in_or_app; auto|]. split; [split; [exact H1|split; [|split; [exact H3|]]]|split; [|exact LL]].
    + intro J. apply in_app_or in J as [J|J]; [exact (NI d D J)|exact (H2 J)].
    + intros f g e If E. rewrite sf_body in E. destruct (sf m f) as [[g' e']|] eqn:SE.
      * injection E as <- ->. apply in_app_or in If as [If|If]; [|exact (H4 f g' e If SE)]. exfalso. apply in_map_iff in If as (f' & <- & If'). destruct (group_ids f' If') as [K _]. congruence.
      * destruct (assoc f (lt c)); [|discriminate E]. injection E as <- E. apply en_value in E. lia.
    + rewrite sf_body, S0. destruct (assoc d (lt c)) eqn:E; [|reflexivity]. exfalso. apply (NI d D), lt_ids. congruence.
  - intros u Iu. cbn. specialize (HV u Iu). lia.
  - intros f If. rewrite sf_body. apply in_app_or in If as [If|If].
    + assert (SN : sf m f = None) by (apply in_map_iff in If as (f' & <- & If'); exact (proj1 (group_ids f' If'))). rewrite SN. destruct (ids_lt f If) as [g A]. rewrite A.
      exists g, (en c). split; [reflexivity|]. intros i E. pose proof (en_value i E) as EV. unfold c, capture_of in E. cbn [en] in E. unfold next_of. clear - E EV. destruct (vars_of m l); [discriminate E|]. subst i. lia.
    + destruct (HF f If) as (g & e & E & K). rewrite E. exists g, e. split; [reflexivity|]. intros i EI. specialize (K i EI). lia.
  - lia.
Qed.
End Group.
