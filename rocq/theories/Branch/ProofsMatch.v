(** Proofs about whole [match] expressions. *)
From Coq Require Import Permutation.
From Verif.Base Require Import Base BaseFacts.
From Verif.Ir Require Import Model Spec Proofs ProofsEval.
From Verif.Branch Require Import Model Spec ProofsParts Proofs.

(** ** The expansion never panics and always ends *)

Section Total.
Variable ty0 : ct.
Variable cs : list const.

Record sgood (pr : progress) : Prop := SGood {
  s_root : exists x, pget (determined pr) (Root ty0) = Some (Some (Some x));
  s_parent : forall p o, pget (determined pr) p = Some (Some o) ->
    p = Root ty0 \/ exists y, pget (determined pr) (parent p) = Some (Some (Some y))
}.

Definition total (k : progress -> M rt) : Prop :=
  forall pr n, sgood pr -> exists y n', k pr n = Ret (y, n').
Definition total_after (p : part) (k : progress -> M rt) : Prop :=
  forall pr n, sgood pr -> (exists o, pget (determined pr) p = Some (Some o)) ->
  exists y n', k pr n = Ret (y, n').

Lemma status_det pr p o : pget (determined pr) p = Some (Some o) -> part_status pr p = Satisfied o.
Proof. unfold part_status. intros ->. reflexivity. Qed.

Lemma det_status pr p o : part_status pr p = Satisfied o -> pget (determined pr) p = Some (Some o).
Proof.
  unfold part_status. destruct (pget (determined pr) p) as [[o'|]|]; try congruence.
  destruct (pget (determined_range pr) _); [destruct (existsb _ _)|]; discriminate.
Qed.

Lemma root_not_own_parent p : p <> Root ty0 -> wf_part ty0 p -> parent p <> p.
Proof.
  intros N W. destruct p; cbn in *; try (congruence);
    intros E; apply (f_equal depth) in E; cbn in E; lia.
Qed.

Lemma sgood_passed pr p b pr' y : sgood pr -> p <> Root ty0 -> wf_part ty0 p ->
  pget (determined pr) (parent p) = Some (Some (Some y)) ->
  mark_as_passed (push_bind pr b) p = Ret pr' ->
  sgood pr' /\ pget (determined pr') p = Some (Some None).
Proof.
  intros [[x R] Pa] N W Y MP. unfold mark_as_passed in MP.
  assert (Ed : determined (push_bind pr b) = determined pr) by (destruct b; reflexivity).
  rewrite Ed in MP. destruct (pget (determined pr) p) eqn:G; [discriminate|]. inv MP. cbn [determined].
  split; [|rewrite pget_insert; destruct (part_eq_dec p p); congruence].
  constructor; cbn [determined].
  - exists x. rewrite pget_insert. destruct (part_eq_dec p (Root ty0)); [congruence|exact R].
  - intros q o. rewrite !pget_insert. destruct (part_eq_dec p q) as [<-|Nq].
    + intros _. right. exists y. destruct (part_eq_dec p (parent p)) as [E|]; [|exact Y].
      exfalso. exact (root_not_own_parent p N W (eq_sym E)).
    + intros Q. destruct (Pa q o Q) as [->|[z Z]]; [left; reflexivity|]. right. exists z.
      destruct (part_eq_dec p (parent q)) as [->|]; [congruence|exact Z].
Qed.

Lemma sgood_failed pr p pr' : sgood pr -> mark_as_failed pr p = Ret pr' -> sgood pr'.
Proof.
  intros [[x R] Pa] MP. unfold mark_as_failed in MP.
  destruct (pget (determined pr) p) eqn:G; [discriminate|]. inv MP.
  constructor; cbn [determined].
  - exists x. rewrite pget_insert. destruct (part_eq_dec p (Root ty0)); [congruence|exact R].
  - intros q o. rewrite !pget_insert. destruct (part_eq_dec p q) as [<-|Nq]; [discriminate|].
    intros Q. destruct (Pa q o Q) as [->|[z Z]]; [left; reflexivity|]. right. exists z.
    destruct (part_eq_dec p (parent q)) as [->|]; [congruence|exact Z].
Qed.

Lemma sgood_set pr p v pr' : sgood pr -> set_passed_var pr p v = Ret pr' ->
  sgood pr' /\ pget (determined pr') p = Some (Some (Some v)) /\
  (forall q, q <> p -> pget (determined pr') q = pget (determined pr) q) /\
  determined_range pr' = determined_range pr.
Proof.
  intros [[x R] Pa] SP. unfold set_passed_var in SP.
  destruct (pget (determined pr) p) as [[[|]|]|] eqn:G; try discriminate. inv SP.
  cbn [determined determined_range].
  split; [|split; [rewrite pget_insert; destruct (part_eq_dec p p); congruence|split; [|reflexivity]]].
  - constructor; cbn [determined].
    + exists x. rewrite pget_insert. destruct (part_eq_dec p (Root ty0)); [congruence|exact R].
    + intros q o. rewrite !pget_insert. destruct (part_eq_dec p q) as [<-|Nq].
      * intros _. destruct (Pa p None G) as [->|[z Z]]; [left; reflexivity|]. right.
        destruct (part_eq_dec p (parent p)) as [E|]; [eauto|eauto].
      * intros Q. destruct (Pa q o Q) as [->|[z Z]]; [left; reflexivity|]. right.
        destruct (part_eq_dec p (parent q)) as [->|]; eauto.
  - intros q N. rewrite pget_insert. destruct (part_eq_dec p q); [congruence|reflexivity].
Qed.

Lemma test_total p v : wf_part ty0 p -> exists t, to_test_expr p v = Ret t.
Proof.
  destruct p; cbn; eauto.
  - intros (_ & t & ->). cbn. eauto.
  - intros (_ & t & ->). cbn. eauto.
  - intros (_ & _ & C). destruct c; eauto. contradiction.
Qed.

Lemma bind_total p v : wf_part ty0 p -> exists t, to_bind_expr p v = Ret t.
Proof. destruct p; cbn; eauto. intros (_ & t & ->). cbn. eauto. Qed.

Lemma get_total p v : inner p -> p <> Root ty0 -> wf_part ty0 p ->
  (exists ge, to_get_expr p v = Ret (Some ge)) /\ exists t, part_ty p = Ret t.
Proof.
  destruct p; cbn; intros I N W; try contradiction; try congruence.
  - destruct W as (_ & t & ->). cbn. eauto.
  - destruct W as (_ & t & ->). cbn. eauto.
  - destruct W as (_ & t & ->). cbn. eauto.
  - destruct W as (_ & t & ->). cbn. eauto.
  - destruct W as (_ & t & ->). cbn. eauto.
Qed.

Lemma passed_total pr p b : pget (determined pr) p = None ->
  exists pr', mark_as_passed (push_bind pr b) p = Ret pr'.
Proof.
  intros N. unfold mark_as_passed.
  assert (Ed : determined (push_bind pr b) = determined pr) by (destruct b; reflexivity).
  rewrite Ed, N. eauto.
Qed.

Lemma direct_total fuel p pr n succ fail v : wf_part ty0 p -> sgood pr -> p <> Root ty0 ->
  pget (determined pr) (parent p) = Some (Some (Some v)) ->
  total_after p succ -> total fail ->
  exists y n', expand_pat_part (S fuel) pr p succ fail n = Ret (y, n').
Proof.
  intros W G N V TS TF. cbn [expand_pat_part].
  destruct (part_status pr p) as [| |o] eqn:St;
    [|apply TF; exact G|apply TS; [exact G|exists o; apply det_status; exact St]].
  rewrite (status_det _ _ _ V).
  destruct (test_total p v W) as [t T]. destruct (bind_total p v W) as [b B].
  pose proof (status_unknown _ _ St) as U.
  destruct (passed_total pr p b U) as [pr' MP].
  destruct (sgood_passed _ _ _ _ _ G N W V MP) as [G' D'].
  unfold bindM, lift. rewrite T. cbn. destruct t as [t|].
  - rewrite B. cbn. rewrite MP. cbn.
    destruct (TS pr' n G' (ex_intro _ _ D')) as (y & n1 & ->).
    assert (exists prf, mark_as_failed pr p = Ret prf) as [prf MF].
    { unfold mark_as_failed. rewrite U. eauto. }
    rewrite MF. cbn. destruct (TF prf n1 (sgood_failed _ _ _ G MF)) as (z & n2 & ->).
    unfold ret. eauto.
  - rewrite B. cbn. rewrite MP. cbn. apply TS; [exact G'|eauto].
Qed.

Lemma known_total fuel p pr n succ fail o : wf_part ty0 p -> sgood pr -> p <> Root ty0 ->
  pget (determined pr) (parent p) = Some (Some o) ->
  total_after p succ -> total fail ->
  exists y n', expand_pat_part (S (S fuel)) pr p succ fail n = Ret (y, n').
Proof.
  intros W G N O TS TF. destruct o as [v|]; [eapply direct_total; eassumption|].
  remember (S fuel) as f eqn:Ef. cbn [expand_pat_part]. subst f.
  destruct (part_status pr p) as [| |o] eqn:St;
    [|apply TF; exact G|apply TS; [exact G|exists o; apply det_status; exact St]].
  rewrite (status_det _ _ _ O).
  destruct (wf_parent _ p W) as [E|[Ip Wp]]; [congruence|].
  destruct (s_parent _ G _ _ O) as [E|[g Gv]].
  { destruct (s_root _ G) as [x R]. rewrite E in O. congruence. }
  assert (Np : parent p <> Root ty0).
  { intros E. destruct (s_root _ G) as [x R]. rewrite E in O. congruence. }
  destruct (get_total (parent p) g Ip Np Wp) as [[ge GE] [t T]].
  unfold bindM at 1. unfold lift at 1. rewrite (status_det _ _ _ Gv). cbn [var_unwrap bind].
  unfold bindM at 1, alloc_rt at 1.
  unfold bindM at 1, lift at 1. rewrite T. cbn [bind].
  unfold bindM at 1, lift at 1. rewrite GE. cbn [bind].
  unfold bindM at 1, lift at 1. cbn [unwrap bind].
  assert (exists pr', set_passed_var pr (parent p) n = Ret pr') as [pr' SP].
  { unfold set_passed_var. rewrite O. eauto. }
  unfold bindM at 1, lift at 1. rewrite SP. cbn [bind].
  destruct (sgood_set _ _ _ _ G SP) as (G' & D' & _ & _).
  unfold bindM at 1.
  destruct (direct_total fuel p pr' (S n) succ fail n W G' N D' TS TF) as (y & n' & ->).
  unfold ret. eauto.
Qed.

Lemma part_total fuel : forall p pr n succ fail, (depth p + 2 <= fuel)%nat ->
  wf_part ty0 p -> sgood pr -> total_after p succ -> total fail ->
  exists y n', expand_pat_part fuel pr p succ fail n = Ret (y, n').
Proof.
  induction fuel as [|fuel IH]; intros p pr n succ fail Le W G TS TF; [lia|].
  destruct (part_eq_dec p (Root ty0)) as [->|N].
  { cbn [expand_pat_part]. destruct (s_root _ G) as [x R]. rewrite (status_det _ _ _ R).
    apply TS; eauto. }
  destruct (pget (determined pr) (parent p)) as [[o|]|] eqn:O.
  - destruct fuel as [|fuel]; [lia|]. eapply known_total; eassumption.
  - cbn [expand_pat_part].
    destruct (part_status pr p) as [| |o] eqn:St;
      [|apply TF; exact G|apply TS; [exact G|exists o; apply det_status; exact St]].
    unfold part_status at 1. rewrite O. apply TF; exact G.
  - cbn [expand_pat_part].
    destruct (part_status pr p) as [| |o] eqn:St;
      [|apply TF; exact G|apply TS; [exact G|exists o; apply det_status; exact St]].
    destruct (part_status pr (parent p)) as [| |o] eqn:Sp.
    + destruct (wf_parent _ p W) as [E|[Ip Wp]]; [congruence|].
      assert (Dp : depth p = S (depth (parent p))) by (destruct p; cbn in *; congruence).
      apply IH; [lia|exact Wp|exact G| |exact TF].
      intros pr1 n1 G1 [o1 O1].
      destruct fuel as [|[|fuel]]; [lia|lia|]. eapply known_total; eassumption.
    + apply TF; exact G.
    + apply det_status in Sp. congruence.
Qed.

Lemma parts_total ps : forall succ fail, Forall (wf_part ty0) ps -> total succ -> total fail ->
  total (fun pr => expand_pat_parts pr ps succ fail).
Proof.
  induction ps as [|p ps IH]; intros succ fail F TS TF; [exact TS|].
  inversion F as [|? ? W F']; subst. intros pr n G. cbn [expand_pat_parts].
  apply part_total; auto; [lia|]. intros pr1 n1 G1 _. exact (IH succ fail F' TS TF pr1 n1 G1).
Qed.

Lemma matches_total ms : Forall (fun m => Forall (wf_part ty0) (fst (fst m))) ms ->
  total (fun pr => expand_matches pr ms).
Proof.
  induction ms as [|[[ps id] t] ms IH]; intros F.
  - intros pr n _. cbn. unfold ret. eauto.
  - inversion F as [|? ? W F']; subst. cbn [expand_matches]. apply parts_total; [exact W| |].
    + intros pr n _. unfold ret. eauto.
    + intros pr n G. apply IH; [exact F'|]. destruct G as [R P]. constructor; assumption.
Qed.

Lemma sgood_new root : sgood (new_progress root ty0).
Proof.
  constructor; cbn [determined new_progress pget].
  - exists root. destruct (part_eq_dec (Root ty0) (Root ty0)); congruence.
  - intros p o. destruct (part_eq_dec (Root ty0) p); [|discriminate]. auto.
Qed.

End Total.

(** ** The clauses *)

Section Clauses.
Variable round32 : fp -> fp.
Variable prim : prim_op -> heap -> list val -> option (heap * val).
Variable funs : nat -> option (list nat * list nat * rt).
Notation ev := (ev false round32 prim funs).

Lemma clauses_total ty clauses :
  (forall p body, In (p, body) clauses -> pat_ty p = ty /\ pat_ok p /\ exists t, rt_ty body = Ret t) ->
  forall n, exists conts ms, expand_clauses clauses n = Ret ((conts, ms), (n + List.length clauses)%nat) /\
    Forall (fun m => Forall (leaf_ok ty (flat_map (fun c => pat_consts (fst c)) clauses)) (fst (fst m))) ms /\
    all_binds ms = flat_map (fun c => pat_vars (fst c)) clauses /\
    map (fun c => fst (fst c)) conts = List.seq n (List.length clauses) /\
    forall h v, match first_match round32 h v clauses with
                | Some (binds, body) =>
                    exists id params, first_run round32 h v ms = Some (id, map snd binds) /\
                      In (id, params, body) conts /\ map fst params = map fst binds /\
                      exists p, In (p, body) clauses
                | None => True
                end.
Proof.
  induction clauses as [|[p body] clauses IH]; intros OK n.
  - exists [], []. cbn. unfold ret. rewrite Nat.add_0_r. repeat split; auto.
  - destruct (OK p body (or_introl eq_refl)) as (T & PO & bt & B).
    destruct (flatten_wf p ty PO T) as (parts & binds & FL & LF & BV).
    assert (OK' : forall p body, In (p, body) clauses -> pat_ty p = ty /\ pat_ok p /\ exists t, rt_ty body = Ret t).
    { intros q b I. apply OK. right. exact I. }
    destruct (IH OK' (S n)) as (conts & ms & E & F & AB & Ids & FM).
    exists ((n, binds, body) :: conts), ((parts, n, bt) :: ms).
    cbn [expand_clauses]. unfold bindM, lift, alloc_rt, ret. rewrite FL. cbn. rewrite B. cbn. rewrite E.
    replace (n + S (List.length clauses))%nat with (S n + List.length clauses)%nat by lia.
    split; [reflexivity|]. split.
    { constructor; cbn.
      - eapply Forall_impl; [|exact LF]. intros q. apply leaf_mono. apply incl_appl, incl_refl.
      - eapply Forall_impl; [|exact F]. intros m M. eapply Forall_impl; [|exact M].
        intros q. apply leaf_mono. apply incl_appr, incl_refl. }
    split; [unfold all_binds; cbn; f_equal; [exact BV|exact AB]|].
    split; [cbn; f_equal; exact Ids|].
    intros h v. destruct (flatten_exact round32 h v p parts binds FL) as [FV FE].
    destruct (pmatch round32 h p v) as [bs| |].
    + destruct FE as [-> FB]. exists n, binds. split; [reflexivity|]. split; [left; reflexivity|].
      split; [exact (eq_trans FV (eq_sym FB))|]. exists p. left. reflexivity.
    + rewrite FE. specialize (FM h v).
      destruct (first_match round32 h v clauses) as [[bs b]|]; [|exact I].
      destruct FM as (id & params & A1 & A2 & A3 & q & A4). exists id, params.
      split; [exact A1|]. split; [right; exact A2|]. split; [exact A3|]. exists q. right. exact A4.
    + exact I.
Qed.

(** Results that do not concern a list of continuations pass through it. *)
Lemma cont_through conts x h e h' r :
  (forall c, In c conts -> forall vs, r <> RsJump (fst (fst c)) vs) ->
  ev h e x h' r -> ev h e (RLetCont conts x) h' r.
Proof.
  induction conts as [|[[id ps] b] conts IH]; intros N E; [constructor; exact E|].
  apply ev_cont_other; [apply IH; [|exact E]|].
  - intros c I. apply N. right. exact I.
  - exact (N _ (or_introl eq_refl)).
Qed.

Lemma cont_hit conts x h e h1 id params body vs h2 r :
  NoDup (map (fun c => fst (fst c)) conts) -> In (id, params, body) conts ->
  ev h e x h1 (RsJump id vs) -> List.length vs = List.length params ->
  ev h1 (bind_all (map fst params) vs e) body h2 r ->
  (forall c, In c conts -> forall ws, r <> RsJump (fst (fst c)) ws) ->
  ev h e (RLetCont conts x) h2 r.
Proof.
  induction conts as [|[[k ps] b] conts IH]; intros ND I E L B N; [destruct I|].
  cbn in ND. inversion ND as [|? ? NI ND']; subst.
  destruct I as [I|I].
  - inv I. eapply ev_cont_jump; [|exact L|exact B].
    apply cont_through; [|exact E]. intros c Ic ws Q. inv Q. apply NI.
    apply (in_map (fun c => fst (fst c))). exact Ic.
  - apply ev_cont_other; [|exact (N _ (or_introl eq_refl))].
    apply IH; auto. intros c Ic. apply N. right. exact Ic.
Qed.

Lemma combine_split (binds : list (nat * val)) : combine (map fst binds) (map snd binds) = binds.
Proof. induction binds as [|[i v] b IH]; cbn; [reflexivity|]. rewrite IH. reflexivity. Qed.

Lemma good_new h v ty cs root e :
  good round32 h v ty cs ((root, v) :: e) (S root) (new_progress root ty) [] [].
Proof.
  constructor; cbn [determined determined_range bind_args new_progress pget].
  - destruct (part_eq_dec (Root ty) (Root ty)); [eauto|congruence].
  - intros p o. destruct (part_eq_dec (Root ty) p) as [<-|]; [|discriminate].
    intros X; inv X. exists v. split; [reflexivity|]. intros x X; inv X.
    cbn [lookup]. rewrite Nat.eqb_refl. auto.
  - intros p. destruct (part_eq_dec (Root ty) p); discriminate.
  - discriminate.
  - constructor.
  - intros id q o. destruct (part_eq_dec (Root ty) (Bind id q)); discriminate.
Qed.

Theorem match_exact n target clauses :
  match_ok n target clauses -> constants_differ round32 (map fst clauses) ->
  (exists t, rt_ty target = Ret (Some t)) ->
  (forall p body, In (p, body) clauses -> exists t, rt_ty body = Ret t) ->
  exists e n', expand target clauses n = Ret (e, n') /\
  forall h env h' r, ev h env (RMatch target clauses) h' r -> ev h env e h' r.
Proof.
  intros (JT & ND & TY & PO) CD [ty T] BT.
  assert (OK : forall p body, In (p, body) clauses -> pat_ty p = ty /\ pat_ok p /\ exists t, rt_ty body = Ret t).
  { intros p body I. split; [exact (TY p body ty I T)|]. split; [|exact (BT p body I)].
    rewrite Forall_forall in PO. exact (PO _ I). }
  destruct (clauses_total ty clauses OK n) as (conts & ms & E & F & AB & Ids & FM).
  set (root := (n + List.length clauses)%nat) in *.
  assert (WF : Forall (fun m => Forall (wf_part ty) (fst (fst m))) ms).
  { eapply Forall_impl; [|exact F]. intros m M. eapply Forall_impl; [|exact M]. intros q Q. apply Q. }
  destruct (matches_total ty ms WF (new_progress root ty) (S root) (sgood_new ty root)) as (tree & n' & ET).
  exists (let_cont conts (let_var [(root, ty, target)] tree)), n'.
  split.
  { unfold expand, bindM, lift, alloc_rt, ret. rewrite T. cbn. rewrite E. rewrite ET. reflexivity. }
  intros h env h' r EV. apply let_cont_ev.
  assert (OUT : forall k ws, In k (jump_targets (RMatch target clauses)) -> r = RsJump k ws ->
                forall c, In c conts -> forall vs, r <> RsJump (fst (fst c)) vs).
  { intros k ws Ik -> c Ic vs Q. inv Q. apply JT in Ik.
    apply (in_map (fun c => fst (fst c))) in Ic. rewrite Ids in Ic. apply in_seq in Ic. lia. }
  assert (OUT' : forall c, In c conts -> forall vs, r <> RsJump (fst (fst c)) vs).
  { intros c Ic vs Q. refine (OUT _ _ _ Q c Ic vs Q).
    eapply (proj1 (jump_in round32 prim funs)); [exact EV|exact Q]. }
  inv EV; no_op.
  - (* the target has a value *)
    specialize (FM h1 v). match goal with H : first_match _ _ _ _ = _ |- _ => rewrite H in FM end.
    destruct FM as (id & params & FR & Ic & MF & p & Ip).
    assert (Len : List.length binds = List.length params).
    { rewrite <- (map_length fst binds), <- MF, map_length. reflexivity. }
    eapply cont_hit with (h1 := h1) (vs := map snd binds); [exact (eq_ind_r (@NoDup nat) (seq_NoDup _ _) Ids)|exact Ic| | | |exact OUT'].
    + apply let_var_ev.
      change (ev h env (RLetVar [(root, ty, target)] tree) (release false target v h1) (RsJump id (map snd binds))).
      eapply ev_let_cons; [eassumption|]. constructor.
      eapply matches_ev; [|exact F| |apply good_new|exact ET|exact FR].
      * intros c d w Ic' Id'. apply CD; unfold constants_differ in *;
          rewrite flat_map_concat_map, map_map, <- flat_map_concat_map; assumption.
      * rewrite app_nil_r, AB. exact ND.
    + rewrite map_length. exact Len.
    + unfold bind_all. rewrite MF, combine_split. assumption.
  - apply cont_through; [exact OUT'|]. apply let_var_ev. eapply ev_let_stop; eassumption.
Qed.

End Clauses.

Section Final.
Variable round32 : fp -> fp.
Variable prim : prim_op -> heap -> list val -> option (heap * val).
Variable funs : nat -> option (list nat * list nat * rt).
Notation ev := (ev false round32 prim funs).

Theorem match_final n target clauses :
  match_ok n target clauses -> constants_differ round32 (map fst clauses) ->
  (exists t, rt_ty target = Ret t /\ (t = None -> cont_free target = true)) ->
  (forall p body, In (p, body) clauses -> exists t, rt_ty body = Ret t) ->
  exists e n', after_rt (RMatch target clauses) n = Ret (e, n') /\
  forall h env h1 r1, ev h env (RMatch target clauses) h1 r1 ->
  forall h2 r2, ev h env e h2 r2 <-> h2 = h1 /\ r2 = r1.
Proof.
  intros OK CD (t & T & N) BT.
  assert (exists e n', after_rt (RMatch target clauses) n = Ret (e, n') /\
    forall h env h1 r1, ev h env (RMatch target clauses) h1 r1 -> ev h env e h1 r1)
    as (e & n' & E & F).
  { destruct t as [t|]; [exact (match_exact _ _ _ _ _ _ OK CD (ex_intro _ t T) BT)|].
    exists target, n. split.
    - cbn. unfold expand, bindM, lift. rewrite T. reflexivity.
    - intros h env h1 r1 EV. inv EV; no_op; [|assumption].
      exfalso. match goal with H : ev _ _ target _ _ |- _ =>
        exact (proj1 (untyped false round32 prim funs) _ _ _ _ _ H (N eq_refl) T) end. }
  exists e, n'. split; [exact E|]. intros h env h1 r1 EV h2 r2. apply F in EV. split.
  - intros EV2. exact (ev_deterministic _ _ _ _ _ _ _ _ _ _ _ EV2 EV).
  - intros [-> ->]. exact EV.
Qed.

Lemma const_bool_ev h e b : ev h e (RConst (const_bool b)) h (RsVal (v_bool b)).
Proof. eapply ev_operation; [reflexivity|constructor|]. destruct b; reflexivity. Qed.

Lemma const_bool_inv h e b h' r :
  ev h e (RConst (const_bool b)) h' r -> h' = h /\ r = RsVal (v_bool b).
Proof. intros E. exact (ev_deterministic _ _ _ _ _ _ _ _ _ _ _ E (const_bool_ev h e b)). Qed.

Theorem and_or_final a b n :
  exists x y, after_rt (RAnd a b) n = Ret (x, n) /\ after_rt (ROr a b) n = Ret (y, n) /\
  forall h env h' r,
    (ev h env (RAnd a b) h' r <-> ev h env x h' r) /\ (ev h env (ROr a b) h' r <-> ev h env y h' r).
Proof.
  eexists _, _. split; [reflexivity|]. split; [reflexivity|]. intros h env h' r. split; split; intros E.
  - inv E; no_op.
    + eapply (ev_if _ _ _ _ _ _ _ _ _ _ true); eassumption.
    + eapply (ev_if _ _ _ _ _ _ _ _ _ _ false); [eassumption|]. apply const_bool_ev.
    + apply ev_if_stop; assumption.
  - inv E; no_op.
    + destruct b0; [eapply ev_and_true; eassumption|].
      match goal with H : ev _ _ (RConst _) _ _ |- _ => apply const_bool_inv in H; destruct H; subst end.
      apply ev_and_false; assumption.
    + apply ev_and_stop; assumption.
  - inv E; no_op.
    + eapply (ev_if _ _ _ _ _ _ _ _ _ _ true); [eassumption|]. apply const_bool_ev.
    + eapply (ev_if _ _ _ _ _ _ _ _ _ _ false); eassumption.
    + apply ev_if_stop; assumption.
  - inv E; no_op.
    + destruct b0; [|eapply ev_or_false; eassumption].
      match goal with H : ev _ _ (RConst _) _ _ |- _ => apply const_bool_inv in H; destruct H; subst end.
      apply ev_or_true; assumption.
    + apply ev_or_stop; assumption.
Qed.

(** ** Two spellings of one constant *)

Definition pair_ty := CtId 7.
Definition zero_match : rt := RMatch (RVar 0 pair_ty)
  [(PStruct pair_ty [PConst (KInteger (CtS 32) false 0); PConst (KInteger (CtS 32) false 1)],
    RConst (KInteger (CtS 32) false 10));
   (PStruct pair_ty [PConst (KInteger (CtS 32) true 0); PWildcard (CtS 32)],
    RConst (KInteger (CtS 32) false 20))].

Definition zero_out : rt :=
  match after_rt zero_match 100 with Ret (e, _) => e | _ => RNever end.

Lemma if_inv h e c t f h' r h1 b :
  ev h e (RIf c t f) h' r -> ev h e c h1 (RsVal (v_bool b)) -> ev h1 e (if b then t else f) h' r.
Proof.
  intros E C. inv E; no_op;
    match goal with H : ev _ _ c _ _ |- _ =>
      destruct (ev_deterministic _ _ _ _ _ _ _ _ _ _ _ H C) as [Q1 Q2]; subst; clear H end.
  - inv Q2. match goal with H : v_bool _ = v_bool _ |- _ => apply v_bool_inj in H; subst end. assumption.
  - match goal with H : abrupt _ |- _ => destruct H end.
Qed.

Lemma let1_inv h e id t init vars x h' r h1 v :
  ev h e (RLetVar ((id, t, init) :: vars) x) h' r -> ev h e init h1 (RsVal v) ->
  ev h1 ((id, v) :: e) (RLetVar vars x) h' r.
Proof.
  intros E C. inv E; no_op;
    match goal with H : ev _ _ init _ _ |- _ =>
      destruct (ev_deterministic _ _ _ _ _ _ _ _ _ _ _ H C) as [Q1 Q2]; subst; clear H end.
  - inv Q2. assumption.
  - match goal with H : abrupt _ |- _ => destruct H end.
Qed.

Lemma let_nil_inv h e x h' r : ev h e (RLetVar [] x) h' r -> ev h e x h' r.
Proof. intros E. inv E; no_op. assumption. Qed.

Lemma cont_inv conts x h e : forall h' r, ev h e (RLetCont conts x) h' r -> exists h1 r1, ev h e x h1 r1.
Proof.
  induction conts as [|c conts IH]; intros h' r E; inv E; no_op; eauto.
Qed.

Theorem zero_refuted :
  ev [] [(0%nat, VStruct pair_ty [VInt 0; VInt 2])] zero_match [] (RsVal (VInt 20)) /\
  exists e, after_rt zero_match 100 = Ret (e, 105%nat) /\
  forall h r, ~ ev [] [(0%nat, VStruct pair_ty [VInt 0; VInt 2])] e h r.
Proof.
  split.
  { eapply ev_match with (binds := []); [constructor; reflexivity|reflexivity|].
    eapply ev_operation; [reflexivity|constructor|reflexivity]. }
  exists zero_out. split; [vm_compute; reflexivity|].
  intros h r E. vm_compute in E. apply cont_inv in E. clear h r. destruct E as (h & r & E).
  assert (FIELD : forall i k e w, lookup e 102 = Some (VStruct pair_ty [VInt 0; VInt 2]) ->
    nth_error [VInt 0; VInt 2] i = Some w -> ev [] e (RUnary (UStructElem k i) (RVar 102 pair_ty)) [] (RsVal w)).
  { intros i k e w L W. eapply ev_operation; [reflexivity|eapply evs_cons; [constructor; exact L|constructor]|].
    cbn. rewrite W. reflexivity. }
  assert (IEQ : forall e x a sg n b t, lookup e x = Some (VInt a) ->
    N.eqb a (n mod 2 ^ int_bits 32) = b ->
    ev [] e (RBinary BIEq (RVar x t) (RConst (KInteger (CtS 32) sg n))) [] (RsVal (v_bool b))).
  { intros e x a sg n b t L Q. eapply ev_operation; [reflexivity| |].
    - eapply evs_cons; [constructor; exact L|]. eapply evs_cons; [|constructor].
      eapply ev_operation; [reflexivity|constructor|reflexivity].
    - unfold perform, of_bool. rewrite Q. reflexivity. }
  eapply let1_inv in E; [|constructor; reflexivity].
  eapply let1_inv in E; [|apply FIELD; reflexivity].
  apply let_nil_inv in E.
  eapply if_inv with (b := true) in E; [|eapply IEQ; reflexivity].
  eapply let1_inv in E; [|apply FIELD; reflexivity].
  apply let_nil_inv in E.
  eapply if_inv with (b := false) in E; [|eapply IEQ; reflexivity].
  inv E; no_op.
Qed.

End Final.
