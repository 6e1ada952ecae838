(** * Programs before and after *)
From Verif.Base Require Import Base.
From Verif.Ir Require Import Model.
From Verif.Closure Require Import Model Spec Rel ProofsSim ProofsScope ProofsGroup ProofsNorm ProofsDriver ProofsTotal ProofsDet.
Local Arguments typed_params : simpl never.

(** ** No local functions are left *)
Definition all_in {A} (P : A -> Prop) (l : list A) : Prop := fold_right (fun x Q => P x /\ Q) True l.
Lemma all_in_intro : forall {A} (P : A -> Prop) l, (forall a, In a l -> P a) -> all_in P l.
Proof. intros A P l H. unfold all_in. induction l as [|a l IH]; [exact I|]. cbn. split; [apply H; left; reflexivity|]. apply IH. intros b J. apply H. right. exact J. Qed.
Lemma Forall2_in_r : forall {A B} (R : A -> B -> Prop) l l', Forall2 R l l' -> forall b, In b l' -> exists a, In a l /\ R a b.
Proof. intros A B R l l' H. induction H as [|x y l l' H1 H IH]; intros b J; [destruct J|]. destruct J as [<-|J]; [exists x; split; [left; reflexivity|exact H1]|]. destruct (IH b J) as (a & Ia & Ra). exists a. split; [right; exact Ia|exact Ra]. Qed.

Lemma conv_no_locals : forall F x m vs fs y, conv F m vs fs x y -> no_locals y.
Proof.
  intros F x. induction x as [x IH] using expr_size_ind. intros m vs fs y CV.
  assert (L : forall es ys, Forall2 (conv F m vs fs) es ys -> (forall a, In a es -> (size a < size x)%nat) -> all_in no_locals ys).
  { intros es ys H K. apply all_in_intro. intros b J. destruct (Forall2_in_r _ _ _ H b J) as (a & Ia & Ra). eapply IH; [apply K, Ia|exact Ra]. }
  assert (CC : forall c, no_locals (construct c)).
  { intro c. unfold construct. cbn. apply (all_in_intro no_locals). intros a J. apply in_map_iff in J as (p & <- & _). exact I. }
  destruct CV; cbn [no_locals]; try exact I; cbn [size] in *.
  - destruct e; cbn; auto.
  - eapply L; [eassumption|]. intros a J. pose proof (size_in size _ a J). lia.
  - split; [eapply IH; [|eassumption]; lia|]. eapply L; [eassumption|]. intros a J. pose proof (size_in size _ a J). lia.
  - split; [|eapply IH; [|eassumption]; lia]. eapply L; [eassumption|]. intros a J. pose proof (size_in size _ a J). lia.
  - repeat split; (eapply IH; [|eassumption]; lia).
  - repeat split; (eapply IH; [|eassumption]; lia).
  - repeat split; (eapply IH; [|eassumption]; lia).
  - repeat split; (eapply IH; [|eassumption]; lia).
  - split; [eapply IH; [|eassumption]; lia|]. apply (all_in_intro (fun c => no_locals (snd c))). intros z J. destruct (Forall2_in_r _ _ _ H z J) as (w & Iw & _ & _ & Ra).
    eapply IH; [|exact Ra]. pose proof (size_in (fun c => size (snd c)) _ w Iw). cbn in *. lia.
  - split; [exact I|]. eapply IH; [|eassumption]; lia.
  - assert (K : no_locals (ELetVar l' b')) by (eapply IH; [|eassumption]; cbn; lia). cbn in K. split; [split; [|apply K]|apply K]. eapply IH; [|eassumption]; cbn; lia.
  - split; [exact I|]. eapply IH; [|eassumption]; lia.
  - assert (K : no_locals (ELetCont l' b')) by (eapply IH; [|eassumption]; cbn; lia). cbn in K. split; [split; [|apply K]|apply K]. eapply IH; [|eassumption]; cbn; lia.
  - eapply IH; [|eassumption]; lia.
  - split; [split; [apply CC|exact I]|]. eapply IH; [|eassumption]; lia.
  - assert (K : no_locals (ELetVar l' b')) by (eapply IH; [|eassumption]; cbn; lia). cbn in K. split; [split; [apply CC|apply K]|apply K].
Qed.

(** ** More fuel does no harm *)
Section More.
Variables (n1 n2 : state -> expr -> outcome (state * expr)).
Hypothesis H : forall s x r, n1 s x = Ret r -> n2 s x = Ret r.
Lemma norms_more : forall es s r, norms n1 s es = Ret r -> norms n2 s es = Ret r.
Proof. induction es as [|e es IH]; intros s r E; [exact E|]. cbn in *. apply bind_ret in E as ([s1 y] & E1 & E). apply bind_ret in E as ([s2 ys] & E2 & E). rewrite (H _ _ _ E1). cbn. rewrite (IH _ _ E2). exact E. Qed.
Lemma norm_vars_more : forall es s r, norm_vars n1 s es = Ret r -> norm_vars n2 s es = Ret r.
Proof. induction es as [|[[id t] e] es IH]; intros s r E; [exact E|]. cbn in *. apply bind_ret in E as ([s1 y] & E1 & E). apply bind_ret in E as ([s2 ys] & E2 & E). rewrite (H _ _ _ E1). cbn. rewrite (IH _ _ E2). exact E. Qed.
Lemma norm_clauses_more : forall es s r, norm_clauses n1 s es = Ret r -> norm_clauses n2 s es = Ret r.
Proof. induction es as [|[p e] es IH]; intros s r E; [exact E|]. cbn in *. apply bind_ret in E as ([s1 y] & E1 & E). apply bind_ret in E as ([s2 ys] & E2 & E). rewrite (H _ _ _ E1). cbn. rewrite (IH _ _ E2). exact E. Qed.
Lemma norm_conts_more : forall es s r, norm_conts n1 s es = Ret r -> norm_conts n2 s es = Ret r.
Proof. induction es as [|[[id ps] e] es IH]; intros s r E; [exact E|]. cbn in *. apply bind_ret in E as ([s1 y] & E1 & E). apply bind_ret in E as ([s2 ys] & E2 & E). rewrite (H _ _ _ E1). cbn. rewrite (IH _ _ E2). exact E. Qed.
End More.

Lemma norm_more : forall fuel fuel' s x r, (fuel <= fuel')%nat -> norm fuel s x = Ret r -> norm fuel' s x = Ret r.
Proof.
  induction fuel as [|fuel IH]; intros fuel' s x r L E; [discriminate E|]. destruct fuel' as [|fuel']; [lia|].
  assert (M : forall s x r, norm fuel s x = Ret r -> norm fuel' s x = Ret r) by (intros; apply IH; [lia|assumption]). clear IH.
  pose proof (norms_more _ _ M) as M1. pose proof (norm_vars_more _ _ M) as M2. pose proof (norm_clauses_more _ _ M) as M3. pose proof (norm_conts_more _ _ M) as M4.
  destruct x; cbn [norm] in *; try exact E;
    repeat match type of E with bind _ _ = Ret _ => let s1 := fresh "s" in let y := fresh "y" in let E1 := fresh "E" in apply bind_ret in E as ([s1 y] & E1 & E) end;
    repeat match goal with X : norm fuel _ _ = Ret _ |- _ => apply M in X | X : norms _ _ _ = Ret _ |- _ => apply M1 in X | X : norm_vars _ _ _ = Ret _ |- _ => apply M2 in X
      | X : norm_clauses _ _ _ = Ret _ |- _ => apply M3 in X | X : norm_conts _ _ _ = Ret _ |- _ => apply M4 in X end;
    repeat match goal with X : ?a = Ret _ |- context [bind ?a _] => rewrite X; cbn [bind] end; exact E.
Qed.
Lemma drain_more : forall rounds rounds' fuel fuel' s done out, (rounds <= rounds')%nat -> (fuel <= fuel')%nat -> drain rounds fuel s done = Ret out -> drain rounds' fuel' s done = Ret out.
Proof.
  induction rounds as [|rounds IH]; intros rounds' fuel fuel' s done out L L' E.
  - cbn in E. destruct (pending s) as [|[id f] rest] eqn:EP; [|discriminate E]. destruct rounds'; cbn; rewrite EP; exact E.
  - destruct rounds' as [|rounds']; [lia|]. cbn in *. destruct (pending s) as [|[id f] rest]; [exact E|]. apply bind_ret in E as ([s1 f'] & E1 & E).
    assert (E2 : norm_function fuel' (State (next_rt s) (next_ct s) rest (types s)) f = Ret (s1, f')).
    { unfold norm_function in *. apply bind_ret in E1 as ([s2 b] & E1 & E2). rewrite (norm_more _ _ _ _ _ L' E1). exact E2. }
    rewrite E2. cbn. eapply IH; [| |exact E]; lia.
Qed.

(** ** What happens to each function *)
Section Trace.
Variables (N fuel : nat).

Definition traced (out : list (nat * function)) (T : nat * function -> Prop) : Prop :=
  forall g f, T (g, f) -> exists s0 s1 b, env_below (next_rt s0) f /\ ready N (next_rt s0) fuel f /\ (N <= next_rt s0)%nat /\ norm fuel s0 (f_body f) = Ret (s1, b) /\
    In (g, Function (f_env f) (f_params f) (f_ret f) b) out /\ forall p, In p (pending s1) -> T p.

Lemma in_seq_below : forall a n l, map fst l = List.seq a n -> forall p : nat * function, In p l -> (a <= fst p < a + n)%nat.
Proof. intros a n l H p I. apply in_seq. rewrite <- H. apply in_map, I. Qed.

Lemma drain_trace : forall rounds s done out, drain rounds fuel s done = Ret out -> (N <= next_rt s)%nat ->
  NoDup (map fst (done ++ pending s)) -> Forall (fun p => (fst p < next_ct s)%nat) (done ++ pending s) -> Forall (fun p => env_below (next_rt s) (snd p)) (pending s) ->
  Forall (fun p => ready N (next_rt s) fuel (snd p)) (pending s) ->
  exists T : nat * function -> Prop, (forall p, In p (pending s) -> T p) /\ traced out T /\ NoDup (map fst out) /\ (forall p, In p done -> In p out) /\
    (forall p, In p out -> In p done \/ exists f, T (fst p, f) /\ f_env (snd p) = f_env f /\ f_params (snd p) = f_params f /\ f_ret (snd p) = f_ret f).
Proof.
  induction rounds as [|rounds IH]; intros s done out E LN ND LT EB RD.
  - cbn in E. destruct (pending s) as [|[id f] rest] eqn:EP; [|discriminate E]. injection E as <-. exists (fun _ => False). rewrite app_nil_r in ND. split; [intros p []|]. split; [intros g f []|]. split; [exact ND|]. split; auto.
  - cbn [drain] in E. destruct (pending s) as [|[id f] rest] eqn:EP.
    + injection E as <-. exists (fun _ => False). rewrite app_nil_r in ND. split; [intros p []|]. split; [intros g f []|]. split; [exact ND|]. split; auto.
    + apply bind_ret in E as ([s1 f'] & E1 & E). inversion RD as [|? ? RDf RDr]; subst. cbn [snd] in RDf.
      destruct (function_total N fuel (State (next_rt s) (next_ct s) rest (types s)) f RDf) as (s3 & f3 & E3 & (l3 & P3 & RL3 & _) & _). rewrite E1 in E3. injection E3 as <- <-. cbn [pending] in P3.
      unfold norm_function in E1. fold (start (State (next_rt s) (next_ct s) rest (types s)) f) in E1. set (s0 := start (State (next_rt s) (next_ct s) rest (types s)) f) in *.
      apply bind_ret in E1 as ([s2 b] & E1 & E2). injection E2 as <- <-. pose proof (norm_grows _ _ _ _ _ E1) as (R1 & C1 & _ & l & P1 & K1 & EB1).
      assert (S0 : next_rt s0 = next_rt s /\ next_ct s0 = next_ct s /\ pending s0 = rest) by (unfold s0; rewrite start_rt, start_ct, start_pending; auto).
      destruct S0 as (S01 & S02 & S03). rewrite S01 in R1. rewrite S02 in C1, K1. rewrite S03 in P1.
      pose proof (in_seq_below _ _ _ K1) as IB. pose proof (Forall_inv EB) as EBf. cbn [snd] in EBf. pose proof (Forall_inv_tail EB) as EBr.
      destruct (IH s2 (done ++ [(id, Function (f_env f) (f_params f) (f_ret f) b)]) out E) as (T & T1 & T2 & T3 & T4 & T5).
      * lia.
      * rewrite P1. rewrite <- app_assoc. cbn [List.app]. rewrite !app_comm_cons, app_assoc. rewrite map_app. apply NoDup_app_intro.
        -- rewrite map_app in ND |- *. exact ND.
        -- rewrite K1. apply seq_NoDup.
        -- intros i I J. rewrite K1 in J. apply in_seq in J. rewrite Forall_forall in LT. apply in_map_iff in I as (p & <- & Ip).
           assert (fst p < next_ct s)%nat; [|lia]. apply in_app_or in Ip as [Ip|[<-|Ip]]; [apply LT, in_or_app; auto|apply (LT (id, f)), in_or_app; right; left; reflexivity|apply LT, in_or_app; right; right; exact Ip].
      * rewrite Forall_forall in LT |- *. intros p Ip. apply in_app_or in Ip as [Ip|Ip].
        -- assert (fst p < next_ct s)%nat; [|lia]. apply in_app_or in Ip as [Ip|[<-|[]]]; [apply LT, in_or_app; auto|apply (LT (id, f)), in_or_app; right; left; reflexivity].
        -- rewrite P1 in Ip. apply in_app_or in Ip as [Ip|Ip]; [|apply IB in Ip; lia]. assert (fst p < next_ct s)%nat; [|lia]. apply LT, in_or_app. right. right. exact Ip.
      * rewrite P1. apply Forall_app. split; [|exact EB1]. eapply Forall_impl; [|exact EBr]. intros p. apply env_below_mono. exact R1.
      * rewrite P3. apply Forall_app. split; [|exact RL3]. eapply Forall_impl; [|exact RDr]. intros p. apply ready_mono; [exact R1|lia].
      * exists (fun p => p = (id, f) \/ T p). split; [|split; [|split; [exact T3|split]]].
        -- intros p [<-|Ip]; [left; reflexivity|right]. apply T1. rewrite P1. apply in_or_app. auto.
        -- intros g f0 [Eg|Tg].
           ++ injection Eg as -> ->. exists s0, s2, b. rewrite S01. split; [exact EBf|]. split; [exact RDf|]. split; [exact LN|]. split; [exact E1|]. split; [|intros p Ip; right; apply T1, Ip].
              apply T4, in_or_app. right. left. reflexivity.
           ++ destruct (T2 g f0 Tg) as (a1 & a2 & b0 & A1 & A0 & A2 & A3 & A4 & A5). exists a1, a2, b0. split; [exact A1|]. split; [exact A0|]. split; [exact A2|]. split; [exact A3|]. split; [exact A4|]. intros p Ip. right. apply A5, Ip.
        -- intros p Ip. apply T4, in_or_app. auto.
        -- intros p Ip. destruct (T5 p Ip) as [J|(f0 & J & K)]; [|right; exists f0; split; [right; exact J|exact K]].
           apply in_app_or in J as [J|[<-|[]]]; [left; exact J|]. right. exists f. split; [left; reflexivity|]. cbn. auto.
Qed.
End Trace.

Lemma table_in : forall l g (f : function), NoDup (map fst l) -> In (g, f) l -> table l g = Some f.
Proof.
  unfold table. induction l as [|[k x] l IH]; intros g f ND I; [destruct I|]. cbn in *. inversion ND as [|? ? NI ND']; subst. destruct I as [E|I].
  - injection E as -> ->. rewrite Nat.eqb_refl. reflexivity.
  - destruct (Nat.eqb_spec g k) as [->|NE]; [|apply IH; assumption]. exfalso. apply NI. apply (in_map fst) in I. exact I.
Qed.
Lemma in_table : forall l g (f : function), table l g = Some f -> In (g, f) l.
Proof.
  unfold table. induction l as [|[k x] l IH]; intros g f E; [discriminate E|]. cbn in E. destruct (Nat.eqb_spec g k) as [->|NE]; [injection E as ->; left; reflexivity|right; apply IH, E].
Qed.

(** ** Values without local functions *)
Lemma global_alike : forall F v, global v -> alike (crel F) v v.
Proof.
  intro F. fix IH 2. intros v H.
  assert (L : forall vs, Forall global vs -> Forall2 (alike (crel F)) vs vs).
  { fix IHL 2. intros vs K. destruct K as [|v0 vs K0 K]; constructor; [apply IH, K0|apply IHL, K]. }
  destruct H.
  - apply alike_atom.
  - apply alike_ptr.
  - apply alike_data, L, H.
  - apply alike_struct, L, H.
  - apply alike_syntax, IH, H.
  - apply alike_env, L, H.
  - apply alike_fun, crel_static.
  - apply alike_fun, crel_static_env, IH, H.
Qed.
Lemma alike_global : forall F v, global v -> forall v', alike (crel F) v v' -> v = v'.
Proof.
  intro F. fix IH 2. intros v H.
  assert (L : forall vs, Forall global vs -> forall vs', Forall2 (alike (crel F)) vs vs' -> vs = vs').
  { fix IHL 2. intros vs K vs' R. destruct K as [|v0 vs K0 K]; [inversion R; reflexivity|].
    destruct vs' as [|v0' vs']; [inversion R|]. assert (R1 : alike (crel F) v0 v0') by (inversion R; assumption). assert (R2 : Forall2 (alike (crel F)) vs vs') by (inversion R; assumption). f_equal; [apply IH; assumption|apply IHL; assumption]. }
  destruct H; intros v' R.
  - inversion R as [| | | | | |? ? K]; subst; [reflexivity|inversion K].
  - inversion R as [| | | | | |? ? K]; subst; [reflexivity|inversion K].
  - inversion R as [| |? ? ? K| | | |? ? K]; subst; [f_equal; apply L; assumption|inversion K].
  - inversion R as [| | |? ? ? K| | |? ? K]; subst; [f_equal; apply L; assumption|inversion K].
  - inversion R as [| | | |? ? K| |? ? K]; subst; [f_equal; apply IH; assumption|inversion K].
  - inversion R as [| | | | |? ? K|? ? K]; subst; [f_equal; apply L; assumption|inversion K].
  - inversion R as [| | | | | |? ? K]; subst. inversion K; subst. reflexivity.
  - inversion R as [| | | | | |? ? K]; subst. inversion K; subst. do 2 f_equal. apply IH; assumption.
Qed.

(** ** Programs *)
Lemma converted : forall n k fs rounds fuel out, program n k fs -> normalize rounds fuel n k fs = Ret out ->
  NoDup (map fst out) /\ Forall (fun p => no_locals (f_body (snd p))) out /\
  (forall g f, table fs g = Some f -> exists b, table out g = Some (Function (f_env f) (f_params f) (f_ret f) b) /\ conv (table out) unchanged (bound f) [] (f_body f) b).
Proof.
  intros n k fs rounds fuel out [ND PR] E. rewrite Forall_forall in PR.
  set (big := Nat.max fuel (top (fun p => height (f_body (snd p))) fs)).
  assert (E' : normalize rounds big n k fs = Ret out) by (unfold normalize in *; eapply drain_more; [| |exact E]; unfold big; lia). clear E.
  unfold normalize in E'. destruct (drain_trace n big rounds _ [] out E') as (T & T1 & T2 & T3 & _ & T5); cbn [pending next_rt next_ct List.app].
  - lia.
  - exact ND.
  - apply Forall_forall. intros p I. apply PR, I.
  - apply Forall_forall. intros p I. destruct (PR p I) as (_ & _ & _ & LT). unfold env_below. rewrite Forall_app in LT. destruct LT as [LT _]. unfold bound in LT. rewrite Forall_app in LT. destruct LT as [_ LT].
    destruct (f_env (snd p)) as [[id ps]|]; [exact LT|exact Logic.I].
  - apply Forall_forall. intros p I. destruct (PR p I) as [_ WF]. exists unchanged, (bound (snd p)), [], (f_body (snd p)). split; [symmetry; apply app_unchanged|]. split; [apply well_formed_ok, WF|].
    split; [split; [intros u J; exact J|intros f0 g e []]|]. pose proof (top_in (fun p => height (f_body (snd p))) fs p I). unfold big. lia.
  - cbn [pending] in T1. set (F := table out).
    assert (HA : forall g f, T (g, f) -> exists fuel s0 s1 b, env_below (next_rt s0) f /\ (n <= next_rt s0)%nat /\ norm fuel s0 (f_body f) = Ret (s1, b) /\
      F g = Some (Function (f_env f) (f_params f) (f_ret f) b) /\ forall p, In p (pending s1) -> T p).
    { intros g f TG. destruct (T2 g f TG) as (s0 & s1 & b & A1 & _ & A2 & A3 & A4 & A5). exists big, s0, s1, b. repeat split; try assumption. apply table_in; assumption. }
    split; [exact T3|]. split.
    + apply Forall_forall. intros [g f'] Ip. destruct (T5 (g, f') Ip) as [[]|(f & TG & _)]. cbn [fst snd] in *.
      destruct (T2 g f TG) as (s0 & s1 & b & A1 & (m & vs & fs0 & x & EB & OX & _ & _) & A2 & A3 & A4 & A5). rewrite EB in A3.
      pose proof (driver F T n HA x big s0 s1 b m vs fs0 A3 OX A5) as CV. apply conv_no_locals in CV.
      apply (table_in _ _ _ T3) in Ip, A4. rewrite A4 in Ip. injection Ip as <-. exact CV.
    + intros g f EF. apply in_table in EF. destruct (T2 g f (T1 _ EF)) as (s0 & s1 & b & A1 & _ & A2 & A3 & A4 & A5). exists b. split; [apply table_in; assumption|].
      rewrite <- (app_unchanged (f_body f)) in A3. eapply driver; [exact HA|exact A3| |exact A5]. eapply ok_mono; [exact A2|]. apply well_formed_ok. apply (PR _ EF).
Qed.

Lemma calls_agree : forall prim equals n k fs rounds fuel out, prims_opaque prim -> equals_opaque equals -> program n k fs -> normalize rounds fuel n k fs = Ret out ->
  agree prim equals (table fs) (table out) (crel (table out)).
Proof.
  intros prim equals n k fs rounds fuel out HP HE PR E. destruct (converted n k fs rounds fuel out PR E) as (_ & _ & HC).
  assert (HF : forall g f, table fs g = Some f -> exists f', table out g = Some f' /\ fun_conv (table out) f f').
  { intros g f EF. destruct (HC g f EF) as (b & EB & CV). eexists. split; [exact EB|]. repeat split. exact CV. }
  intros v v' CR. split; [apply C_functions in CR; exact CR|]. intros h h' vs vs' e body h1 r RH RA EN EV.
  destruct (entered_rel (table fs) (table out) HF v vs e body EN v' vs' (alike_fun _ _ _ CR) RA) as (e' & body' & m & vs0 & fs0 & EN' & RE & CV).
  destruct (proj1 (simulation prim equals HP HE (table fs) (table out) HF) h e body h1 r EV m vs0 fs0 body' e' h' CV RE RH) as (h1' & r' & EV' & RH' & RR).
  exists e', body', h1', r'. auto.
Qed.

Lemma alike_weaken : forall (C D : value -> value -> Prop), (forall v v', C v v' -> D v v') -> forall v v', alike C v v' -> alike D v v'.
Proof.
  intros C D H. fix IH 3. intros v v' R.
  assert (L : forall vs vs', Forall2 (alike C) vs vs' -> Forall2 (alike D) vs vs').
  { fix IHL 3. intros vs vs' K. destruct K as [|a b vs vs' K1 K2]; constructor; [apply IH, K1|apply IHL, K2]. }
  destruct R; [apply alike_atom|apply alike_ptr|apply alike_data, L; assumption|apply alike_struct, L; assumption|apply alike_syntax, IH; assumption|apply alike_env, L; assumption|apply alike_fun, H; assumption].
Qed.

(** A program, called from outside. *)
Lemma same_calls : forall prim equals n k fs rounds fuel out, prims_opaque prim -> equals_opaque equals -> program n k fs -> normalize rounds fuel n k fs = Ret out ->
  forall h vs g cenv e body h1 r, Forall global_cell h -> Forall global vs -> global (VFun g cenv) -> entered (table fs) (VFun g cenv) vs e body ->
  ev prim equals (table fs) h e body h1 r -> Forall global_cell h1 -> global_res r ->
  exists e' body', entered (table out) (VFun g cenv) vs e' body' /\ ev prim equals (table out) h e' body' h1 r.
Proof.
  intros prim equals n k fs rounds fuel out HP HE PR E h vs g cenv e body h1 r GH GV GF EN EV GH1 GR.
  pose proof (calls_agree prim equals n k fs rounds fuel out HP HE PR E) as AG.
  assert (CF : crel (table out) (VFun g cenv) (VFun g cenv)) by (destruct cenv as [w|]; [apply crel_static_env, global_alike; inversion GF; assumption|apply crel_static]).
  assert (RH : Forall2 (alike_cell (crel (table out))) h h).
  { clear - GH. induction GH as [|c h GW GH IH]; [apply Forall2_nil|apply Forall2_cons; [|exact IH]]. destruct c; constructor. apply global_alike, GW. }
  assert (RV : Forall2 (alike (crel (table out))) vs vs) by (clear - GV; induction GV as [|w vs GW GV IH]; [apply Forall2_nil|apply Forall2_cons; [apply global_alike, GW|exact IH]]).
  destruct (AG _ _ CF) as [_ AG1]. destruct (AG1 h h vs vs e body h1 r RH RV EN EV) as (e' & body' & h1' & r' & EN' & EV' & RH' & RR).
  assert (EH : h1 = h1').
  { clear - GH1 RH'. induction RH' as [|c c' h h' RC RH IH]; [reflexivity|]. inversion GH1 as [|? ? G1 G2]; subst. f_equal; [|apply IH; assumption].
    destruct RC as [|w w' RW]; [reflexivity|]. f_equal. eapply alike_global; [exact G1|exact RW]. }
  assert (ER : r = r').
  { clear - GR RR. destruct RR as [w w' RW|w w' RW|i ws ws' RW|s]; cbn in GR; [f_equal; eapply alike_global; eauto|f_equal; eapply alike_global; eauto| |reflexivity].
    f_equal. induction RW as [|w w' ws ws' R1 R2 IH]; [reflexivity|]. inversion GR; subst. f_equal; [eapply alike_global; eauto|apply IH; assumption]. }
  subst. exists e', body'. auto.
Qed.

Lemma same_calls_iff : forall prim equals n k fs rounds fuel out, prims_opaque prim -> equals_opaque equals -> program n k fs -> normalize rounds fuel n k fs = Ret out ->
  forall h vs g cenv e body h1 r, Forall global_cell h -> Forall global vs -> global (VFun g cenv) ->
  entered (table fs) (VFun g cenv) vs e body -> ev prim equals (table fs) h e body h1 r -> Forall global_cell h1 -> global_res r ->
  exists e' body', entered (table out) (VFun g cenv) vs e' body' /\
  forall h2 r2, ev prim equals (table out) h e' body' h2 r2 <-> h2 = h1 /\ r2 = r.
Proof.
  intros prim equals n k fs rounds fuel out HP HE PR E h vs g cenv e body h1 r GH GV GF EN EV GH1 GR.
  destruct (same_calls prim equals n k fs rounds fuel out HP HE PR E h vs g cenv e body h1 r GH GV GF EN EV GH1 GR) as (e' & body' & EN' & EV').
  exists e', body'. split; [exact EN'|]. intros h2 r2. split; [intro K; eapply ev_one_result; eauto|intros [-> ->]; exact EV'].
Qed.
Lemma calls_agree_relation : forall prim equals n k fs rounds fuel out, prims_opaque prim -> equals_opaque equals -> program n k fs -> normalize rounds fuel n k fs = Ret out ->
  exists C, agree prim equals (table fs) (table out) C /\ forall v, global v -> alike C v v /\ forall v', alike C v v' -> v' = v.
Proof.
  intros prim equals n k fs rounds fuel out HP HE PR E. exists (crel (table out)). split; [eapply calls_agree; eauto|].
  intros v G. split; [apply global_alike, G|]. intros v' R. symmetry. eapply alike_global; eauto.
Qed.
Lemma converted_shape : forall n k fs rounds fuel out, program n k fs -> normalize rounds fuel n k fs = Ret out ->
  NoDup (map fst out) /\ Forall (fun p => no_locals (f_body (snd p))) out /\
  (forall g f, table fs g = Some f -> exists b, table out g = Some (Function (f_env f) (f_params f) (f_ret f) b)).
Proof.
  intros n k fs rounds fuel out PR E. destruct (converted n k fs rounds fuel out PR E) as (A & B & C). split; [exact A|]. split; [exact B|].
  intros g f EF. destruct (C g f EF) as (b & EB & _). exists b. exact EB.
Qed.
Lemma normalize_total_program : forall n k fs, program n k fs ->
  exists limit, forall rounds fuel, (limit <= rounds)%nat -> (limit <= fuel)%nat -> exists out, normalize rounds fuel n k fs = Ret out.
Proof. intros n k fs [_ H]. apply normalize_total. eapply Forall_impl; [|exact H]. intros p [_ W]. exact W. Qed.
