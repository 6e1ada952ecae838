(** * Locations do not matter as long as nothing is released *)
From Verif.Base Require Import Base.
From Verif.Ir Require Import Model Spec Proofs RtInd.
From Verif.Heap2Stack Require Import Model Spec ProofsSafe.

Definition kept (x : rt) : Prop := forall l, erase (fst (rw x l)) = erase x.

Lemma rws_erase xs : Forall kept xs -> forall l, map erase (fst (rws rw xs l)) = map erase xs.
Proof.
  induction 1 as [|x xs Hx _ IH]; intro l; cbn; [reflexivity|].
  specialize (Hx l). destruct (rw x l) as [x1 l1]. specialize (IH l1). destruct (rws rw xs l1).
  cbn in *. congruence.
Qed.

Lemma keyed_erase {A} (vs vs' : list (A * rt)) :
  map fst vs' = map fst vs -> map erase (map snd vs') = map erase (map snd vs) ->
  map (fun v => (fst v, erase (snd v))) vs' = map (fun v => (fst v, erase (snd v))) vs.
Proof.
  revert vs'. induction vs as [|[k x] vs IH]; intros [|[k' x'] vs']; cbn; try discriminate; auto.
  intros E1 E2. injection E1 as -> E1. injection E2 as -> E2. f_equal. auto.
Qed.

Lemma promote_erase l vs :
  map (fun v => (fst v, erase (snd v))) (map (promote l) vs) = map (fun v => (fst v, erase (snd v))) vs.
Proof.
  rewrite map_map. apply map_ext. intros [[id t] x]. unfold promote. destruct x; try reflexivity.
  destruct (mem id l); reflexivity.
Qed.

Lemma rw_unary o a l : kept a -> erase (fst (rw (RUnary o a) l)) = RUnary o (erase a).
Proof.
  intro K. specialize (K l).
  assert (E : rw (RUnary o a) l = (RUnary o a, l) \/ rw (RUnary o a) l = (let (a, l) := rw a l in (RUnary o a, l)))
    by (destruct o; cbn [rw]; auto; destruct a; auto).
  destruct E as [-> | ->]; [reflexivity|]. destruct (rw a l). cbn in *. congruence.
Qed.

Lemma rw_binary o a b l : kept a -> kept b -> erase (fst (rw (RBinary o a b) l)) = RBinary o (erase a) (erase b).
Proof.
  intros Ka Kb. specialize (Ka l).
  assert (E : rw (RBinary o a b) l = (let (a, l) := rw a l in (RBinary o a b, l))
    \/ rw (RBinary o a b) l = (let (a, l) := rw a l in let (b, l) := rw b l in (RBinary o a b, l)))
    by (destruct o; cbn [rw]; auto; destruct b; auto).
  destruct E as [-> | ->]; destruct (rw a l) as [a1 l1]; cbn in *; [congruence|].
  specialize (Kb l1). destruct (rw b l1). cbn in *. congruence.
Qed.

Lemma rw_erase x : kept x.
Proof.
  induction x as [x IH] using rt_children_ind. intro l. change (Forall kept (children x)) in IH.
  destruct x as [id t|f t o|c|f es|lb r es|k f r es|k es r|o|o a|o a b|o a b c|lo a|lo t a|lo es|t i es|t es
    |m a|es a|a b c|a b|a b|a b|a cs|a| |vs b|ks b].
  9: { cbn in IH. inversion IH; subst. apply rw_unary. assumption. }
  9: { cbn in IH. inversion IH as [|? ? Ha F]; subst. inversion F; subst. apply rw_binary; assumption. }
  all: cbn [rw children] in *; try reflexivity.
  1: destruct o as [a|]; [|reflexivity].
  all: repeat match goal with
    | K : Forall kept (_ ++ [_]) |- _ => apply Forall_app in K; destruct K
    | K : Forall kept (_ :: _) |- _ => inversion K; subst; clear K
    | K : Forall kept [] |- _ => clear K
    end.
  all: repeat match goal with
    | |- context [let (_, _) := rws rw ?es ?l in _] =>
        let E := fresh in pose proof (rws_erase es ltac:(assumption) l) as E; destruct (rws rw es l)
    | |- context [let (_, _) := rw_clauses rw ?cs ?l in _] =>
        let cs' := fresh in let l' := fresh in let E := fresh in let E1 := fresh in let E2 := fresh in
        destruct (rw_clauses rw cs l) as [cs' l'] eqn:E; destruct (rw_clauses_spec _ _ _ _ E) as [E1 E2];
        pose proof (rws_erase (map snd cs) ltac:(assumption) l) as E3; rewrite E1 in E3; clear E E1
    | |- context [let (_, _) := rw_conts rw ?cs ?l in _] =>
        let cs' := fresh in let l' := fresh in let E := fresh in let E1 := fresh in let E2 := fresh in
        destruct (rw_conts rw cs l) as [cs' l'] eqn:E; destruct (rw_conts_spec _ _ _ _ E) as [E1 E2];
        pose proof (rws_erase (map snd cs) ltac:(assumption) l) as E3; rewrite E1 in E3; clear E E1
    | |- context [let (_, _) := rw_lets rw ?cs ?l in _] =>
        let cs' := fresh in let l' := fresh in let E := fresh in let E1 := fresh in let E2 := fresh in
        destruct (rw_lets rw cs l) as [cs' l'] eqn:E; destruct (rw_lets_spec _ _ _ _ E) as [E1 E2];
        pose proof (rws_erase (map snd cs) ltac:(assumption) l) as E3; rewrite E1 in E3; clear E E1
    | K : kept ?a |- context [let (_, _) := rw ?a ?l in _] =>
        let E := fresh in pose proof (K l) as E; destruct (rw a l)
    end; cbn [fst erase] in *; rewrite ?promote_erase; f_equal; auto using keyed_erase.
  f_equal. assumption.
Qed.

(** ** Evaluation *)
Section Ev.
Variables (round32 : fp -> fp) (prim : prim_op -> heap -> list val -> option (heap * val)).
Variables (funs funs' : nat -> option (list nat * list nat * rt)).
Hypothesis related : forall g ps cs b, funs g = Some (ps, cs, b) ->
  exists b', funs' g = Some (ps, cs, b') /\ erase b' = erase b.

Lemma operation_erase x y o es : erase x = erase y -> operation x = Some (o, es) ->
  exists es', operation y = Some (o, es') /\ map erase es = map erase es'.
Proof.
  intros E H.
  destruct x as [id t|f t c|c|f ys|lb r ys|k f r ys|k ys r|u|u a|u a b|u a b c|lo a|lo t a|lo ys|t i ys|t ys
    |m a|ys a|a b c|a b|a b|a b|a cs|a| |vs b|ks b]; try discriminate H.
  1: destruct c as [c|].
  all: destruct y; try discriminate E; cbn in E; injection E; intros; subst; injection H as <- <-;
    try (eexists; split; [reflexivity|]; cbn; congruence).
  - destruct env; [|discriminate]. eexists. split; [reflexivity|]. cbn. congruence.
  - destruct env; [discriminate|]. eexists. split; reflexivity.
Qed.

Lemma first_match_erase h v cs : forall cs' binds b,
  map (fun c => (fst c, erase (snd c))) cs = map (fun c => (fst c, erase (snd c))) cs' ->
  first_match round32 h v cs = Some (binds, b) ->
  exists b', first_match round32 h v cs' = Some (binds, b') /\ erase b = erase b'.
Proof.
  induction cs as [|[p x] cs IH]; intros [|[p' x'] cs'] binds b E; cbn; try discriminate; cbn in E; try discriminate E.
  injection E as -> Ex E. destruct (pmatch round32 h p' v); try discriminate; [|apply IH; exact E].
  intro H. injection H as <- <-. eauto.
Qed.

Lemma erased_ev :
  (forall h e x h1 r, ev false round32 prim funs h e x h1 r ->
     forall y, erase x = erase y -> ev false round32 prim funs' h e y h1 r) /\
  (forall h e xs h1 r, evs false round32 prim funs h e xs h1 r ->
     forall ys, map erase xs = map erase ys -> evs false round32 prim funs' h e ys h1 r).
Proof.
  apply (ev_evs_ind false round32 prim funs
    (fun h e x h1 r => forall y, erase x = erase y -> ev false round32 prim funs' h e y h1 r)
    (fun h e xs h1 r => forall ys, map erase xs = map erase ys -> evs false round32 prim funs' h e ys h1 r)).
  2: { intros h e x o es h1 vs h2 r O _ IH Pf y E. destruct (operation_erase _ _ _ _ E O) as (es' & O' & M).
       eapply ev_operation; eauto. }
  2: { intros h e x o es h1 r O _ IH y E. destruct (operation_erase _ _ _ _ E O) as (es' & O' & M).
       eapply ev_operation_stop; eauto. }
  all: intros.
  all: match goal with
    | E : erase _ = erase ?y |- _ => destruct y; try discriminate E; cbn in E; injection E; clear E; intros; subst
    | E : map erase _ = map erase ?ys |- _ =>
        destruct ys; try discriminate E; cbn in E; try (injection E; clear E; intros)
    end.
  all: repeat match goal with
    | E : map _ (_ :: _) = map _ ?ys |- _ =>
        destruct ys as [|? ?]; try discriminate E; cbn in E; injection E; clear E; intros; subst
    | E : _ :: _ = map _ ?ys |- _ =>
        destruct ys as [|? ?]; try discriminate E; cbn in E; injection E; clear E; intros; subst
    | E : [] = map _ ?ys |- _ => destruct ys; [|discriminate E]
    | E : (_, _) = fst ?p |- _ => destruct p as [? ?]; cbn in E; subst
    end.
  all: repeat match goal with p : (nat * ct * rt)%type |- _ => destruct p as [[? ?] ?]; cbn in *
    | p : (nat * list param * rt)%type |- _ => destruct p as [[? ?] ?]; cbn in * end.
  all: repeat match goal with E : (_, _) = (_, _) |- _ => injection E; clear E; intros; subst end.
  all: try (econstructor; eauto; fail).
  1: match goal with F : funs _ = Some _ |- _ => destruct (related _ _ _ _ F) as (b' & F' & E) end;
     eapply ev_call; eauto; match goal with K : forall ys, _ -> evs _ _ _ _ _ _ ys _ _ |- _ => apply K end;
     cbn; congruence.
  1: eapply ev_call_stop; match goal with K : forall ys, _ -> evs _ _ _ _ _ _ ys _ _ |- _ => apply K end;
     cbn; congruence.
  3: eapply ev_while_next; eauto; match goal with
     | K : forall y, erase (RWhile _ _) = _ -> _ |- _ => apply K end; cbn; congruence.
  3: match goal with F : first_match _ _ _ _ = Some _, C : map _ _ = map _ _ |- _ =>
       destruct (first_match_erase _ _ _ _ _ _ C F) as (b' & F' & E) end; eapply ev_match; eauto.
  1: eapply ev_seq_cons; eauto; match goal with
     | K : forall y, erase (RSeq _ _) = _ -> _ |- _ => apply K end; cbn; congruence.
  1: eapply ev_if; eauto; match goal with |- ev _ _ _ _ _ _ (if ?b then _ else _) _ _ => destruct b end;
     match goal with K : forall y, _ -> ev _ _ _ _ _ _ y ?h ?r |- ev _ _ _ _ _ _ _ ?h ?r => apply K end;
     assumption.
  1: match goal with |- ev _ _ _ _ _ _ (RLetVar ((_, _, ?i) :: _) _) (release false _ ?v ?h) ?r =>
       change (release false init v h) with (release false i v h) end; eapply ev_let_cons; eauto;
     match goal with K : forall y, erase (RLetVar _ _) = _ -> _ |- _ => apply K end; cbn; congruence.
  1: eapply ev_cont_jump; eauto;
     match goal with K : forall y, erase (RLetCont _ _) = _ -> _ |- _ => apply K end; cbn; congruence.
  1: eapply ev_cont_other; eauto;
     match goal with K : forall y, erase (RLetCont _ _) = _ -> _ |- _ => apply K end; cbn; congruence.
Qed.
End Ev.
