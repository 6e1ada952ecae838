(** * The engine: adding objects *)
From Coq Require Import NArith ZArith Permutation.
From Verif.Base Require Import Base.
From Verif.Asm Require Model.
From Verif.Obj Require Import Model Spec ProofsProduce.
From Verif.Jit Require Import Model Spec Proofs ProofsEngine.
Import Asm.Model(le_bytes).
Local Open Scope Z_scope.

(** ** Symbols *)

Definition binds (e e' : engine) : Prop :=
  e' = with_symbols (e_symbols e') e /\ forall n a, find_name n (e_symbols e) = Some a -> find_name n (e_symbols e') = Some a.

Lemma binds_refl e : binds e e.
Proof. split; [now destruct e|auto]. Qed.
Lemma binds_trans e1 e2 e3 : binds e1 e2 -> binds e2 e3 -> binds e1 e3.
Proof. intros [A1 B1] [A2 B2]. split; [|auto]. rewrite A2, A1. reflexivity. Qed.
Lemma binds_mid e e' : binds e e' -> mid e -> mid e'.
Proof.
  intros [E K] M. rewrite E. constructor; try apply M. intros n g F. destruct (md_entries _ M n g F) as (a & A & H). exists a. split; [now apply K|exact H].
Qed.
Lemma binds_grows e e' W : binds e e' -> grows e e' W.
Proof. intros [E K]. rewrite E in *. constructor; auto. Qed.

Section Link.
Variable resolver : string -> Z.

Lemma bind_symbol_ok n ptr e : exists e' x, bind_symbol resolver n ptr e = Ret (e', x) /\ binds e e' /\
  (forall m a, m <> n -> find_name m (e_symbols e') = Some a -> find_name m (e_symbols e) = Some a) /\
  (x = inl tt -> exists a, find_name n (e_symbols e') = Some a /\
    match ptr with
    | Some p => find_name n (e_symbols e) = None /\ a = p
    | None => find_name n (e_symbols e) = Some a \/ find_name n (e_symbols e) = None /\ a = resolver n /\ a <> 0
    end).
Proof.
  unfold bind_symbol. destruct (find_name n (e_symbols e)) as [q|] eqn:F.
  - destruct ptr as [p|].
    + exists e, (inr (EDuplicateSymbol n)). split; [reflexivity|]. split; [apply binds_refl|]. split; [auto|discriminate].
    + exists e, (inl tt). split; [reflexivity|]. split; [apply binds_refl|]. split; [auto|]. intros _. exists q. rewrite F. auto.
  - assert (B : forall p, binds e (with_symbols ((n, p) :: e_symbols e) e)).
    { intro p. split; [reflexivity|]. intros m a E. cbn. destruct (String.eqb_spec m n) as [->|]; [congruence|exact E]. }
    assert (O : forall p m a, m <> n -> find_name m (e_symbols (with_symbols ((n, p) :: e_symbols e) e)) = Some a -> find_name m (e_symbols e) = Some a).
    { intros p m a Ne. cbn. destruct (String.eqb_spec m n) as [->|]; [congruence|auto]. }
    destruct ptr as [p|].
    + exists (with_symbols ((n, p) :: e_symbols e) e), (inl tt). split; [reflexivity|]. split; [apply B|]. split; [apply O|]. intros _. exists p. cbn. now rewrite String.eqb_refl.
    + destruct (Z.eqb_spec (resolver n) 0) as [Z0|Z0].
      * exists e, (inr (EUndefinedSymbol n)). split; [reflexivity|]. split; [apply binds_refl|]. split; [auto|discriminate].
      * exists (with_symbols ((n, resolver n) :: e_symbols e) e), (inl tt). split; [reflexivity|]. split; [apply B|]. split; [apply O|]. intros _. exists (resolver n). cbn. rewrite String.eqb_refl. auto.
Qed.

Lemma bind_ok k n b ls e : exists e' x, Model.bind resolver k n b ls e = Ret (e', x) /\ binds e e' /\
  (forall m a, find_name m (e_symbols e') = Some a -> find_name m (e_symbols e) = Some a \/ m = n /\ exists l, b = Global l) /\
  forall ls', x = inl ls' -> match b with
    | Local l => e' = e /\ ls' = (n, locate k l) :: ls
    | Global l => ls' = ls /\ exists a, find_name n (e_symbols e') = Some a /\
      match option_map (locate k) l with
      | Some p => find_name n (e_symbols e) = None /\ a = p
      | None => find_name n (e_symbols e) = Some a \/ find_name n (e_symbols e) = None /\ a = resolver n /\ a <> 0
      end
    end.
Proof.
  unfold Model.bind. destruct b as [l|l].
  - destruct (find_name n ls) as [q|].
    + exists e, (inr (EDuplicateSymbol n)). split; [reflexivity|]. split; [apply binds_refl|]. split; [auto|discriminate].
    + eexists e, (inl _). split; [reflexivity|]. split; [apply binds_refl|]. split; [auto|]. intros ls' [=<-]. auto.
  - destruct (bind_symbol_ok n (option_map (locate k) l) e) as (e' & x & -> & B & O0 & R). unfold and_then. cbn [Base.bind fst snd].
    assert (O : forall m a, find_name m (e_symbols e') = Some a -> find_name m (e_symbols e) = Some a \/ m = n /\ exists l', Global l = Global l').
    { intros m a F. destruct (string_dec m n) as [->|Ne]; [right; eauto|left; eauto]. }
    destruct x as [[]|err]; [|exists e', (inr err); split; [reflexivity|]; split; [exact B|]; split; [exact O|discriminate]].
    eexists e', (inl _). split; [reflexivity|]. split; [exact B|]. split; [exact O|]. intros ls' [=<-]. auto.
Qed.

Lemma bind_all_ok k : forall syms ls e, NoDup (map fst syms) -> exists e' x, bind_all resolver k syms ls e = Ret (e', x) /\ binds e e' /\
  (forall n a, find_name n (e_symbols e') = Some a -> find_name n (e_symbols e) = Some a \/ exists l, In (n, Global l) syms) /\
  forall ls', x = inl ls' ->
    (forall n, ~ In n (map fst syms) -> find_name n ls' = find_name n ls) /\
    (forall n l, In (n, Local l) syms -> find_name n ls' = Some (locate k l)) /\
    (forall n l, In (n, Global l) syms -> find_name n ls' = find_name n ls) /\
    (forall n l, In (n, Global (Some l)) syms -> find_name n (e_symbols e) = None /\ find_name n (e_symbols e') = Some (locate k l)) /\
    (forall n, In (n, Global None) syms -> exists a, find_name n (e_symbols e') = Some a /\
       (find_name n (e_symbols e) = Some a \/ find_name n (e_symbols e) = None /\ a = resolver n /\ a <> 0)).
Proof.
  induction syms as [|[n b] syms IH]; intros ls e Nd; cbn [bind_all map fst] in *.
  { exists e, (inl ls). split; [reflexivity|]. split; [apply binds_refl|]. split; [auto|]. intros ls' [=<-]. repeat split; auto; try (intros ? ? []); try (intros ? []); contradiction. }
  inversion Nd as [|? ? Nin Nd']; subst. destruct (bind_ok k n b ls e) as (e1 & x & -> & B1 & O1 & R1). unfold and_then. cbn [Base.bind fst snd].
  destruct x as [ls1|err].
  2: { exists e1, (inr err). split; [reflexivity|]. split; [exact B1|]. split; [|discriminate]. intros m a F.
       destruct (O1 m a F) as [F'|[-> (l & ->)]]; [now left|]. right. exists l. now left. }
  destruct (IH ls1 e1 Nd') as (e2 & y & -> & B2 & O2 & R2). exists e2, y. split; [reflexivity|]. split; [exact (binds_trans _ _ _ B1 B2)|].
  specialize (R1 ls1 eq_refl). split.
  - intros m a F. destruct (O2 m a F) as [F1|(l & I)]; [|right; exists l; now right].
    destruct (O1 m a F1) as [F'|[-> (l & ->)]]; [now left|]. right. exists l. now left.
  - intros ls' ->. destruct (R2 ls' eq_refl) as (K1 & K2 & K3 & K4 & K5).
    assert (Old : forall m, In m (map fst syms) -> m <> n) by (intros m I ->; contradiction).
    assert (In1 : forall m c, In (m, c) syms -> In m (map fst syms)) by (intros m c I; apply (in_map fst) in I; exact I).
    assert (Same : forall m, m <> n -> find_name m (e_symbols e1) = find_name m (e_symbols e)).
    { intros m Ne. destruct (find_name m (e_symbols e1)) as [a|] eqn:F; [destruct (O1 m a F) as [F'|[E _]]; [now symmetry|contradiction]|]. destruct (find_name m (e_symbols e)) as [a|] eqn:F'; [|reflexivity].
      apply (proj2 B1) in F'. congruence. }
    assert (SameL : forall m, m <> n -> find_name m ls1 = find_name m ls).
    { intros m Ne. destruct b as [l|l]; [|now destruct R1 as [-> _]]. destruct R1 as [_ ->]. cbn. destruct (String.eqb_spec m n) as [->|]; [contradiction|reflexivity]. }
    split; [|split; [|split; [|split]]].
    + intros m Ni. cbn in Ni. rewrite K1 by tauto. apply SameL. intros ->. tauto.
    + intros m l [E|I]; [|eauto]. injection E as -> ->. destruct R1 as [_ ->]. rewrite K1 by exact Nin. cbn. now rewrite String.eqb_refl.
    + intros m l [E|I]; [|rewrite (K3 m l I); apply SameL; eauto]. injection E as -> ->. destruct R1 as [-> _]. now apply K1.
    + intros m l [E|I]; [|rewrite <- (Same m) by eauto; now apply K4]. injection E as -> ->. destruct R1 as [_ (a & A & Q)]. cbn in Q. destruct Q as [Q ->].
      split; [exact Q|]. now apply (proj2 B2).
    + intros m [E|I]; [|rewrite <- (Same m) by eauto; now apply K5]. injection E as -> ->. destruct R1 as [_ (a & A & Q)]. cbn in Q.
      exists a. split; [now apply (proj2 B2)|exact Q].
Qed.
End Link.
