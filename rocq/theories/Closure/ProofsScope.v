(** * Renaming of variables, scopes and groups of local functions *)
From Verif.Base Require Import Base.
From Verif.Ir Require Import Model.
From Verif.Closure Require Import Model Spec Rel ProofsSim.

(** ** Sizes *)
Fixpoint size (x : expr) : nat :=
  S (match x with
  | EVar _ _ | ENever | ELocal _ _ => 0
  | EOp _ es => fold_right (fun x n => size x + n) 0 es
  | ECall f es => size f + fold_right (fun x n => size x + n) 0 es
  | ESeq es x => fold_right (fun x n => size x + n) 0 es + size x
  | EIf a b c => size a + size b + size c
  | EWhile a b | EAnd a b | EOr a b => size a + size b
  | EMatch a cs => size a + fold_right (fun c n => size (snd c) + n) 0 cs
  | ELetVar vs b => fold_right (fun v n => S (size (snd v)) + n) 0 vs + size b
  | ELetLocal fs b => fold_right (fun f n => size (snd f) + n) 0 fs + size b
  | ELetCont ks b => fold_right (fun k n => S (size (snd k)) + n) 0 ks + size b
  end)%nat.

Lemma size_in : forall {A} (g : A -> nat) l a, In a l -> (g a <= fold_right (fun x n => g x + n) 0 l)%nat.
Proof. intros A g l a. induction l as [|b l IH]; intro I; [destruct I|]. cbn. destruct I as [->|I]; [lia|]. specialize (IH I). lia. Qed.

Lemma expr_size_ind : forall (P : expr -> Prop), (forall x, (forall y, (size y < size x)%nat -> P y) -> P x) -> forall x, P x.
Proof.
  intros P H x. assert (G : forall k y, (size y < k)%nat -> P y); [|apply (G (S (size x))); lia].
  induction k as [|k IH]; intros y L; [lia|]. apply H. intros z L'. apply IH. lia.
Qed.

(** ** Renaming *)
Fixpoint app (m : sub) (x : expr) : expr :=
  match x with
  | EVar id t => EVar (sv m id) t
  | ELocal f t =>
      match sf m f with
      | Some (g, e) => EOp (SFun g t) (match e with Some e => [EVar e CtEnv] | None => [] end)
      | None => x
      end
  | EOp o es => EOp o (map (app m) es)
  | ECall f es => ECall (app m f) (map (app m) es)
  | ESeq es x => ESeq (map (app m) es) (app m x)
  | EIf a b c => EIf (app m a) (app m b) (app m c)
  | EWhile a b => EWhile (app m a) (app m b)
  | EAnd a b => EAnd (app m a) (app m b)
  | EOr a b => EOr (app m a) (app m b)
  | EMatch a cs => EMatch (app m a) (map (fun c => (fst c, app m (snd c))) cs)
  | ENever => ENever
  | ELetVar vs b => ELetVar (map (fun v => (fst v, app m (snd v))) vs) (app m b)
  | ELetLocal fs b => ELetLocal (map (fun f => (fst f, app m (snd f))) fs) (app m b)
  | ELetCont ks b => ELetCont (map (fun k => (fst k, app m (snd k))) ks) (app m b)
  end.

Local Ltac insize a I :=
  match type of I with In _ ?l => first
    [ pose proof (size_in size l a I); cbn in *; try unfold param in *; lia | pose proof (size_in (fun c => size (snd c)) l a I); cbn in *; try unfold param in *; lia
    | pose proof (size_in (fun c => S (size (snd c))) l a I); cbn in *; try unfold param in *; lia ] end.
Local Ltac mapext IH := apply map_ext_in; let a := fresh "a" in let I := fresh "I" in intros a I;
  first [apply IH; insize a I | cbn; f_equal; apply IH; insize a I].

Lemma app_ext : forall m m', (forall id, sv m id = sv m' id) -> (forall f, sf m f = sf m' f) -> forall x, app m x = app m' x.
Proof.
  intros m m' HV HF x. induction x as [x IH] using expr_size_ind. destruct x; cbn; rewrite ?HV, ?HF; try reflexivity;
    try (f_equal; first [apply IH; cbn; lia | mapext IH]).
Qed.

Lemma app_unchanged : forall x, app unchanged x = x.
Proof.
  intro x. induction x as [x IH] using expr_size_ind. destruct x; cbn; try reflexivity;
   try (f_equal; first [apply IH; cbn; lia | rewrite <- map_id; apply map_ext_in; intros a I;
   first [apply IH; pose proof (size_in size _ a I); cbn; lia
         | destruct a as [a0 a1]; cbn; f_equal; apply IH; first
             [ pose proof (size_in (fun c => size (snd c)) _ _ I) as Z; cbn in Z |- *; lia | pose proof (size_in (fun c => S (size (snd c))) _ _ I) as Z; cbn in Z |- *; lia ]]]).
Qed.

Definition comp (cc : conversion) (m : sub) : sub :=
  let ren id := match assoc id (captured cc) with Some n => n | None => id end in
  Sub (fun id => ren (sv m id))
    (fun f => match sf m f with
              | Some (g, e) => Some (g, option_map ren e)
              | None => match assoc f (lifted_funs cc) with Some g => Some (g, captured_env cc) | None => None end
              end).

Lemma rewritten_app : forall cc m x, rewritten cc (app m x) = app (comp cc m) x.
Proof.
  intros cc m x. induction x as [x IH] using expr_size_ind.
  destruct x; cbn; rewrite ?map_map; try reflexivity;
    try (f_equal; first [apply IH; cbn; lia | mapext IH]).
  - destruct (assoc (sv m id) (captured cc)); reflexivity.
  - destruct (sf m f) as [[g [e|]]|]; cbn.
    + destruct (assoc e (captured cc)); reflexivity.
    + reflexivity.
    + destruct (assoc f (lifted_funs cc)); reflexivity.
Qed.

Lemma rewritten_for_funs : forall l vs ns e m x, rewritten (Conversion l (combine vs ns) e) (app m x) = app (for_funs m l vs ns e) x.
Proof. intros l vs ns e m x. rewrite rewritten_app. reflexivity. Qed.

Lemma rewritten_for_body : forall l e m x, rewritten (Conversion l [] e) (app m x) = app (for_body m l e) x.
Proof.
  intros l e m x. rewrite rewritten_app. apply app_ext; [reflexivity|]. intro f. cbn. unfold lifting. destruct (sf m f) as [[g [i|]]|]; reflexivity.
Qed.

Lemma defs_app : forall m x, defs (app m x) = defs x.
Proof.
  intros m x. induction x as [x IH] using expr_size_ind.
  assert (E1 : forall es, (forall a, In a es -> (size a < size x)%nat) -> flat_map defs (map (app m) es) = flat_map defs es).
  { intros es H. rewrite flat_map_concat_map, map_map, flat_map_concat_map. f_equal. apply map_ext_in. intros a I. apply IH, H, I. }
  assert (E2 : forall {A} (h : A -> list nat) (es : list (A * expr)) (k : list nat -> A -> list nat), (forall a, In a es -> (size (snd a) < size x)%nat) ->
    flat_map (fun c => k (defs (snd c)) (fst c)) (map (fun c => (fst c, app m (snd c))) es) = flat_map (fun c => k (defs (snd c)) (fst c)) es).
  { intros A h es k H. rewrite flat_map_concat_map, map_map, flat_map_concat_map. f_equal. apply map_ext_in. intros a I. cbn. rewrite IH; [reflexivity|apply H, I]. }
  destruct x; cbn in *; try reflexivity.
  - destruct (sf m f) as [[g [i|]]|]; reflexivity.
  - apply E1. intros a I. pose proof (size_in size _ a I). lia.
  - rewrite IH by lia. f_equal. apply E1. intros a I. pose proof (size_in size _ a I). lia.
  - rewrite (IH x) by lia. f_equal. apply E1. intros a I. pose proof (size_in size _ a I). lia.
  - rewrite !IH by lia. reflexivity.
  - rewrite !IH by lia. reflexivity.
  - rewrite !IH by lia. reflexivity.
  - rewrite !IH by lia. reflexivity.
  - rewrite (IH x) by lia. f_equal. apply (E2 rtpat (fun _ => []) clauses (fun d p => pat_defs p ++ d)). intros a I. pose proof (size_in (fun c => size (snd c)) _ a I). cbn in *. lia.
  - rewrite (IH x) by lia. f_equal. apply (E2 (nat * ct)%type (fun _ => []) vars (fun d p => fst p :: d)). intros a I. pose proof (size_in (fun c => S (size (snd c))) _ a I). cbn in *. lia.
  - rewrite (IH x) by lia. f_equal. apply (E2 (nat * list param * ct)%type (fun _ => []) funs (fun d p => map fst (snd (fst p)) ++ fst (fst p) :: d)).
    intros a I. pose proof (size_in (fun c => size (snd c)) _ a I). cbn in *. lia.
  - rewrite (IH x) by lia. f_equal. apply (E2 (nat * list param)%type (fun _ => []) conts (fun d p => map fst (snd p) ++ d)).
    intros a I. pose proof (size_in (fun c => S (size (snd c))) _ a I). cbn in *. lia.
Qed.

(** ** What is used *)
Definition seen (m : sub) (vs fs ds : list nat) (t : nat) : Prop :=
  (exists u, In u vs /\ t = sv m u) \/ (exists f g, In f fs /\ sf m f = Some (g, Some t)) \/ (In t fs /\ sf m t = None) \/ In t ds.

Lemma seen_under : forall m vs fs ds B G ds' t, (forall d, In d ds -> sv m d = d /\ sf m d = None) -> incl B ds -> incl G ds -> incl ds' ds ->
  seen m (B ++ vs) (G ++ fs) ds' t -> seen m vs fs ds t.
Proof.
  intros m vs fs ds B G ds' t H IB IG ID [(u & I & ->)|[(f & g & I & E)|[[I E]|I]]].
  - apply in_app_or in I as [I|I]; [|left; eauto]. right; right; right. destruct (H u (IB u I)) as [-> _]. apply IB, I.
  - apply in_app_or in I as [I|I]; [|right; left; eauto]. destruct (H f (IG f I)) as [_ K]. congruence.
  - apply in_app_or in I as [I|I]; [|right; right; left; auto]. right; right; right. apply IG, I.
  - right; right; right. apply ID, I.
Qed.

Lemma in_flat : forall {A B} (f : A -> list B) l a b, In a l -> In b (f a) -> In b (flat_map f l).
Proof. intros. apply in_flat_map. eauto. Qed.

Local Ltac indefs := repeat (rewrite in_app_iff || rewrite in_flat_map); cbn; rewrite ?in_app_iff; eauto 8.

Lemma uses_app : forall m x vs fs t, scoped vs fs x -> (forall d, In d (defs x) -> sv m d = d /\ sf m d = None) -> In t (uses (app m x)) ->
  seen m vs fs (defs x) t.
Proof.
  intros m x. induction x as [x IH] using expr_size_ind. intros vs fs t S H U.
  assert (G : forall y B G, (size y < size x)%nat -> scoped (B ++ vs) (G ++ fs) y -> incl B (defs x) -> incl G (defs x) -> incl (defs y) (defs x) ->
    In t (uses (app m y)) -> seen m vs fs (defs x) t).
  { intros y B G L SC IB IG ID UY. apply (seen_under m vs fs (defs x) B G (defs y) t H IB IG ID). apply (IH y L (B ++ vs) (G ++ fs) t SC); [|exact UY]. intros d I. apply H, ID, I. }
  assert (G0 : forall y, (size y < size x)%nat -> scoped vs fs y -> incl (defs y) (defs x) -> In t (uses (app m y)) -> seen m vs fs (defs x) t).
  { intros y L SC ID UY. apply (G y [] [] L SC); auto; intros ? []. }
  assert (GL : forall es, Forall (scoped vs fs) es -> (forall y, In y es -> (size y < size x)%nat) -> (forall y, In y es -> incl (defs y) (defs x)) ->
    In t (flat_map uses (map (app m) es)) -> seen m vs fs (defs x) t).
  { intros es SC L ID UY. apply in_flat_map in UY as (y' & I & UY). apply in_map_iff in I as (y & <- & I). rewrite Forall_forall in SC.
    apply (G0 y); auto. }
  clear IH. inversion S; subst.
  - cbn in U. destruct U as [<-|[]]. left. eauto.
  - cbn in U. destruct (sf m id) as [[g [e|]]|] eqn:E; cbn in U.
    + destruct U as [<-|[]]. right; left. eauto.
    + destruct U.
    + destruct U as [<-|[]]. right; right; left. auto.
  - cbn in U. apply GL with (es := es); auto; intros y I; [insize y I|]. intros d D. cbn. indefs.
  - cbn in U. apply in_app_or in U as [U|U].
    + apply (G0 f); auto; [cbn; lia|]. intros d D. cbn. indefs.
    + apply GL with (es := es); auto; intros y I; [insize y I|]. intros d D. cbn. indefs.
  - cbn in U. apply in_app_or in U as [U|U].
    + apply GL with (es := es); auto; intros y I; [insize y I|]. intros d D. cbn. indefs.
    + apply (G0 x0); auto; [cbn; lia|]. intros d D. cbn. indefs.
  - cbn in U. apply in_app_or in U as [U|U]; [|apply in_app_or in U as [U|U]].
    + apply (G0 a); auto; [cbn; lia|]. intros d D. cbn. indefs.
    + apply (G0 b); auto; [cbn; lia|]. intros d D. cbn. indefs.
    + apply (G0 c); auto; [cbn; lia|]. intros d D. cbn. indefs.
  - cbn in U. apply in_app_or in U as [U|U]; [apply (G0 a)|apply (G0 b)]; auto; try (cbn; lia); intros d D; cbn; indefs.
  - cbn in U. apply in_app_or in U as [U|U]; [apply (G0 a)|apply (G0 b)]; auto; try (cbn; lia); intros d D; cbn; indefs.
  - cbn in U. apply in_app_or in U as [U|U]; [apply (G0 a)|apply (G0 b)]; auto; try (cbn; lia); intros d D; cbn; indefs.
  - cbn in U. apply in_app_or in U as [U|U]; [apply (G0 a); auto; [cbn; lia|intros d D; cbn; indefs]|].
    apply in_flat_map in U as (c' & I & U). apply in_map_iff in I as (c & <- & I). cbn in U. match goal with H : Forall _ cs |- _ => rewrite Forall_forall in H; specialize (H c I); rename H into SC end.
    apply (G (snd c) (pat_defs (fst c)) []); auto; [insize c I| | |]; try (intros ? []); intros d D; cbn; apply in_or_app; right; apply (in_flat _ cs c d I); apply in_or_app; auto.
  - destruct U.
  - cbn in U. apply (G0 b); [cbn; lia|assumption|intros d D; exact D|exact U].
  - cbn in U. rewrite <- app_assoc in U. apply in_app_or in U as [U|U].
    + apply (G0 x0); auto; [cbn; lia|]. intros d D. cbn. right. indefs.
    + apply (G (ELetVar l b) [id] []); auto; [cbn; lia|intros d [<-|[]]; left; reflexivity|intros ? []|]. intros d D. cbn in D |- *. right. rewrite <- app_assoc. apply in_or_app. right. exact D.
  - cbn in U. apply in_app_or in U as [U|U].
    + apply in_flat_map in U as (c' & I & U). apply in_map_iff in I as (c & <- & I). cbn in U. match goal with H : Forall _ l |- _ => rewrite Forall_forall in H; specialize (H c I); rename H into SC end.
      apply (G (snd c) (map fst (snd (fst (fst c)))) (map fid l)); auto; [insize c I| | |]; intros d D; cbn; apply in_or_app; left.
      * apply (in_flat _ l c d I). apply in_or_app. auto.
      * apply in_map_iff in D as (f & <- & D). apply (in_flat _ l f _ D). apply in_or_app. right. left. reflexivity.
      * apply (in_flat _ l c d I). apply in_or_app. right. right. exact D.
    + apply (G b [] (map fid l)); auto; [cbn; lia|intros ? []| |]; intros d D; cbn; apply in_or_app; [left|right; exact D].
      apply in_map_iff in D as (f & <- & D). apply (in_flat _ l f _ D). apply in_or_app. right. left. reflexivity.
  - cbn in U. apply in_app_or in U as [U|U].
    + apply in_flat_map in U as (c' & I & U). apply in_map_iff in I as (c & <- & I). cbn in U. match goal with H : Forall _ ks |- _ => rewrite Forall_forall in H; specialize (H c I); rename H into SC end.
      apply (G (snd c) (map fst (snd (fst c))) []); auto; [insize c I| | |]; try (intros ? []); intros d D; cbn; apply in_or_app; left; apply (in_flat _ ks c d I); apply in_or_app; auto.
    + apply (G0 b); auto; [cbn; lia|]. intros d D. cbn. apply in_or_app. auto.
Qed.

(** Only what is used needs to be in scope. *)
Lemma scoped_restrict : forall m x vs fs vs' fs', scoped vs fs x ->
  (forall u, In u vs -> In (sv m u) (uses (app m x)) -> In u vs') ->
  (forall f, In f fs -> (forall g e, sf m f = Some (g, Some e) -> In e (uses (app m x))) -> In f fs') ->
  (forall d, In d (defs x) -> sf m d = None) -> scoped vs' fs' x.
Proof.
  intros m x. induction x as [x IH] using expr_size_ind. intros vs fs vs' fs' S HV HF HD.
  assert (G : forall y B G, (size y < size x)%nat -> scoped (B ++ vs) (G ++ fs) y -> incl (uses (app m y)) (uses (app m x)) -> incl (defs y) (defs x) -> scoped (B ++ vs') (G ++ fs') y).
  { intros y B G L SC IU ID. apply (IH y L (B ++ vs) (G ++ fs)); auto.
    - intros u I U. apply in_or_app. apply in_app_or in I as [I|I]; auto.
    - intros f I U. apply in_or_app. apply in_app_or in I as [I|I]; [auto|]. right. apply HF; [exact I|]. intros g e E. apply IU. eapply U, E. }
  assert (G0 : forall y, (size y < size x)%nat -> scoped vs fs y -> incl (uses (app m y)) (uses (app m x)) -> incl (defs y) (defs x) -> scoped vs' fs' y).
  { intros y L SC IU ID. apply (G y [] [] L SC IU ID). }
  assert (GL : forall es, Forall (scoped vs fs) es -> (forall y, In y es -> (size y < size x)%nat) -> (forall y, In y es -> incl (uses (app m y)) (uses (app m x))) -> (forall y, In y es -> incl (defs y) (defs x)) -> Forall (scoped vs' fs') es).
  { intros es SC L IU ID. rewrite Forall_forall in *. intros y I. apply G0; auto. }
  assert (UM : forall es y t, In y es -> In t (uses (app m y)) -> In t (flat_map uses (map (app m) es))).
  { intros es y t I U. apply in_flat_map. exists (app m y). split; [apply in_map, I|exact U]. }
  assert (UP : forall {A} (es : list (A * expr)) c t, In c es -> In t (uses (app m (snd c))) -> In t (flat_map (fun c => uses (snd c)) (map (fun c => (fst c, app m (snd c))) es))).
  { intros A es c t I U. apply in_flat_map. exists (fst c, app m (snd c)). split; [apply (in_map (fun c => (fst c, app m (snd c)))), I|exact U]. }
  clear IH. inversion S; subst.
  - constructor. apply HV; [assumption|]. cbn. auto.
  - constructor. apply HF; [assumption|]. intros g e E. cbn. rewrite E. cbn. auto.
  - constructor. apply GL; auto; intros y I; [insize y I| |]; intros d D; cbn; eauto. indefs.
  - constructor; [apply G0; auto; [cbn; lia| |]|apply GL; auto; intros y I; [insize y I| |]]; intros d D; cbn; apply in_or_app; eauto. right. indefs.
  - constructor; [apply GL; auto; intros y I; [insize y I| |]|apply G0; auto; [cbn; lia| |]]; intros d D; cbn; apply in_or_app; eauto. left. indefs.
  - constructor; apply G0; auto; try (cbn; lia); intros d D; cbn; rewrite !in_app_iff; auto.
  - constructor; apply G0; auto; try (cbn; lia); intros d D; cbn; rewrite !in_app_iff; auto.
  - constructor; apply G0; auto; try (cbn; lia); intros d D; cbn; rewrite !in_app_iff; auto.
  - constructor; apply G0; auto; try (cbn; lia); intros d D; cbn; rewrite !in_app_iff; auto.
  - constructor; [apply G0; auto; try (cbn; lia); intros d D; cbn; rewrite !in_app_iff; auto|]. match goal with H : Forall _ cs |- _ => rewrite Forall_forall in *; rename H into SC end.
    intros c I. apply (G (snd c) (pat_defs (fst c)) []); [insize c I|apply SC, I| |]; intros d D; cbn; apply in_or_app; right; [eapply UP; eauto|].
    apply (in_flat _ cs c d I). apply in_or_app. auto.
  - constructor.
  - constructor. apply G0; [cbn; lia|assumption|intros d D; exact D|intros d D; exact D].
  - constructor; [apply G0; auto; try (cbn; lia); intros d D; cbn; rewrite ?in_app_iff; auto|].
    apply (G (ELetVar l b) [id] []); auto; [cbn; lia| |]; intros d D; cbn in *; rewrite ?in_app_iff in *; tauto.
  - constructor.
    + match goal with H : Forall _ l |- _ => rewrite Forall_forall in *; rename H into SC end. intros c I.
      apply (G (snd c) (map fst (snd (fst (fst c)))) (map fid l)); [insize c I|apply SC, I| |]; intros d D; cbn; apply in_or_app; left; [eapply UP; eauto|].
      apply (in_flat _ l c d I). apply in_or_app. right. right. exact D.
    + apply (G b [] (map fid l)); auto; [cbn; lia| |]; intros d D; cbn; apply in_or_app; auto.
  - constructor.
    + match goal with H : Forall _ ks |- _ => rewrite Forall_forall in *; rename H into SC end. intros c I.
      apply (G (snd c) (map fst (snd (fst c))) []); [insize c I|apply SC, I| |]; intros d D; cbn; apply in_or_app; left; [eapply UP; eauto|].
      apply (in_flat _ ks c d I). apply in_or_app. right. exact D.
    + apply G0; auto; [cbn; lia| |]; intros d D; cbn; apply in_or_app; auto.
Qed.
