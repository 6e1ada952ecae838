(** Every call does what is asked, and keeps the invariant. *)
From Coq Require Import Lia.
From Verif.Base Require Import Base Buf.
From Verif.Vector Require Import Model Spec ProofsMem ProofsArray ProofsOps ProofsVec ProofsInv.
Local Open Scope N_scope.
Local Open Scope list_scope.

Section Step.
Context {A : Type}.
Implicit Types (m : mem A) (t : array) (v : vec) (l : list A).
Notation pair_ := (obj * sobj (A := A))%type.
Notation result := (outcome_ (A := A) (list sobj)).
Implicit Types (p q : pair_) (ps : list pair_).

Lemma nth_map {X Y} (f : X -> Y) (l : list X) i : nth_error (map f l) i = match nth_error l i with Some x => Some (f x) | None => None end.
Proof. revert i; induction l as [|x l IH]; intros [|i]; cbn; auto. Qed.
Lemma inv_at m ps i p : inv m ps -> nth_error ps i = Some p -> holds m p.
Proof. intros (_ & H & _) N; rewrite Forall_forall in H; exact (H _ (nth_error_In _ _ N)). Qed.

Lemma at_array m ps i (f : mode -> list A -> result) : inv m ps ->
  spec_array (map snd ps) i f = SMisuse \/
  exists t w l, nth_error ps i = Some (OArray t, SArray w l) /\ harray m t l /\ spec_array (map snd ps) i f = f w l /\
    forall X (g : array -> M A X), on_array (map fst ps) i g = g t.
Proof.
  intros I; unfold spec_array, on_array; rewrite nth_map; destruct (nth_error ps i) as [[o s]|] eqn:N; [|now left].
  pose proof (inv_at _ _ _ _ I N) as H; cbn [snd]; destruct s as [|w l|w l r|w l]; try (now left).
  destruct H as (t & E & H); cbn in E; subst o; right; exists t, w, l; split; [reflexivity|]; split; [exact H|]; split; [reflexivity|].
  intros X g; rewrite nth_map, N; reflexivity.
Qed.
Lemma at_vector m ps i (f : mode -> list A -> N -> result) : inv m ps ->
  spec_vector (map snd ps) i f = SMisuse \/
  exists v w l r, nth_error ps i = Some (OVector v, SVector w l r) /\ hvec m v l /\ r <= vcap v /\ spec_vector (map snd ps) i f = f w l r /\
    forall X (g : vec -> M A X), on_vector (map fst ps) i g = g v.
Proof.
  intros I; unfold spec_vector, on_vector; rewrite nth_map; destruct (nth_error ps i) as [[o s]|] eqn:N; [|now left].
  pose proof (inv_at _ _ _ _ I N) as H; cbn [snd]; destruct s as [|w l|w l r|w l]; try (now left).
  destruct H as (v & E & H & R); cbn in E; subst o; right; exists v, w, l, r; split; [reflexivity|]; split; [exact H|]; split; [exact R|]; split; [reflexivity|].
  intros X g; rewrite nth_map, N; reflexivity.
Qed.
Lemma at_iter m ps i (f : mode -> list A -> result) : inv m ps ->
  spec_iter (map snd ps) i f = SMisuse \/
  exists it w l, nth_error ps i = Some (OIter it, SIter w l) /\ hiter m it l /\ spec_iter (map snd ps) i f = f w l /\
    forall X (g : iter -> M A X), on_iter (map fst ps) i g = g it.
Proof.
  intros I; unfold spec_iter, on_iter; rewrite nth_map; destruct (nth_error ps i) as [[o s]|] eqn:N; [|now left].
  pose proof (inv_at _ _ _ _ I N) as H; cbn [snd]; destruct s as [|w l|w l r|w l]; try (now left).
  destruct H as (it & E & H); cbn in E; subst o; right; exists it, w, l; split; [reflexivity|]; split; [exact H|]; split; [reflexivity|].
  intros X g; rewrite nth_map, N; reflexivity.
Qed.

Lemma vec_written m m' v l l' : hvec m v l -> written m m' (buffer v) l' -> len l' = len l -> hvec m' v l'.
Proof.
  intros (j & E & Ec & G & L & W) [(E' & G' & _ & W') S] El; exists j; rewrite El; split; [exact E|]; split; [exact Ec|]; split; [|auto].
  apply seg_app in G as [_ G]; apply seg_app; split; [exact G'|]; rewrite !lenc_some, El in *.
  apply (seg_same _ _ _ _ _ S G); [|exact W]; intros b k [_ I] [_ J]; cbn in *; lia.
Qed.
Lemma hvec_array m t l : harray m t l -> hvec m (from_array t) l.
Proof. intros (E & G & L & W); exists []; unfold from_array; cbn [vlen vcap vptr]; rewrite app_nil_r; change (lenc []) with 0; split; [exact E|]; split; [lia|]; auto. Qed.
Lemma buffer_part v : vlen v <= vcap v -> forall b k, inreg (area (buffer v)) b k -> inreg (varea v) b k.
Proof. intros H b k [E I]; split; [exact E|]; cbn in *; lia. Qed.
Lemma hvec_le m v l : hvec m v l -> vlen v = len l /\ vlen v <= vcap v /\ vcap v < 2 ^ 64.
Proof. intros (j & E & Ec & _ & L & _); split; [exact E|]; split; [lia|exact L]. Qed.

(** An array, or the buffer of a vector *)
Lemma at_view m ps i (f : mode -> list A -> (list A -> sobj) -> result) : inv m ps ->
  spec_view (map snd ps) i f = SMisuse \/
  exists o s t w l F, nth_error ps i = Some (o, s) /\ harray m t l /\ mode_of s = Some w /\ spec_view (map snd ps) i f = f w l F /\
    (forall X (g : array -> M A X), on_view (map fst ps) i g = g t) /\
    (forall b k, inreg (area t) b k -> inreg (reg o) b k) /\
    (forall l', mode_of (F l') = Some w) /\
    (forall m' l', written m m' t l' -> len l' = len l -> holds m' (o, F l')) /\
    (forall m' t' l', harray m' t' l' -> holds m' (like (map fst ps) i t', copy_of (map snd ps) i l') /\ reg (like (map fst ps) i t') = area t') /\
    length_of (map snd ps) i = len l.
Proof.
  intros I; unfold spec_view, on_view, like, copy_of, length_of; rewrite !nth_map; destruct (nth_error ps i) as [[o s]|] eqn:N; [|now left].
  pose proof (inv_at _ _ _ _ I N) as H; cbn [snd]; destruct s as [|w l|w l r|w l]; try (now left).
  - destruct H as (t & E & H); cbn in E; subst o; right; eexists _, _, t, w, l, _; split; [reflexivity|]; split; [exact H|]; split; [reflexivity|]; split; [reflexivity|].
    split; [reflexivity|]; split; [auto|]; split; [reflexivity|]; split; [|split; [|reflexivity]].
    + intros m' l' [H' _] _; exists t; auto.
    + intros m' t' l' H'; split; [exists t'; auto|reflexivity].
  - destruct H as (v & E & H & R); cbn in E; subst o; right; pose proof (hvec_le _ _ _ H) as (Ev & Lv & _).
    eexists _, _, (buffer v), w, l, _; split; [reflexivity|]; split; [exact (harray_buffer _ _ _ H)|]; split; [reflexivity|]; split; [reflexivity|].
    split; [reflexivity|]; split; [apply buffer_part, Lv|]; split; [reflexivity|]; split; [|split; [|reflexivity]].
    + intros m' l' W E; exists v; split; [reflexivity|]; split; [exact (vec_written _ _ _ _ _ H W E)|exact R].
    + intros m' t' l' H'; split; [|reflexivity]; exists (from_array t'); split; [reflexivity|]; split; [apply hvec_array, H'|]; cbn; pose proof H' as (Ea & _); lia.
Qed.

Lemma lend_at ps i o s keep : nth_error ps i = Some (o, s) -> lend (map snd ps) i keep = map snd (set_nth i (o, leave keep s) ps).
Proof. intros N; unfold lend; rewrite nth_map, N; cbn [snd]; now rewrite map_set_nth. Qed.
Lemma set_fst ps i o s' s : nth_error ps i = Some (o, s) -> map fst (set_nth i (o, s') ps) = map fst ps.
Proof.
  intros N; rewrite map_set_nth; cbn [fst]; destruct (set_nth_at i (map fst ps) o o) as (x & y & -> & _ & ->); [rewrite nth_map, N; reflexivity|reflexivity].
Qed.
Lemma set_snd ps i o o' s : nth_error ps i = Some (o, s) -> map snd (set_nth i (o', s) ps) = map snd ps.
Proof.
  intros N; rewrite map_set_nth; cbn [snd]; destruct (set_nth_at i (map snd ps) s s) as (x & y & -> & _ & ->); [rewrite nth_map, N; reflexivity|reflexivity].
Qed.

(** What is to be shown of a call. *)
Definition good m ps (c : M A (answer * list obj)) (r : result) : Prop :=
  match r with
  | SDone a ss => exists a' os m' ps', c m = Done (a', os, m') /\ agree a' a /\ inv m' ps' /\ os = map fst ps' /\ ss = map snd ps'
  | SFails => c m = Failed
  | SMisuse => True
  end.

Lemma good_misuse m ps c r : r = SMisuse -> good m ps c r.
Proof. intros ->; exact Logic.I. Qed.
Lemma good_tell m ps {X} (c : M A X) (f : X -> answer) x a : inv m ps -> c m = Done (x, m) -> agree (f x) a ->
  good m ps (bind c (fun x => ret (f x, map fst ps))) (SDone a (map snd ps)).
Proof. intros I E G; exists (f x), (map fst ps), m, ps; rewrite (bind_done _ _ _ _ _ E); auto. Qed.
Lemma bind_failed {X Y} (c : M A X) (f : X -> M A Y) m : c m = Failed -> bind c f m = Failed.
Proof. intros E; unfold bind; now rewrite E. Qed.
Lemma made_region m m' t l : made m m' t l -> forall b k, inreg (area t) b k -> (List.length (blocks m) <= b)%nat.
Proof. intros (_ & _ & [N|N]) b k I; [exact (new_region _ _ _ N b k I)|destruct I as [_ I]; cbn in I; lia]. Qed.
Lemma good_new m ps c l : inv m ps -> (exists t m', c m = Done (t, m') /\ made m m' t l) ->
  good m ps (bind c (fun t => ret (ADone, map fst ps ++ [OArray t]))) (SDone ADone (map snd ps ++ [SArray Own l])).
Proof.
  intros I (t & m' & E & D); exists ADone, (map fst ps ++ [OArray t]), m', (ps ++ [(OArray t, SArray Own l)]); rewrite (bind_done _ _ _ _ _ E), !map_app.
  split; [reflexivity|]; split; [reflexivity|]; split; [|auto]; pose proof D as (S & H & _); apply (inv_new _ _ _ _ I S); [exists t; auto|]; exact (made_region _ _ _ _ D).
Qed.
Lemma good_newv m ps c l r : inv m ps -> (exists v m', c m = Done (v, m') /\ same m m' nowhere /\ hvec m' v l /\ r <= vcap v /\ (new m (vptr v) \/ vcap v = 0)) ->
  good m ps (bind c (fun v => ret (ADone, map fst ps ++ [OVector v]))) (SDone ADone (map snd ps ++ [SVector Own l r])).
Proof.
  intros I (v & m' & E & S & H & R & N); exists ADone, (map fst ps ++ [OVector v]), m', (ps ++ [(OVector v, SVector Own l r)]); rewrite (bind_done _ _ _ _ _ E), !map_app.
  split; [reflexivity|]; split; [reflexivity|]; split; [|auto]; apply (inv_new _ _ _ _ I S); [exists v; auto|].
  intros b k J; destruct N as [N|N]; [exact (new_region _ _ _ N b k J)|destruct J as [_ J]; cbn in J; lia].
Qed.
(** A view is written in place. *)
Lemma good_write m ps i o s t l F c l' : inv m ps -> nth_error ps i = Some (o, s) -> mode_of s = Some Own -> harray m t l ->
  (forall b k, inreg (area t) b k -> inreg (reg o) b k) -> (forall l', mode_of (F l') = Some Own) ->
  (forall m' l', written m m' t l' -> len l' = len l -> holds m' (o, F l')) ->
  (exists m', c m = Done (tt, m') /\ written m m' t l') -> len l' = len l ->
  good m ps (bind c (fun _ : unit => ret (ADone, map fst ps))) (SDone ADone (set_nth i (F l') (map snd ps))).
Proof.
  intros I N Mo Ha P Mf Hf (m' & E & W) El; exists ADone, (map fst ps), m', (set_nth i (o, F l') ps); rewrite (bind_done _ _ _ _ _ E).
  split; [reflexivity|]; split; [reflexivity|]; split; [|rewrite (set_fst _ _ _ _ _ N), map_set_nth; auto].
  apply (inv_same m m' ps i (o, s) _ (inreg (area t)) N I (proj2 W)).
  - intros b k J; right; split; [exact (P b k J)|exact Mo].
  - exact (Hf _ _ W El).
  - intros b k [_ J]; right; cbn [fst snd] in *; rewrite Mo; split; [split; [cbn; congruence|exact J]|discriminate].
Qed.
(** Views are made. *)
Lemma good_view m ps i o s w keep a (qs : list pair_) : inv m ps -> nth_error ps i = Some (o, s) -> mode_of s = Some w ->
  Forall (holds m) qs -> Forall (fun q => mode_of (snd q) = Some (view_mode keep w) /\ forall b k, inreg (reg (fst q)) b k -> inreg (reg o) b k) qs ->
  ForallOrdPairs (fun q r => apart (reg (fst q)) (reg (fst r))) qs ->
  (match a with AAtLeast _ => False | _ => True end) ->
  good m ps (ret (a, map fst ps ++ map fst qs)) (SDone a (lend (map snd ps) i keep ++ map snd qs)).
Proof.
  intros I N M H F C Ag; exists a, (map fst ps ++ map fst qs), m, (set_nth i (o, leave keep s) ps ++ qs); split; [reflexivity|]; split; [destruct a; cbn; trivial; contradiction|].
  split; [eapply inv_view; eauto|]; rewrite !map_app, (set_fst _ _ _ _ _ N), (lend_at _ _ _ _ _ N); auto.
Qed.
Lemma good_view1 m ps i o s w keep a o' s' : inv m ps -> nth_error ps i = Some (o, s) -> mode_of s = Some w ->
  holds m (o', s') -> mode_of s' = Some (view_mode keep w) -> (forall b k, inreg (reg o') b k -> inreg (reg o) b k) ->
  (match a with AAtLeast _ => False | _ => True end) ->
  good m ps (ret (a, map fst ps ++ [o'])) (SDone a (lend (map snd ps) i keep ++ [s'])).
Proof.
  intros I N M H F C Ag; apply (good_view m ps i o s w keep a [(o', s')]); trivial; (constructor; [auto|constructor]).
Qed.
(** A vector changes. *)
Lemma good_change m ps i v w l r l' r' {X} (c : vec -> M A X) (a : X -> answer) (get_v : X -> vec) b : inv m ps -> nth_error ps i = Some (OVector v, SVector w l r) -> w = Own ->
  (exists x m', c v m = Done (x, m') /\ changed m m' v (get_v x) l' r' /\ agree (a x) b) ->
  good m ps (bind (c v) (fun x => ret (a x, set_nth i (OVector (get_v x)) (map fst ps)))) (SDone b (set_nth i (SVector w l' r') (map snd ps))).
Proof.
  intros I N -> (x & m' & E & (S & D & H & R) & G); exists (a x), (set_nth i (OVector (get_v x)) (map fst ps)), m', (set_nth i (OVector (get_v x), SVector Own l' r') ps); rewrite (bind_done _ _ _ _ _ E).
  split; [reflexivity|]; split; [auto|]; split; [|rewrite !map_set_nth; auto].
  apply (inv_same m m' ps i (OVector v, SVector Own l r) _ (inreg (varea v)) N I S).
  - intros b' k J; right; split; [exact J|reflexivity].
  - exists (get_v x); auto.
  - intros b' k [_ J]; destruct (D b' k J) as [J'|J']; [right|left; exact J']; split; [split; [discriminate|exact J']|discriminate].
Qed.
End Step.
