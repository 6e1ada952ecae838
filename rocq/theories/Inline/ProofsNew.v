From Verif.Base Require Import Base.
From Verif.Ir Require Import Model.
From Verif.Closure Require Import Model Spec ProofsSim ProofsScope ProofsGroup.
From Verif.Inline Require Import Model Spec Proofs.

(** ** New ids *)
Definition keys (s : renaming) : list nat := map fst (given s).
Definition adv (ds : list nat) (s s' : renaming) : Prop :=
  next_id s' = (next_id s + List.length ds)%nat /\ exists l, given s' = l ++ given s /\ incl (map fst l) ds.
Definition news (ds : list nat) (s : renaming) : list nat := List.seq (next_id s) (List.length ds).
Definition gives (ds : list nat) (s s' : renaming) : Prop := adv ds s s' /\ map (id_of s') ds = news ds s.

Lemma adv_nil : forall s, adv [] s s.
Proof. intro s. split; [cbn; lia|]. exists []. split; [reflexivity|intros k []]. Qed.
Lemma adv_trans : forall a b s1 s2 s3, adv a s1 s2 -> adv b s2 s3 -> adv (a ++ b) s1 s3.
Proof.
  intros a b s1 s2 s3 (A1 & l & A2 & A3) (B1 & k & B2 & B3). split; [rewrite app_length; lia|]. exists (k ++ l). split; [rewrite B2, A2, app_assoc; reflexivity|].
  rewrite map_app. intros x I. apply in_app_iff in I. apply in_app_iff. destruct I as [I|I]; [right; apply B3, I|left; apply A3, I].
Qed.
Lemma adv_id_of : forall ds s s' u, adv ds s s' -> ~ In u ds -> id_of s' u = id_of s u.
Proof. intros ds s s' u (_ & l & E & I) N. unfold id_of. rewrite E, assoc_app_not; [reflexivity|]. intro J. apply N, I, J. Qed.
Lemma adv_keys : forall ds s s' u, adv ds s s' -> In u (keys s') -> In u ds \/ In u (keys s).
Proof. intros ds s s' u (_ & l & E & I) J. unfold keys in *. rewrite E, map_app in J. apply in_app_iff in J. destruct J as [J|J]; [left; apply I, J|right; exact J]. Qed.
Lemma news_app : forall a b s s', adv a s s' -> news (a ++ b) s = news a s ++ news b s'.
Proof. intros a b s s' (E & _). unfold news. rewrite app_length, seq_app, E. reflexivity. Qed.

Lemma assoc_none : forall {A} u (l : list (nat * A)), ~ In u (map fst l) -> assoc u l = None.
Proof. intros A u l N. rewrite <- (app_nil_r l), assoc_app_not; [reflexivity|exact N]. Qed.

Lemma new_id_gives : forall s u, ~ In u (keys s) -> exists s', new_id s u = Ret (s', next_id s) /\ gives [u] s s'.
Proof.
  intros s u N. unfold new_id. rewrite (assoc_none u (given s) N). eexists. split; [reflexivity|]. split.
  - split; [cbn; lia|]. exists [(u, next_id s)]. split; [reflexivity|apply incl_refl].
  - cbn. unfold id_of. cbn. rewrite Nat.eqb_refl. reflexivity.
Qed.
Lemma gives_trans : forall a b s1 s2 s3, NoDup (a ++ b) -> gives a s1 s2 -> gives b s2 s3 -> gives (a ++ b) s1 s3.
Proof.
  intros a b s1 s2 s3 N (A1 & A2) (B1 & B2). split; [eapply adv_trans; eassumption|]. rewrite map_app, (news_app a b s1 s2 A1), B2, <- A2. f_equal. apply map_ext_in. intros u I.
  apply (adv_id_of b); [exact B1|]. apply NoDup_app_inv in N. destruct N as (_ & _ & D). apply D, I.
Qed.

Lemma new_pat_gives : forall p s, NoDup (pat_defs p) -> (forall d, In d (pat_defs p) -> ~ In d (keys s)) ->
  exists s' q, new_pat s p = Ret (s', q) /\ gives (pat_defs p) s s' /\ pat_defs q = news (pat_defs p) s /\ erase q = erase p.
Proof.
  intro p. induction p as [p IH] using pat_ind. intros s N D.
  assert (LS : forall ps, Forall (fun p => forall s, NoDup (pat_defs p) -> (forall d, In d (pat_defs p) -> ~ In d (keys s)) ->
      exists s' q, new_pat s p = Ret (s', q) /\ gives (pat_defs p) s s' /\ pat_defs q = news (pat_defs p) s /\ erase q = erase p) ps ->
    forall s, NoDup (flat_map pat_defs ps) -> (forall d, In d (flat_map pat_defs ps) -> ~ In d (keys s)) ->
    exists s' qs, each new_pat s ps = Ret (s', qs) /\ gives (flat_map pat_defs ps) s s' /\ flat_map pat_defs qs = news (flat_map pat_defs ps) s /\ map erase qs = map erase ps).
  { clear. intros ps H. induction H as [|p ps H0 H IHl]; intros s N D.
    - exists s, []. split; [reflexivity|]. split; [split; [apply adv_nil|reflexivity]|]. split; reflexivity.
    - cbn [flat_map] in *. pose proof (NoDup_app_inv _ _ N) as (N1 & N2 & N3). destruct (H0 s N1) as (s1 & q & E1 & G1 & P1 & Q1); [intros d I; apply D, in_app_iff; left; exact I|].
      destruct (IHl s1 N2) as (s2 & qs & E2 & G2 & P2 & Q2).
      { intros d I J. destruct (adv_keys _ _ _ _ (proj1 G1) J) as [K|K]; [exact (N3 d K I)|]. apply (D d); [apply in_app_iff; right; exact I|exact K]. }
      exists s2, (q :: qs). cbn [each bind]. rewrite E1. cbn [bind]. rewrite E2. split; [reflexivity|]. split; [eapply gives_trans; eassumption|].
      split; [cbn; rewrite P1, P2; symmetry; apply news_app, G1|cbn; rewrite Q1, Q2; reflexivity]. }
  destruct p as [id t [p|]|t|p|p|t|t i ps|t ps|t p|p|c]; cbn [pat_defs] in *;
    try (exists s; eexists; split; [reflexivity|]; split; [split; [apply adv_nil|reflexivity]|]; split; reflexivity);
    try (destruct (IH s N D) as (s1 & q & E1 & G1 & P1 & Q1); exists s1; eexists; split; [cbn; rewrite E1; reflexivity|]; split; [exact G1|]; split; [exact P1|cbn; rewrite Q1; reflexivity]);
    try (destruct (LS ps IH s N D) as (s1 & q & E1 & G1 & P1 & Q1); exists s1; eexists; split; [cbn; rewrite E1; reflexivity|]; split; [exact G1|]; split; [exact P1|cbn; rewrite Q1; reflexivity]).
  - destruct (new_id_gives s id) as (s1 & E1 & G1); [apply D; left; reflexivity|]. inversion N as [|? ? N1 N2]; subst.
    destruct (IH s1 N2) as (s2 & q & E2 & G2 & P2 & Q2).
    { intros d I J. destruct (adv_keys _ _ _ _ (proj1 G1) J) as [[->|[]]|K]; [contradiction|]. apply (D d); [right; exact I|exact K]. }
    exists s2. eexists. split; [cbn; rewrite E1; cbn; rewrite E2; reflexivity|]. split; [exact (gives_trans [id] (pat_defs p) s s1 s2 N G1 G2)|].
    split; [|cbn; rewrite Q2; reflexivity]. change (id :: pat_defs p) with ([id] ++ pat_defs p). rewrite (news_app [id] _ s s1 (proj1 G1)). cbn. rewrite P2. reflexivity.
  - destruct (new_id_gives s id) as (s1 & E1 & G1); [apply D; left; reflexivity|]. exists s1. eexists. split; [cbn; rewrite E1; reflexivity|]. split; [exact G1|]. split; reflexivity.
Qed.

(** ** The body of a transparent function *)
Section Body.
Variable M : list (nat * expr).
Variable A : list nat.
Hypothesis HM : Forall (fun p => match snd p with EVar a _ => In a A | _ => False end) M.

Definition img (s : renaming) (u : nat) : nat := match assoc u M with Some (EVar a _) => a | _ => id_of s u end.
Definition rel (s : renaming) (vs : list nat) : list (nat * nat) := map (fun u => (u, img s u)) vs.

Definition K (ds : list nat) (s : renaming) (vs : list nat) : Prop :=
  NoDup ds /\ (forall d, In d ds -> ~ In d vs /\ ~ In d (keys s) /\ ~ In d (map fst M) /\ ~ In d A) /\
  (forall a, In a A -> ~ In a (keys s)) /\ (forall u, In u vs -> img s u < next_id s)%nat.

Lemma img_adv : forall ds s s' u, adv ds s s' -> ~ In u ds -> img s' u = img s u.
Proof. intros ds s s' u H N. unfold img. rewrite (adv_id_of _ _ _ _ H N). reflexivity. Qed.
Lemma rel_adv : forall ds s s' vs, adv ds s s' -> (forall d, In d ds -> ~ In d vs) -> rel s' vs = rel s vs.
Proof. intros ds s s' vs H N. apply map_ext_in. intros u I. rewrite (img_adv _ _ _ _ H); [reflexivity|]. intro J. exact (N u J I). Qed.

Lemma K_incl : forall a b s vs, K (a ++ b) s vs -> K a s vs.
Proof. intros a b s vs (H1 & H2 & H3). apply NoDup_app_inv in H1. split; [apply H1|]. split; [|exact H3]. intros d I. apply H2, in_app_iff. left. exact I. Qed.
Lemma K_next : forall a b s s' vs, K (a ++ b) s vs -> adv a s s' -> K b s' vs.
Proof.
  intros a b s s' vs (H1 & H2 & H3 & H4) V. pose proof (NoDup_app_inv _ _ H1) as (N1 & N2 & N3). split; [exact N2|]. split; [|split].
  - intros d I. destruct (H2 d) as (D1 & D2 & D3 & D4); [apply in_app_iff; right; exact I|]. split; [exact D1|]. split; [|auto]. intro J. destruct (adv_keys _ _ _ _ V J) as [X|X]; [exact (N3 d X I)|contradiction].
  - intros x I J. destruct (adv_keys _ _ _ _ V J) as [X|X]; [|exact (H3 x I X)]. destruct (H2 x) as (_ & _ & _ & D); [apply in_app_iff; left; exact X|]. contradiction.
  - intros u I. rewrite (img_adv _ _ _ _ V). { destruct V as [V _]. pose proof (H4 u I). lia. } intro J. destruct (H2 u) as (D & _); [apply in_app_iff; left; exact J|]. contradiction.
Qed.
Lemma K_rel : forall a b s s' vs, K (a ++ b) s vs -> adv a s s' -> rel s' vs = rel s vs.
Proof. intros a b s s' vs (_ & H2 & _) V. apply (rel_adv a); [exact V|]. intros d I. apply H2, in_app_iff. left. exact I. Qed.

Lemma img_new : forall B s s', gives B s s' -> (forall d, In d B -> ~ In d (map fst M)) -> map (img s') B = news B s.
Proof. intros B s s' (_ & G) D. rewrite <- G. apply map_ext_in. intros u I. unfold img. rewrite (assoc_none u M (D u I)). reflexivity. Qed.
Lemma rel_pairs : forall s B, rel s B = combine B (map (img s) B).
Proof. intros s B. induction B as [|u B IH]; [reflexivity|]. cbn. f_equal. exact IH. Qed.
Lemma K_bind : forall B b s s' vs, K (B ++ b) s vs -> gives B s s' ->
  K b s' (B ++ vs) /\ rel s' (B ++ vs) = combine B (news B s) ++ rel s vs /\ apart (rel s vs) B (news B s).
Proof.
  intros B b s s' vs HK G. pose proof HK as (H1 & H2 & H3 & H4). pose proof (NoDup_app_inv _ _ H1) as (N1 & N2 & N3).
  assert (IM : map (img s') B = news B s). { apply img_new; [exact G|]. intros d I. apply H2, in_app_iff. left. exact I. }
  destruct (K_next B b s s' vs HK (proj1 G)) as (K1 & K2 & K3 & K4). split; [|split].
  - split; [exact K1|]. split; [|split; [exact K3|]].
    + intros d I. destruct (K2 d I) as (D1 & D). split; [|exact D]. intro J. apply in_app_iff in J. destruct J as [J|J]; [exact (N3 d J I)|contradiction].
    + intros u I. apply in_app_iff in I. destruct I as [I|I]; [|apply K4, I]. assert (J : In (img s' u) (news B s)) by (rewrite <- IM; apply in_map, I).
      apply in_seq in J. destruct G as [[G _] _]. lia.
  - unfold rel at 1. rewrite map_app. fold (rel s' B) (rel s' vs). rewrite rel_pairs, IM, (K_rel B b s s' vs HK (proj1 G)). reflexivity.
  - split; [exact N1|]. split; [apply seq_NoDup|]. split; [unfold news; rewrite seq_length; reflexivity|]. unfold rel. rewrite !map_map. cbn [fst snd]. rewrite map_id. split.
    + intros u I. apply H2, in_app_iff. left. exact I.
    + intros u I J. apply in_seq in I. apply in_map_iff in J. destruct J as (w & <- & J). pose proof (H4 w J). lia.
Qed.

Definition goal (x : expr) : Prop := forall s vs, scoped vs [] x -> simple x -> K (defs x) s vs ->
  exists s' y, realloc s (replaced M x) = Ret (s', y) /\ adv (defs x) s s' /\ defs y = news (defs x) s /\ rn (rel s vs) x y.

Lemma goal_list : forall es, (forall e, In e es -> goal e) -> forall s vs ds, Forall (scoped vs []) es -> fold_right (fun x P => simple x /\ P) True es -> K (flat_map defs es ++ ds) s vs ->
  exists s' ys, each realloc s (map (replaced M) es) = Ret (s', ys) /\ adv (flat_map defs es) s s' /\ flat_map defs ys = news (flat_map defs es) s /\ Forall2 (rn (rel s vs)) es ys.
Proof.
  intros es. induction es as [|e es IH]; intros G s vs ds SC SI HK.
  - exists s, []. split; [reflexivity|]. split; [apply adv_nil|]. split; [reflexivity|constructor].
  - cbn [flat_map fold_right] in *. rewrite <- app_assoc in HK. pose proof (Forall_inv SC) as S0. apply Forall_inv_tail in SC. destruct SI as [SI0 SI].
    destruct (G e (or_introl eq_refl) s vs S0 SI0 (K_incl _ _ _ _ HK)) as (s1 & y & E1 & A1 & D1 & R1).
    destruct (IH (fun x I => G x (or_intror I)) s1 vs ds SC SI (K_next _ _ _ _ _ HK A1)) as (s2 & ys & E2 & A2 & D2 & R2).
    exists s2, (y :: ys). cbn [map each]. rewrite E1. cbn [bind]. rewrite E2. split; [reflexivity|]. split; [eapply adv_trans; eassumption|]. split.
    + cbn. rewrite D1, D2. symmetry. apply news_app, A1.
    + constructor; [exact R1|]. rewrite <- (K_rel _ _ _ _ _ HK A1). exact R2.
Qed.

Definition new_clause (s : renaming) (c : rtpat * expr) : outcome (renaming * (rtpat * expr)) :=
  match c with (p, e) => let* (s, p) := new_pat s p in let* (s, e) := realloc s e in Ret (s, (p, e)) end.
Definition clause_defs (c : rtpat * expr) : list nat := pat_defs (fst c) ++ defs (snd c).
Lemma goal_clauses : forall cs, (forall c, In c cs -> goal (snd c)) -> forall s vs ds, Forall (fun c => scoped (pat_defs (fst c) ++ vs) [] (snd c)) cs ->
  fold_right (fun c P => simple (snd c) /\ P) True cs -> K (flat_map clause_defs cs ++ ds) s vs ->
  exists s' ys, each new_clause s (map (fun c => (fst c, replaced M (snd c))) cs) = Ret (s', ys) /\ adv (flat_map clause_defs cs) s s' /\
    flat_map clause_defs ys = news (flat_map clause_defs cs) s /\
    Forall2 (fun c c' => erase (fst c) = erase (fst c') /\ apart (rel s vs) (pat_defs (fst c)) (pat_defs (fst c')) /\
      rn (combine (pat_defs (fst c)) (pat_defs (fst c')) ++ rel s vs) (snd c) (snd c')) cs ys.
Proof.
  intros cs. induction cs as [|[p e] cs IH]; intros G s vs ds SC SI HK.
  - exists s, []. split; [reflexivity|]. split; [apply adv_nil|]. split; [reflexivity|constructor].
  - cbn [flat_map fold_right] in *. rewrite <- app_assoc in HK. pose proof (Forall_inv SC) as S0. apply Forall_inv_tail in SC. destruct SI as [SI0 SI]. cbn [fst snd] in *.
    unfold clause_defs at 1 in HK. cbn [fst snd] in HK. rewrite <- app_assoc in HK.
    destruct (new_pat_gives p s) as (s1 & q & E1 & G1 & P1 & Q1).
    { apply K_incl in HK. apply HK. } { intros d I. apply K_incl in HK. destruct HK as (_ & X & _). apply X, I. }
    destruct (K_bind _ _ _ _ _ HK G1) as (HK1 & R1 & AP).
    destruct (G (p, e) (or_introl eq_refl) s1 (pat_defs p ++ vs) S0 SI0 (K_incl _ _ _ _ HK1)) as (s2 & y & E2 & A2 & D2 & R2). cbn [snd] in *.
    pose proof (adv_trans _ _ _ _ _ (proj1 G1) A2) as A02. rewrite app_assoc in HK. pose proof (K_next _ _ _ _ _ HK A02) as HK2.
    destruct (IH (fun x I => G x (or_intror I)) s2 vs ds SC SI HK2) as (s3 & ys & E3 & A3 & D3 & R3).
    exists s3, ((q, y) :: ys). cbn [map each fst snd]. unfold new_clause at 1. rewrite E1. cbn [bind]. rewrite E2. cbn [bind]. rewrite E3. split; [reflexivity|]. split; [eapply adv_trans; [exact A02|exact A3]|]. split.
    + rewrite (news_app (clause_defs (p, e)) _ s s2 A02). cbn. rewrite D3. f_equal. unfold clause_defs. cbn [fst snd]. rewrite P1, D2. symmetry. apply news_app, G1.
    + constructor.
      * cbn [fst snd]. rewrite P1. split; [symmetry; exact Q1|]. split; [exact AP|]. rewrite <- R1. exact R2.
      * rewrite <- (K_rel _ _ _ _ _ HK A02). exact R3.
Qed.

Lemma realloc_let : forall s id t x l b s1 id' s2 x' s3 l' b', new_id s id = Ret (s1, id') -> realloc s1 x = Ret (s2, x') -> realloc s2 (ELetVar l b) = Ret (s3, ELetVar l' b') ->
  realloc s (ELetVar ((id, t, x) :: l) b) = Ret (s3, ELetVar ((id', t, x') :: l') b').
Proof.
  intros s id t x l b s1 id' s2 x' s3 l' b' E1 E2 E3. cbn [realloc each] in *. rewrite E1. cbn [bind]. rewrite E2. cbn [bind].
  destruct (each _ s2 l) as [[s4 l4]| |]; cbn [bind] in *; try discriminate E3. destruct (realloc s4 b) as [[s5 b5]| |]; cbn [bind] in *; try discriminate E3. injection E3 as <- <- <-. reflexivity.
Qed.
Lemma realloc_let_shape : forall s l b s' y, realloc s (ELetVar l b) = Ret (s', y) -> exists l' b', y = ELetVar l' b'.
Proof.
  intros s l b s' y E. cbn [realloc] in E. destruct (each _ s l) as [[s4 l4]| |]; cbn [bind] in *; try discriminate E. destruct (realloc s4 b) as [[s5 b5]| |]; cbn [bind] in *; try discriminate E. injection E as <- <-. eauto.
Qed.

Lemma body_goal : forall x, goal x.
Proof.
  intro x. induction x as [x IH] using expr_size_ind. intros s vs SC SI HK.
  destruct x as [id t|f t|o es|f es|es x|a b c|a b|a b|a b|a cs| |l b|l b|l b]; cbn [size] in IH; try destruct SI; cbn [defs] in HK |- *.
  - inversion SC; subst. exists s. unfold img, rel. cbn [replaced]. destruct (assoc id M) as [e|] eqn:EM.
    + assert (HE : match e with EVar a _ => In a A | _ => False end). { clear - EM HM. induction HM as [|[k y] M0 H0 H1 IH]; [discriminate EM|]. cbn in EM. destruct (id =? k)%nat; [injection EM as <-; exact H0|exact (IH H1 EM)]. }
      destruct e; try contradiction. cbn [realloc]. eexists. split; [reflexivity|]. split; [apply adv_nil|]. split; [reflexivity|].
      constructor. apply in_map_iff. exists id. split; [|assumption]. unfold img. rewrite EM. unfold id_of. rewrite assoc_none; [reflexivity|]. apply HK, HE.
    + cbn [realloc]. eexists. split; [reflexivity|]. split; [apply adv_nil|]. split; [reflexivity|]. constructor. apply in_map_iff. exists id. split; [|assumption]. unfold img. rewrite EM. reflexivity.
  - assert (SI' : fold_right (fun x P => simple x /\ P) True es) by (clear - SI; destruct o; cbn in SI; try exact SI; destruct SI). inversion SC; subst.
    rewrite <- (app_nil_r (flat_map defs es)) in HK.
    destruct (goal_list es (fun e I => IH e ltac:(pose proof (size_in size _ e I); lia)) s vs [] ltac:(assumption) SI' HK) as (s1 & ys & E1 & A1 & D1 & R1).
    exists s1. eexists. cbn [replaced realloc]. rewrite E1. split; [reflexivity|]. split; [exact A1|]. split; [exact D1|]. constructor. exact R1.
  - inversion SC; subst. destruct (IH f ltac:(lia) s vs ltac:(assumption) ltac:(assumption) (K_incl _ _ _ _ HK)) as (s1 & y & E1 & A1 & D1 & R1).
    pose proof (K_next _ _ _ _ _ HK A1) as HK1. rewrite <- (app_nil_r (flat_map defs es)) in HK1.
    destruct (goal_list es (fun e I => IH e ltac:(pose proof (size_in size _ e I); lia)) s1 vs [] ltac:(assumption) ltac:(assumption) HK1) as (s2 & ys & E2 & A2 & D2 & R2).
    exists s2. eexists. cbn [replaced realloc]. rewrite E1. cbn [bind]. rewrite E2. split; [reflexivity|]. split; [eapply adv_trans; eassumption|].
    split; [cbn [defs]; rewrite D1, D2; symmetry; apply news_app, A1|]. constructor; [exact R1|]. rewrite <- (K_rel _ _ _ _ _ HK A1). exact R2.
  - inversion SC; subst.
    destruct (goal_list es (fun e I => IH e ltac:(pose proof (size_in size _ e I); lia)) s vs _ ltac:(assumption) ltac:(assumption) HK) as (s1 & ys & E1 & A1 & D1 & R1).
    destruct (IH x ltac:(lia) s1 vs ltac:(assumption) ltac:(assumption) (K_next _ _ _ _ _ HK A1)) as (s2 & y & E2 & A2 & D2 & R2).
    exists s2. eexists. cbn [replaced realloc]. rewrite E1. cbn [bind]. rewrite E2. split; [reflexivity|]. split; [eapply adv_trans; eassumption|].
    split; [cbn [defs]; rewrite D1, D2; symmetry; apply news_app, A1|]. constructor; [exact R1|]. rewrite <- (K_rel _ _ _ _ _ HK A1). exact R2.
  - inversion SC; subst. match goal with X : _ /\ _ |- _ => destruct X end.
    destruct (IH a ltac:(lia) s vs ltac:(assumption) ltac:(assumption) (K_incl _ _ _ _ HK)) as (s1 & y & E1 & A1 & D1 & R1).
    pose proof (K_next _ _ _ _ _ HK A1) as HK1. destruct (IH b ltac:(lia) s1 vs ltac:(assumption) ltac:(assumption) (K_incl _ _ _ _ HK1)) as (s2 & z & E2 & A2 & D2 & R2).
    pose proof (K_next _ _ _ _ _ HK1 A2) as HK2. destruct (IH c ltac:(lia) s2 vs ltac:(assumption) ltac:(assumption) HK2) as (s3 & w & E3 & A3 & D3 & R3).
    exists s3. eexists. cbn [replaced realloc]. rewrite E1. cbn [bind]. rewrite E2. cbn [bind]. rewrite E3. split; [reflexivity|]. split; [exact (adv_trans _ _ _ _ _ A1 (adv_trans _ _ _ _ _ A2 A3))|].
    split; [cbn [defs]; rewrite D1, D2, D3, (news_app _ _ _ _ A1), (news_app _ _ _ _ A2); reflexivity|].
    rewrite (K_rel _ _ _ _ _ HK1 A2), (K_rel _ _ _ _ _ HK A1) in R3. rewrite (K_rel _ _ _ _ _ HK A1) in R2. constructor; assumption.
  - inversion SC; subst. destruct (IH a ltac:(lia) s vs ltac:(assumption) ltac:(assumption) (K_incl _ _ _ _ HK)) as (s1 & y & E1 & A1 & D1 & R1).
    destruct (IH b ltac:(lia) s1 vs ltac:(assumption) ltac:(assumption) (K_next _ _ _ _ _ HK A1)) as (s2 & z & E2 & A2 & D2 & R2).
    exists s2. eexists. cbn [replaced realloc]. rewrite E1. cbn [bind]. rewrite E2. split; [reflexivity|]. split; [eapply adv_trans; eassumption|].
    split; [cbn [defs]; rewrite D1, D2; symmetry; apply news_app, A1|]. rewrite (K_rel _ _ _ _ _ HK A1) in R2. constructor; assumption.
  - inversion SC; subst. destruct (IH a ltac:(lia) s vs ltac:(assumption) ltac:(assumption) (K_incl _ _ _ _ HK)) as (s1 & y & E1 & A1 & D1 & R1).
    destruct (IH b ltac:(lia) s1 vs ltac:(assumption) ltac:(assumption) (K_next _ _ _ _ _ HK A1)) as (s2 & z & E2 & A2 & D2 & R2).
    exists s2. eexists. cbn [replaced realloc]. rewrite E1. cbn [bind]. rewrite E2. split; [reflexivity|]. split; [eapply adv_trans; eassumption|].
    split; [cbn [defs]; rewrite D1, D2; symmetry; apply news_app, A1|]. rewrite (K_rel _ _ _ _ _ HK A1) in R2. constructor; assumption.
  - inversion SC; subst. destruct (IH a ltac:(lia) s vs ltac:(assumption) ltac:(assumption) (K_incl _ _ _ _ HK)) as (s1 & y & E1 & A1 & D1 & R1).
    destruct (IH b ltac:(lia) s1 vs ltac:(assumption) ltac:(assumption) (K_next _ _ _ _ _ HK A1)) as (s2 & z & E2 & A2 & D2 & R2).
    exists s2. eexists. cbn [replaced realloc]. rewrite E1. cbn [bind]. rewrite E2. split; [reflexivity|]. split; [eapply adv_trans; eassumption|].
    split; [cbn [defs]; rewrite D1, D2; symmetry; apply news_app, A1|]. rewrite (K_rel _ _ _ _ _ HK A1) in R2. constructor; assumption.
  - inversion SC; subst. destruct (IH a ltac:(lia) s vs ltac:(assumption) ltac:(assumption) (K_incl _ _ _ _ HK)) as (s1 & y & E1 & A1 & D1 & R1).
    pose proof (K_next _ _ _ _ _ HK A1) as HK1. fold clause_defs in HK1. rewrite <- (app_nil_r (flat_map _ cs)) in HK1.
    destruct (goal_clauses cs (fun c I => IH (snd c) ltac:(pose proof (size_in (fun c => size (snd c)) _ c I); cbn in *; lia)) s1 vs [] ltac:(assumption) ltac:(assumption) HK1) as (s2 & ys & E2 & A2 & D2 & R2).
    exists s2. eexists. cbn [replaced realloc]. rewrite E1. cbn [bind]. fold new_clause. 
    match goal with |- context [each ?f s1 ?l] => change (each f s1 l) with (each new_clause s1 l) end. rewrite E2. split; [reflexivity|]. split; [eapply adv_trans; eassumption|].
    split; [cbn [defs]; fold clause_defs; rewrite (news_app _ _ _ _ A1), D1; f_equal; exact D2|]. rewrite (K_rel _ _ _ _ _ HK A1) in R2. constructor; assumption.
  - inversion SC; subst. exists s. eexists. split; [reflexivity|]. split; [apply adv_nil|]. split; [reflexivity|constructor].
  - destruct l as [|[[id t] x] l].
    + inversion SC; subst. destruct (IH b ltac:(cbn; lia) s vs ltac:(assumption) ltac:(assumption) HK) as (s1 & y & E1 & A1 & D1 & R1).
      exists s1. eexists. cbn [replaced map realloc each bind]. rewrite E1. split; [reflexivity|]. split; [exact A1|]. split; [exact D1|]. constructor. exact R1.
    + inversion SC; subst. match goal with X : fold_right _ _ _ |- _ => destruct X as [SX SL] end. cbn [flat_map fst snd] in HK, SX |- *.
      rewrite <- app_assoc in HK |- *. cbn [app] in HK |- *. change (K ([id] ++ defs x ++ defs (ELetVar l b)) s vs) in HK.
      destruct (new_id_gives s id) as (s1 & E1 & G1). { destruct HK as (_ & X & _). apply X. left. reflexivity. }
      destruct (K_bind _ _ _ _ _ HK G1) as (HK1 & RR & AP).
      destruct (IH x ltac:(cbn; lia) s1 vs ltac:(assumption) SX (K_incl _ _ _ _ (K_next _ _ _ _ _ HK (proj1 G1)))) as (s2 & y & E2 & A2 & D2 & R2).
      assert (SLB : simple (ELetVar l b)) by (split; assumption).
      destruct (IH (ELetVar l b) ltac:(cbn; lia) s2 (id :: vs) ltac:(assumption) SLB (K_next _ _ _ _ _ HK1 A2)) as (s3 & z & E3 & A3 & D3 & R3).
      destruct (realloc_let_shape _ _ _ _ _ E3) as (l' & b' & ->). exists s3. eexists. split; [exact (realloc_let _ _ t _ _ _ _ _ _ _ _ _ _ E1 E2 E3)|].
      split; [exact (adv_trans _ _ _ _ _ (proj1 G1) (adv_trans _ _ _ _ _ A2 A3))|]. split.
      * change (next_id s :: (defs y ++ flat_map (fun v => fst (fst v) :: defs (snd v)) l') ++ defs b' = news ([id] ++ defs x ++ defs (ELetVar l b)) s).
        rewrite <- app_assoc. change (flat_map (fun v => fst (fst v) :: defs (snd v)) l' ++ defs b') with (defs (ELetVar l' b')). rewrite D2, D3, (news_app [id] _ _ _ (proj1 G1)), (news_app _ _ _ _ A2). reflexivity.
      * rewrite (K_rel _ _ _ _ _ HK (proj1 G1)) in R2. constructor; [exact R2|exact AP|]. change (next_id s) with (next_id s) in *.
        change (id :: vs) with ([id] ++ vs) in R3. rewrite (K_rel _ _ _ _ _ HK1 A2), RR in R3. exact R3.
Qed.
End Body.
