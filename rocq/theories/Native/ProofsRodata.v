From Coq Require Import NArith ZArith Lia.
From Verif.Base Require Import Base Vec.
From Verif.Obj Require Import Model Spec Proofs ProofsProduce ProofsLink.
From Verif.Native Require Import Model Spec.
Local Open Scope Z_scope.

(** ** Histories *)

Lemma run_app : forall cs w w1 es1 cs2 r2, run w cs = Ret (w1, es1) -> run w1 cs2 = Ret r2 ->
  run w (cs ++ cs2) = Ret (fst r2, es1 ++ snd r2).
Proof.
  induction cs as [|c cs IH]; intros w w1 es1 cs2 r2 H1 H2; cbn [run app] in *.
  - injection H1 as <- <-. rewrite H2. now destruct r2.
  - apply bind_ret in H1. destruct H1 as ([w' a] & -> & H1). apply bind_ret in H1. destruct H1 as ([w2 es2] & E & H1).
    injection H1 as <- <-. cbn [bind fst snd] in *. rewrite (IH _ _ _ _ _ E H2). reflexivity.
Qed.

Lemma run_prefix : forall cs w w' es, run w cs = Ret (w', es) -> forall c, exists bs, buffer c (w_buffers w') = buffer c (w_buffers w) ++ bs.
Proof.
  induction cs as [|c cs IH]; intros w w' es H ct; cbn [run] in H.
  - injection H as <- <-. exists []. now rewrite app_nil_r.
  - apply bind_ret in H. destruct H as ([w1 a] & S1 & H). apply bind_ret in H. destruct H as ([w2 es2] & S2 & H). injection H as <- <-.
    destruct (step_writes _ _ _ _ S1 ct) as (b1 & E1 & _). destruct (IH _ _ _ S2 ct) as (b2 & E2). cbn [fst] in *. exists (b1 ++ b2).
    now rewrite E2, E1, app_assoc.
Qed.

Lemma run_one w c w' a : step w c = Ret (w', a) -> run w [c] = Ret (w', [Event c a (position w)]).
Proof. intro H. cbn [run]. rewrite H. reflexivity. Qed.

Lemma uses_app es es' : uses (es ++ es') = uses es ++ uses es'.
Proof. apply flat_map_app. Qed.

Lemma FOP_app {A} (R : A -> A -> Prop) : forall l l', ForallOrdPairs R l -> ForallOrdPairs R l' ->
  (forall x y, In x l -> In y l' -> R x y) -> ForallOrdPairs R (l ++ l').
Proof.
  induction l as [|x l IH]; intros l' H1 H2 C; cbn; [exact H2|]. inversion H1 as [|? ? F H1']. subst. constructor.
  - apply Forall_app. split; [exact F|]. apply Forall_forall. intros y I. apply C; [now left|exact I].
  - apply IH; auto. intros a b Ia. apply C. now right.
Qed.

(** Nothing but additions to .rodata. *)
Definition ext (w w' : writer) : Prop :=
  (forall c, exists bs, buffer c (w_buffers w') = buffer c (w_buffers w) ++ bs) /\ w_bss w' = w_bss w.
Lemma ext_refl w : ext w w.
Proof. split; [intro c; exists []; now rewrite app_nil_r|reflexivity]. Qed.
Lemma ext_trans a b c : ext a b -> ext b c -> ext a c.
Proof.
  intros [E1 B1] [E2 B2]. split; [|congruence]. intro ct. destruct (E1 ct) as (x & X), (E2 ct) as (y & Y). exists (x ++ y). now rewrite Y, X, app_assoc.
Qed.
Lemma ext_position w w' s : ext w w' -> position w s <= position w' s.
Proof. intros [E B]. destruct s as [c|]; cbn; [|lia]. destruct (E c) as (x & ->). rewrite app_length. lia. Qed.

(** ** Data laid out between two positions *)

Definition df (es : list event) (l : label) (p : Z) : Prop := defined es l false (Loc Rodata p).

Inductive laid (buf : list N) (us : list use) (df : label -> Z -> Prop) (lo hi : Z) : label -> rep -> Prop :=
| laid_rep l pos al d ind : df l pos -> pos mod al = 0 -> lo <= pos -> pos + Z.of_nat (List.length d) <= hi ->
    (forall i b, nth_error d (Z.to_nat i) = Some b -> 0 <= i -> nth_error buf (Z.to_nat (pos + i)) = Some b) ->
    (forall u, In u us -> l_section (u_location u) = Rodata -> l_pos (u_location u) < pos + Z.of_nat (List.length d) ->
      pos < l_pos (u_location u) + width (u_type u) -> exists off r, In (off, r) ind /\ l_pos (u_location u) = pos + off /\ width (u_type u) = 8) ->
    (forall off r, In (off, r) ind -> exists l', In (Use (Loc Rodata (pos + off)) l' 0 Abs64) us /\ laid buf us df lo hi l' r) ->
    laid buf us df lo hi l (Rep al d ind).

Fixpoint rep_ind' (P : rep -> Prop) (H : forall al d ind, (forall off r, In (off, r) ind -> P r) -> P (Rep al d ind)) (r : rep) : P r.
Proof.
  destruct r as [al d ind]. apply H. induction ind as [|[off r] ind IH]; intros off' r' I; [destruct I|].
  destruct I as [I|I]; [injection I as <- <-; apply rep_ind', H|eapply IH, I].
Defined.

Definition outside (lo hi : Z) (u : use) : Prop :=
  l_section (u_location u) = Rodata -> l_pos (u_location u) + width (u_type u) <= lo \/ hi <= l_pos (u_location u).

Lemma laid_mono buf us (D : label -> Z -> Prop) lo hi bs us' (D' : label -> Z -> Prop) lo' hi' : (forall u, In u us -> In u us') -> (forall u, In u us' -> In u us \/ outside lo hi u) ->
  (forall l p, D l p -> D' l p) -> lo' <= lo -> hi <= hi' -> forall r l, laid buf us D lo hi l r -> laid (buf ++ bs) us' D' lo' hi' l r.
Proof.
  intros I1 I2 Id Lo Hi. induction r as [al d ind IH] using rep_ind'. intros l H. inversion H as [? pos ? ? ? Df Al L1 L2 By Us Rf]. subst.
  apply laid_rep with (pos := pos); auto; try lia.
  - intros i b N P. rewrite nth_error_app1; [auto|]. apply nth_error_Some. rewrite (By i b N P). discriminate.
  - intros u I S P1 P2. destruct (I2 u I) as [I'|O]; [auto|]. destruct (O S); exfalso; destruct u as [ul ut ua []]; cbn in *; lia.
  - intros off r I. destruct (Rf off r I) as (l' & U & L'). exists l'. split; [auto|]. eapply IH; eauto.
Qed.

(** ** What [embed_rodata] does *)

Definition used (es : list event) (u : use) : Prop :=
  l_section (u_location u) = Rodata /\ u_type u = Abs64 /\ exists p, df es (u_target u) p.

Definition embedded (w w' : writer) (es : list event) (l : label) (r : rep) : Prop :=
  ext w w' /\
  (forall u, In u (uses es) -> used es u /\ position w Rodata <= l_pos (u_location u) /\ l_pos (u_location u) + 8 <= position w' Rodata) /\
  ForallOrdPairs apart (uses es) /\
  laid (buffer Rodata (w_buffers w')) (uses es) (df es) (position w Rodata) (position w' Rodata) l r.

Definition embeddable (r : rep) : Prop := forall w, exists w' l cs es,
  embed_rodata w r = Ret (w', l) /\ run w cs = Ret (w', es) /\ embedded w w' es l r.

Definition embed_all (pos : location) : writer -> list (Z * rep) -> outcome writer :=
  fix embed_all (w : writer) (indirect : list (Z * rep)) : outcome writer :=
       match indirect with
       | [] => Ret w
       | (off, r) :: indirect =>
           let* x := embed_rodata w r in
           let* loc := offset pos off in
           embed_all (use_ (Use loc (snd x) 0 Abs64) (fst x)) indirect
       end.

Lemma df_app1 es es' l p : df es l p -> df (es ++ es') l p.
Proof. intros (s & a & b & I & E). exists s, a, b. split; [apply in_or_app; now left|exact E]. Qed.
Lemma df_app2 es es' l p : df es' l p -> df (es ++ es') l p.
Proof. intros (s & a & b & I & E). exists s, a, b. split; [apply in_or_app; now right|exact E]. Qed.
Lemma used_app1 es es' u : used es u -> used (es ++ es') u.
Proof. intros (A & B & p & D). repeat split; auto. exists p. now apply df_app1. Qed.
Lemma used_app2 es es' u : used es' u -> used (es ++ es') u.
Proof. intros (A & B & p & D). repeat split; auto. exists p. now apply df_app2. Qed.
Lemma used_width es u : used es u -> width (u_type u) = 8.
Proof. intros (_ & -> & _). reflexivity. Qed.

Lemma apart_rodata es es' u v : used es u -> used es' v ->
  l_pos (u_location u) + 8 <= l_pos (u_location v) \/ l_pos (u_location v) + 8 <= l_pos (u_location u) -> apart u v.
Proof. intros U V H. right. rewrite (used_width _ _ U), (used_width _ _ V). exact H. Qed.

Lemma embed_all_ok pos len : 0 <= pos -> forall todo, Forall (fun x => embeddable (snd x)) todo ->
  Forall (fun x => 0 <= fst x /\ fst x + 8 <= len) todo ->
  ForallOrdPairs (fun x y => fst x + 8 <= fst y \/ fst y + 8 <= fst x) todo ->
  forall w, pos + len <= position w Rodata -> exists w' cs es,
    embed_all (Loc Rodata pos) w todo = Ret w' /\ run w cs = Ret (w', es) /\ ext w w' /\
    (forall u, In u (uses es) -> used es u /\ ((exists off r, In (off, r) todo /\ l_pos (u_location u) = pos + off) \/
      (position w Rodata <= l_pos (u_location u) /\ l_pos (u_location u) + 8 <= position w' Rodata))) /\
    ForallOrdPairs apart (uses es) /\
    (forall off r, In (off, r) todo -> exists l, In (Use (Loc Rodata (pos + off)) l 0 Abs64) (uses es) /\
      laid (buffer Rodata (w_buffers w')) (uses es) (df es) (position w Rodata) (position w' Rodata) l r).
Proof.
  intro P0. induction todo as [|[off r] todo IH]; intros Em In_ Ap w Le.
  - exists w, [], []. split; [reflexivity|]. split; [reflexivity|]. split; [apply ext_refl|]. split; [intros u []|]. split; [constructor|]. intros ? ? [].
  - inversion Em as [|? ? E0 Em']. subst. inversion In_ as [|? ? I0 In']. subst. inversion Ap as [|? ? A0 Ap']. subst. cbn [fst snd] in *.
    destruct (E0 w) as (w1 & l & cs1 & es1 & Er & R1 & X1 & U1 & A1 & L1).
    pose proof (ext_position _ _ Rodata X1) as M1.
    set (u0 := Use (Loc Rodata (pos + off)) l 0 Abs64). set (w1' := use_ u0 w1).
    assert (Pw : forall s, position w1' s = position w1 s) by reflexivity.
    destruct (IH Em' In' Ap' w1') as (w2 & cs2 & es2 & Ea & R2 & X2 & U2 & A2 & L2); [rewrite Pw; lia|]. rewrite Pw in *.
    pose proof (ext_position _ _ Rodata X2) as M2. rewrite Pw in M2.
    set (e0 := Event (CUse (Loc Rodata (pos + off)) l 0 Abs64) ANothing (position w1)).
    assert (Us : uses (es1 ++ e0 :: es2) = uses es1 ++ u0 :: uses es2) by (rewrite uses_app; reflexivity).
    assert (D0 : exists p, df es1 l p) by (inversion L1; eauto).
    assert (V0 : used (es1 ++ e0 :: es2) u0).
    { destruct D0 as (p & D0). split; [reflexivity|]. split; [reflexivity|]. exists p. now apply df_app1. }
    exists w2, (cs1 ++ [CUse (Loc Rodata (pos + off)) l 0 Abs64] ++ cs2), (es1 ++ e0 :: es2). split; [|split; [|split; [|split; [|split]]]].
    + cbn [embed_all]. rewrite Er. cbn [bind fst snd]. unfold offset. cbn [l_pos l_section]. replace (0 <=? pos + off) with true by lia. cbn [bind]. exact Ea.
    + apply (run_app _ _ _ _ _ (w2, e0 :: es2) R1). cbn [app run step bind fst]. fold u0. fold w1'. rewrite R2. reflexivity.
    + eapply ext_trans; [exact X1|]. exact X2.
    + intros u I. rewrite Us in I. apply in_app_or in I. destruct I as [I|[<-|I]].
      * destruct (U1 u I) as (V & B1 & B2). split; [now apply used_app1|]. right. lia.
      * split; [exact V0|]. left. exists off, r. split; [now left|reflexivity].
      * destruct (U2 u I) as (V & C). split; [apply used_app2; apply (used_app2 [e0]); exact V|].
        destruct C as [(off' & r' & I' & E')|[B1 B2]]; [left; exists off', r'; split; [now right|exact E']|right; lia].
    + rewrite Us. apply FOP_app; [exact A1| |].
      * constructor; [|exact A2]. apply Forall_forall. intros u I. destruct (U2 u I) as (V & C). eapply apart_rodata; [exact V0|exact V|].
        cbn [u0 u_location l_pos]. destruct C as [(off' & r' & I' & ->)|[B1 B2]]; [|lia].
        rewrite Forall_forall in A0. specialize (A0 _ I'). cbn [fst] in A0. lia.
      * intros u v Iu Iv. destruct (U1 u Iu) as (Vu & B1 & B2). destruct Iv as [<-|Iv].
        { eapply apart_rodata; [exact Vu|exact V0|]. cbn [u0 u_location l_pos]. lia. }
        destruct (U2 v Iv) as (Vv & C). eapply apart_rodata; [exact Vu|exact Vv|].
        destruct C as [(off' & r' & I' & ->)|[C1 C2]]; [|lia]. rewrite Forall_forall in In'. specialize (In' _ I'). cbn [fst] in In'. lia.
    + intros off' r' I. rewrite Us. destruct X2 as [X2 _]. destruct (X2 Rodata) as (bs & Bs). destruct I as [I|I].
      * injection I as <- <-. exists l. split; [apply in_or_app; right; now left|]. rewrite Bs. eapply laid_mono; [| | | | |exact L1].
        -- intros u I. apply in_or_app. now left.
        -- intros u I. apply in_app_or in I. destruct I as [I|[<-|I]]; [now left| |]; right; intros _.
           ++ cbn [u0 u_location u_type l_pos width]. lia.
           ++ destruct (U2 u I) as (V & C). rewrite (used_width _ _ V). destruct C as [(o & q & I' & ->)|[C1 C2]]; [|lia].
              rewrite Forall_forall in In'. specialize (In' _ I'). cbn [fst] in In'. lia.
        -- intros k p. apply df_app1.
        -- lia.
        -- lia.
      * destruct (L2 off' r' I) as (l' & Iu & La). exists l'. split; [apply in_or_app; right; now right|].
        rewrite <- (app_nil_r (buffer Rodata (w_buffers w2))). eapply laid_mono; [| | | | |exact La].
        -- intros u I'. apply in_or_app. right. now right.
        -- intros u I'. apply in_app_or in I'. destruct I' as [I'|[<-|I']]; [right|right|now left]; intros _.
           ++ destruct (U1 u I') as (V & B1 & B2). rewrite (used_width _ _ V). lia.
           ++ cbn [u0 u_location u_type l_pos width]. lia.
        -- intros k p D. apply df_app2. apply (df_app2 [e0]). exact D.
        -- lia.
        -- lia.
Qed.

Lemma embed_ok : forall r, sensible r -> embeddable r.
Proof.
  induction r as [al d ind IH] using rep_ind'. intros S w. inversion S as [? ? ? Pa Da Rg Ap Se]. subst.
  assert (Em : Forall (fun x => embeddable (snd x)) ind).
  { rewrite Forall_forall in *. intros [off r] I. apply (IH off r I). exact (Se _ I). }
  cbn [embed_rodata].
  assert (exists wa, align Rodata al w = Ret wa) as [wa Ea]. { unfold align. replace (al <=? 0) with false by lia. eauto. }
  destruct (align_spec _ _ _ _ Ea) as (_ & k & [Bk Mk] & Hk).
  assert (Xa : ext w wa).
  { destruct Hk as [->|[_ ->]]; [|apply ext_refl]. split; [|reflexivity]. intro c. change (allocate Rodata k w) with (append Rodata (repeat (filler Rodata) (Z.to_nat k)) w). rewrite buffer_append.
    destruct (section_dec c Rodata); [eauto|]. exists []. now rewrite app_nil_r. }
  assert (Pk : position wa Rodata = position w Rodata + k).
  { destruct Hk as [->|[-> ->]]; [|lia]. change (allocate Rodata k w) with (append Rodata (repeat (filler Rodata) (Z.to_nat k)) w). rewrite position_append. destruct (section_dec Rodata Rodata); [|congruence]. rewrite repeat_length. lia. }
  set (pos := position wa Rodata) in *. assert (Ppos : 0 <= pos) by (unfold pos; cbn; lia).
  rewrite Ea. cbn [bind issue_label]. set (l := List.length (w_defs wa)).
  set (wi := Writer (w_buffers wa) (w_bss wa) (w_defs wa ++ [None]) (w_uses wa) (w_names wa)).
  assert (exists wd, define Rodata l false wi = Ret (wd, Loc Rodata pos) /\ w_buffers wd = w_buffers wa /\ w_bss wd = w_bss wa) as (wd & Ed & Bd & Sd).
  { unfold define. cbn [wi w_defs]. unfold vget. rewrite nth_error_app2 by (unfold l; lia). unfold l at 1. rewrite Nat.sub_diag. cbn [nth_error bind].
    destruct (vset_spec (w_defs wa ++ [None]) l (Some (Def false (location_ wi Rodata)))) as (ds & -> & _ & _).
    { rewrite app_length. cbn. unfold l. lia. }
    cbn [bind]. eexists. split; [reflexivity|]. split; reflexivity. }
  rewrite Ed. cbn [bind fst]. set (ww := append Rodata d wd).
  assert (Pd : position wd Rodata = pos) by (unfold pos; cbn; now rewrite Bd).
  assert (Pw : position ww Rodata = pos + Z.of_nat (List.length d)).
  { unfold ww. rewrite position_append. destruct (section_dec Rodata Rodata); [|congruence]. lia. }
  assert (Xw : ext wa ww).
  { split; [|exact Sd]. intro c. unfold ww. rewrite buffer_append, Bd. destruct (section_dec c Rodata); [eauto|]. exists []. now rewrite app_nil_r. }
  destruct (embed_all_ok pos (Z.of_nat (List.length d)) Ppos ind Em Rg Ap ww) as (w' & cs & es & El & Rn & Xl & Ul & Al & Ll); [lia|].
  change (location_ wi Rodata) with (Loc Rodata pos). fold (embed_all (Loc Rodata pos)). rewrite El. cbn [bind].
  set (ea := Event (CAlign Rodata al) ANothing (position w)). set (ei := Event CIssue (ALabel l) (position wa)).
  set (ed := Event (CDefine Rodata l false) (ALocation (Loc Rodata pos)) (position wi)). set (ew := Event (CWrite Rodata d) ANothing (position wd)).
  exists w', l, ([CAlign Rodata al; CIssue; CDefine Rodata l false; CWrite Rodata d] ++ cs), ([ea; ei; ed; ew] ++ es).
  split; [reflexivity|]. split.
  { apply (run_app _ _ ww [ea; ei; ed; ew] cs (w', es)); [|exact Rn].
    cbn [run step]. rewrite Ea. cbn [bind fst snd issue_label]. fold l. fold wi. rewrite Ed. reflexivity. }
  assert (Us : uses ([ea; ei; ed; ew] ++ es) = uses es) by reflexivity.
  pose proof (ext_position _ _ Rodata Xa) as M1. pose proof (ext_position _ _ Rodata Xl) as M2. fold pos in M1.
  split; [eapply ext_trans; [exact Xa|eapply ext_trans; [exact Xw|exact Xl]]|]. rewrite Us. split; [|split; [exact Al|]].
  - intros u I. destruct (Ul u I) as (V & C). split; [now apply used_app2|]. destruct C as [(off & r & I' & ->)|[C1 C2]]; [|lia].
    rewrite Forall_forall in Rg. specialize (Rg _ I'). cbn [fst] in Rg. lia.
  - apply laid_rep with (pos := pos); try lia.
    + exists (In_ Rodata), (ALocation (Loc Rodata pos)), (position wi). split; [right; right; now left|]. reflexivity.
    + rewrite Pk. exact Mk.
    + intros i b N Pi. destruct (proj1 Xl Rodata) as (bs & ->). unfold ww. rewrite buffer_append. destruct (section_dec Rodata Rodata); [|congruence].
      rewrite Bd, <- app_assoc. assert (Ln : Z.of_nat (List.length (b_rodata (w_buffers wa))) = pos) by reflexivity. cbn [buffer].
      rewrite nth_error_app2 by lia. rewrite nth_error_app1.
      * rewrite <- N. f_equal. lia.
      * assert (Z.to_nat i < List.length d)%nat by (apply nth_error_Some; congruence). lia.
    + intros u I _ B1 B2. destruct (Ul u I) as (V & C). destruct C as [(off & r & I' & E')|[C1 C2]]; [|lia].
      exists off, r. split; [exact I'|]. split; [exact E'|exact (used_width _ _ V)].
    + intros off r I. destruct (Ll off r I) as (l' & Iu & La). exists l'. split; [exact Iu|].
      rewrite <- (app_nil_r (buffer Rodata (w_buffers w'))). eapply laid_mono; [| | | | |exact La]; auto; try lia.
      intros k' p. apply df_app2.
Qed.

(** ** Once linked *)

Lemma buffer_kept w es o lk mem : reached w es -> produce w = Ret (Some o) -> well_placed w es -> linked lk o mem ->
  forall c i b, nth_error (buffer c (w_buffers w)) (Z.to_nat i) = Some b -> 0 <= i ->
    (forall u, In u (uses es) -> ~ covers (u_location u) (u_type u) c i) -> mem (place lk c + i) = b.
Proof.
  intros R P WP (Co & Re & By) c i b N B U. destruct (produced w es o R P WP) as (Le & Ke & St & Rl & Dn). apply By; [|exact B|].
  - rewrite Ke; [exact N|]. intros u I _. rewrite Z2Nat.id by exact B. now apply U.
  - intros r Ir Cv. apply Rl in Ir. destruct Ir as (u' & d' & I' & D' & Sn & Er). apply reloc_of_place in Er. destruct Er as [E1 E2].
    rewrite E1, E2 in Cv. exact (U u' I' Cv).
Qed.

Lemma address_of w es lk l p a : reached w es -> df es l p -> label_address es lk l a -> a = place lk Rodata + p.
Proof.
  intros R D [(g & loc & D' & ->)|[No _]]; [|destruct (No _ _ D)].
  apply (reached_defined w es R) in D, D'. rewrite D in D'. injection D' as <- <-. reflexivity.
Qed.

Lemma laid_stored w es o lk mem us lo hi buf bs (D : label -> Z -> Prop) : reached w es -> produce w = Ret (Some o) -> well_placed w es -> linked lk o mem -> addressed lk w ->
  buffer Rodata (w_buffers w) = buf ++ bs -> hi <= position w Rodata -> 0 <= lo ->
  (forall u, In u us -> In u (uses es)) -> (forall u, In u (uses es) -> In u us \/ outside lo hi u) -> (forall l p, D l p -> df es l p) ->
  forall r l, sensible r -> laid buf us D lo hi l r -> forall p, D l p -> stored mem (place lk Rodata + p) r.
Proof.
  intros R Pr WP Lk (Ad1 & Ad2 & Ad3) Bf Hh Hl I1 I2 Id. induction r as [al d ind IH] using rep_ind'. intros l Se H p Dp.
  inversion H as [? pos ? ? ? Df Al L1 L2 By Us Rf]. subst. inversion Se as [? ? ? Pa Da Rg Ap Ss]. subst.
  assert (p = pos) as ->.
  { apply Id, (reached_defined w es R) in Dp, Df. rewrite Dp in Df. now injection Df. }
  constructor.
  - destruct Da as (k & Da). rewrite Da in Ad2. apply Z.mod_divide in Ad2; [|lia]. destruct Ad2 as (j & ->).
    rewrite Z.add_comm, Z.mul_assoc, Z_mod_plus_full. exact Al.
  - intros i b N Pi O. rewrite <- Z.add_assoc. apply (buffer_kept w es o lk mem R Pr WP Lk Rodata (pos + i) b).
    + rewrite Bf. rewrite nth_error_app1; [auto|]. apply nth_error_Some. rewrite (By i b N Pi). discriminate.
    + lia.
    + intros u I [S C]. assert (Z.to_nat i < List.length d)%nat by (apply nth_error_Some; congruence). destruct (I2 u I) as [I'|Ou].
      * destruct (Us u I' S) as (off & r & Ir & E & W); [lia|lia|]. apply (O off r Ir). lia.
      * destruct (Ou S); lia.
  - intros off r I. destruct (Rf off r I) as (l' & U & La).
    destruct (uses_resolved w es o lk mem R Pr WP Lk _ (I1 _ U)) as (v & (a & A & E) & Ho). cbn [u_target u_addend u_location u_type width] in *.
    inversion La as [? pos' ? ? ? Df' Al' L1' L2' _ _ _]. subst. pose proof (address_of _ _ _ _ _ _ R (Id _ _ Df') A) as ->.
    exists (place lk Rodata + pos' + 0). split.
    + split; [change (256 ^ 8) with (2 ^ 64); lia|]. unfold at_ in Ho. cbn [l_section l_pos] in Ho. rewrite <- Z.add_assoc. exact Ho.
    + rewrite Z.add_0_r. eapply IH; eauto. rewrite Forall_forall in Ss. exact (Ss _ I).
Qed.

Lemma embedded_placed w w' es0 es l r : well_placed w es0 -> embedded w w' es l r -> well_placed w' (es0 ++ es).
Proof.
  intros [A F] (X & U & A' & _). rewrite Forall_forall in F. unfold well_placed. rewrite uses_app. split.
  - apply FOP_app; auto. intros u v Iu Iv. destruct (U v Iv) as ((S & T & _) & B1 & B2). destruct (F u Iu) as [P1 P2]. unfold apart. rewrite S, T.
    destruct (section_dec (l_section (u_location u)) Rodata) as [E|E]; [|now left]. right. left. rewrite E in P2. lia.
  - apply Forall_forall. intros u I. apply in_app_or in I. destruct I as [I|I].
    + destruct (F u I) as [P1 P2]. split; [exact P1|]. pose proof (ext_position _ _ (l_section (u_location u)) X). lia.
    + destruct (U u I) as ((S & T & _) & B1 & B2). unfold inside. rewrite S, T. cbn [width]. split; [|exact B2]. cbn [position] in B1. lia.
Qed.

Lemma rodata_stored cs0 w0 es0 r : run new cs0 = Ret (w0, es0) -> well_placed w0 es0 -> sensible r ->
  exists w1 l cs1 es1, embed_rodata w0 r = Ret (w1, l) /\ run w0 cs1 = Ret (w1, es1) /\ well_placed w1 (es0 ++ es1) /\
  (forall u, In u (uses es1) -> resolvable (es0 ++ es1) u) /\
  forall cs2 w2 es2 o lk mem, run w1 cs2 = Ret (w2, es2) -> produce w2 = Ret (Some o) -> well_placed w2 (es0 ++ es1 ++ es2) ->
    linked lk o mem -> later w1 es2 -> addressed lk w2 ->
    exists a, label_address (es0 ++ es1 ++ es2) lk l a /\ stored mem a r.
Proof.
  intros R0 WP Se. destruct (embed_ok r Se w0) as (w1 & l & cs1 & es1 & E & R1 & Em). pose proof (embedded_placed _ _ _ _ _ _ WP Em) as WP1.
  exists w1, l, cs1, es1. split; [exact E|]. split; [exact R1|]. split; [exact WP1|].
  destruct Em as (X & U & A & L). split.
  - intros u I. destruct (U u I) as ((S & T & p & D) & _). split; [left; exists false, (Loc Rodata p); now apply df_app2|].
    intros g loc c D' _ _. rewrite T. constructor.
  - intros cs2 w2 es2 o lk mem R2 P WP2 Lk La Ad. pose proof (run_reached _ _ _ _ _ (run_reached _ _ _ _ _ (run_new _ _ _ R0) R1) R2) as R. rewrite <- app_assoc in R.
    assert (exists p, df es1 l p) as (p & D) by (inversion L; eauto).
    assert (Id : forall l p, df es1 l p -> df (es0 ++ es1 ++ es2) l p) by (intros; apply df_app2, df_app1; assumption).
    exists (place lk Rodata + p). split; [left; exists false, (Loc Rodata p); split; [now apply Id|reflexivity]|].
    destruct (run_prefix _ _ _ _ R2 Rodata) as (bs & Bs).
    refine (laid_stored w2 (es0 ++ es1 ++ es2) o lk mem (uses es1) (position w0 Rodata) (position w1 Rodata) _ bs (df es1) R P WP2 Lk Ad Bs _ _ _ _ Id r l Se L p D).
    + cbn [position]. rewrite Bs, app_length. lia.
    + cbn. lia.
    + intros u I. rewrite !uses_app. apply in_or_app. right. apply in_or_app. now left.
    + intros u I. rewrite !uses_app in I. apply in_app_or in I. destruct I as [I|I]; [right|apply in_app_or in I; destruct I as [I|I]; [now left|right]]; intro S.
      * left. destruct WP as [_ F]. rewrite Forall_forall in F. destruct (F u I) as [_ F2]. rewrite S in F2. exact F2.
      * right. exact (La u I S).
Qed.
