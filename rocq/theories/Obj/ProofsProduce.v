(** * The production of an object *)
From Coq Require Import NArith ZArith.
From Verif.Base Require Import Base Vec.
From Verif.Asm Require Model Table.
From Verif.Obj Require Import Model Spec Proofs.
Import Asm.Model(le_bytes).
Local Open Scope Z_scope.

(** ** Bytes *)

Lemma le_bytes_length : forall n z, List.length (le_bytes n z) = n.
Proof. induction n; intro z; cbn; auto. Qed.

Lemma le_bytes_nth : forall n z i, (i < n)%nat -> nth_error (le_bytes n z) i = Some (Z.to_N ((z / 256 ^ Z.of_nat i) mod 256)).
Proof.
  induction n as [|n IH]; intros z i L; [lia|]. destruct i as [|i]; cbn [le_bytes nth_error].
  - now rewrite Z.pow_0_r, Z.div_1_r.
  - rewrite IH by lia. rewrite Z.div_div by lia. do 4 f_equal. rewrite Nat2Z.inj_succ, Z.pow_succ_r by lia. reflexivity.
Qed.

Lemma write_at_nth buf pos bs i : 0 <= pos -> pos + Z.of_nat (List.length bs) <= Z.of_nat (List.length buf) ->
  nth_error (write_at buf pos bs) i =
    if (pos <=? Z.of_nat i) && (Z.of_nat i <? pos + Z.of_nat (List.length bs)) then nth_error bs (i - Z.to_nat pos) else nth_error buf i.
Proof.
  intros P L. unfold write_at. replace (Z.to_nat pos - List.length buf)%nat with O by lia. cbn [repeat app].
  assert (F : List.length (firstn (Z.to_nat pos) buf) = Z.to_nat pos) by (rewrite firstn_length; lia).
  destruct (Z.leb_spec pos (Z.of_nat i)) as [A|A]; cbn [andb].
  - rewrite nth_error_app2 by lia. rewrite F. destruct (Z.ltb_spec (Z.of_nat i) (pos + Z.of_nat (List.length bs))) as [B|B].
    + rewrite nth_error_app1 by lia. reflexivity.
    + rewrite nth_error_app2 by lia. rewrite <- (firstn_skipn (Z.to_nat pos + List.length bs) buf) at 2.
      rewrite nth_error_app2; [|rewrite firstn_length; lia]. rewrite firstn_length. f_equal. lia.
  - rewrite nth_error_app1 by lia. rewrite <- (firstn_skipn (Z.to_nat pos) buf) at 2. rewrite nth_error_app1 by lia. reflexivity.
Qed.

Lemma write_at_length buf pos bs : 0 <= pos -> pos + Z.of_nat (List.length bs) <= Z.of_nat (List.length buf) ->
  List.length (write_at buf pos bs) = List.length buf.
Proof.
  intros P L. unfold write_at. rewrite !app_length, repeat_length, firstn_length, skipn_length. lia.
Qed.

(** ** Uses resolved at once *)

Definition is_pc (ty : reloc_type) : bool := match ty with PcRel8 | PcRel32 => true | _ => false end.

(** The definition a use is resolved with, if it is resolved at once. *)
Definition static (ds : list (option def)) (u : use) : option (content * Z) :=
  match nth_error ds (u_target u) with
  | Some (Some d) =>
      match both_in (l_section (d_location d)) (l_section (u_location u)) with
      | Some c => if is_pc (u_type u) then Some (c, l_pos (d_location d) + u_addend u - l_pos (u_location u)) else None
      | None => None
      end
  | _ => None
  end.

Lemma both_in_some d u c : both_in d u = Some c <-> d = In_ c /\ u = In_ c.
Proof. destruct d as [[]|], u as [[]|], c; cbn; intuition congruence. Qed.

Lemma static_section ds u c v : static ds u = Some (c, v) -> l_section (u_location u) = In_ c /\ is_pc (u_type u) = true.
Proof.
  unfold static. destruct (nth_error ds (u_target u)) as [[d|]|]; try discriminate. destruct (both_in _ _) as [c'|] eqn:E; [|discriminate].
  apply both_in_some in E. destruct (is_pc (u_type u)); [|discriminate]. intro H. injection H as -> _. tauto.
Qed.

Definition in_reachb (ty : reloc_type) (v : Z) : bool :=
  match ty with
  | PcRel8 => (-128 <=? v) && (v <=? 127)
  | PcRel32 => (-2147483648 <=? v) && (v <=? 2147483647)
  | _ => true
  end.

Lemma in_reachb_true ty v : in_reachb ty v = true <-> in_reach ty v.
Proof. destruct ty; cbn; rewrite ?andb_true_iff, ?Z.leb_le; intuition lia. Qed.

Lemma buffer_set c l b c' : buffer c' (set_buffer c l b) = if section_dec c' c then l else buffer c' b.
Proof. destruct (section_dec c' c) as [E|E]; destruct c, c'; try discriminate E; try congruence; reflexivity. Qed.

Lemma width_nat ty : Z.of_nat (Z.to_nat (width ty)) = width ty.
Proof. now destruct ty. Qed.

Lemma resolve_exact ty buf d p a : is_pc ty = true ->
  resolve_statically ty buf d p a =
    if in_reachb ty (d + a - p) then Ret (Some (write_at buf p (le_bytes (Z.to_nat (width ty)) (d + a - p)))) else Panic.
Proof. intro I. destruct ty; try discriminate I; reflexivity. Qed.

Lemma resolve_none ty buf d p a : is_pc ty = false -> resolve_statically ty buf d p a = Ret None.
Proof. intro I. destruct ty; try discriminate I; reflexivity. Qed.

(** One use. *)
Lemma produce_use_exact ds names u bufs rel :
  produce_use ds names u (bufs, rel) =
    match nth_error ds (u_target u) with
    | None => Panic
    | Some d =>
        match static ds u with
        | Some (c, v) =>
            if in_reachb (u_type u) v then
              Ret (Some (set_buffer c (write_at (buffer c bufs) (l_pos (u_location u)) (le_bytes (Z.to_nat (width (u_type u))) v)) bufs, rel))
            else Panic
        | None => match reloc_of names d u with Some r => Ret (Some (bufs, rel ++ [r])) | None => Ret None end
        end
    end.
Proof.
  unfold produce_use, static, vget. destruct (nth_error ds (u_target u)) as [[d|]|]; cbn [bind]; try reflexivity.
  destruct (both_in (l_section (d_location d)) (l_section (u_location u))) as [c|]; cbn [bind]; [|reflexivity].
  destruct (is_pc (u_type u)) eqn:P.
  - rewrite resolve_exact by exact P. destruct (in_reachb _ _); reflexivity.
  - rewrite resolve_none by exact P. reflexivity.
Qed.

Lemma length_set c l b c' : List.length l = List.length (buffer c b) -> List.length (buffer c' (set_buffer c l b)) = List.length (buffer c' b).
Proof. intro L. rewrite buffer_set. destruct (section_dec c' c) as [E|E]; [now injection E as ->|reflexivity]. Qed.

Definition within (bufs : buffers) (u : use) : Prop :=
  forall c, l_section (u_location u) = In_ c -> 0 <= l_pos (u_location u) /\
    l_pos (u_location u) + width (u_type u) <= Z.of_nat (List.length (buffer c bufs)).

Lemma written_length ty v : Z.of_nat (List.length (le_bytes (Z.to_nat (width ty)) v)) = width ty.
Proof. rewrite le_bytes_length. apply width_nat. Qed.

(** What a static use does to the buffers. *)
Lemma static_write ds u c v bufs : static ds u = Some (c, v) -> within bufs u ->
  let bufs' := set_buffer c (write_at (buffer c bufs) (l_pos (u_location u)) (le_bytes (Z.to_nat (width (u_type u))) v)) bufs in
  (forall c', List.length (buffer c' bufs') = List.length (buffer c' bufs)) /\
  (forall c' i, ~ covers (u_location u) (u_type u) c' (Z.of_nat i) -> nth_error (buffer c' bufs') i = nth_error (buffer c' bufs) i) /\
  (forall i, 0 <= i < width (u_type u) ->
    nth_error (buffer c bufs') (Z.to_nat (l_pos (u_location u) + i)) = Some (Z.to_N ((v / 256 ^ i) mod 256))).
Proof.
  intros St W bufs'. destruct (static_section _ _ _ _ St) as [Sc _]. destruct (W c Sc) as [P L].
  repeat split.
  - intro c'. apply length_set. apply write_at_length; [exact P|]. rewrite written_length. exact L.
  - intros c' i N. unfold bufs'. rewrite buffer_set. destruct (section_dec c' c) as [E|E]; [|reflexivity]. injection E as ->.
    rewrite write_at_nth by (rewrite ?written_length; assumption). rewrite written_length.
    destruct ((l_pos (u_location u) <=? Z.of_nat i) && (Z.of_nat i <? l_pos (u_location u) + width (u_type u))) eqn:B; [|reflexivity].
    destruct N. split; [exact Sc|]. apply andb_prop in B. destruct B as [B1 B2]. apply Z.leb_le in B1. apply Z.ltb_lt in B2. lia.
  - intros i B. unfold bufs'. rewrite buffer_set. destruct (section_dec c c) as [_|E]; [|congruence].
    rewrite write_at_nth by (rewrite ?written_length; assumption). rewrite written_length.
    replace ((l_pos (u_location u) <=? Z.of_nat (Z.to_nat (l_pos (u_location u) + i))) &&
      (Z.of_nat (Z.to_nat (l_pos (u_location u) + i)) <? l_pos (u_location u) + width (u_type u))) with true by (symmetry; apply andb_true_intro; split; [apply Z.leb_le|apply Z.ltb_lt]; lia).
    rewrite le_bytes_nth by lia. do 4 f_equal. f_equal. lia.
Qed.

Lemma apart_sym u v : apart u v -> apart v u.
Proof. unfold apart. intuition congruence. Qed.

Lemma apart_covers u v c i : apart u v -> covers (u_location u) (u_type u) c i -> covers (u_location v) (u_type v) c i -> False.
Proof. unfold apart, covers. intros A [S1 B1] [S2 B2]. destruct A as [A|A]; [congruence|lia]. Qed.

Lemma within_same bufs bufs' u : (forall c, List.length (buffer c bufs') = List.length (buffer c bufs)) -> within bufs u -> within bufs' u.
Proof. intros L W c S. rewrite L. apply W, S. Qed.

(** All uses. *)
Lemma produce_uses_done ds names : forall us bufs rel bufs' rel',
  produce_uses ds names us (bufs, rel) = Ret (Some (bufs', rel')) ->
  ForallOrdPairs apart us -> Forall (within bufs) us ->
  (forall c, List.length (buffer c bufs') = List.length (buffer c bufs)) /\
  (forall c i, (forall u, In u us -> static ds u <> None -> ~ covers (u_location u) (u_type u) c (Z.of_nat i)) ->
    nth_error (buffer c bufs') i = nth_error (buffer c bufs) i) /\
  (forall u c v, In u us -> static ds u = Some (c, v) -> in_reach (u_type u) v /\ forall i, 0 <= i < width (u_type u) ->
    nth_error (buffer c bufs') (Z.to_nat (l_pos (u_location u) + i)) = Some (Z.to_N ((v / 256 ^ i) mod 256))) /\
  (forall r, In r rel' <-> In r rel \/ exists u d, In u us /\ nth_error ds (u_target u) = Some d /\ static ds u = None /\ reloc_of names d u = Some r) /\
  (forall u, In u us -> static ds u = None -> exists d r, nth_error ds (u_target u) = Some d /\ reloc_of names d u = Some r).
Proof.
  induction us as [|u us IH]; intros bufs rel bufs' rel' H A W.
  - cbn in H. injection H as <- <-. repeat split; auto; try contradiction. intros [H|(u & d & [] & _)]; exact H.
  - cbn [produce_uses] in H. rewrite produce_use_exact in H. inversion A as [|? ? Au A']; subst. inversion W as [|? ? Wu W']; subst.
    destruct (nth_error ds (u_target u)) as [d|] eqn:D; [|discriminate H]. destruct (static ds u) as [[c v]|] eqn:St.
    + destruct (in_reachb (u_type u) v) eqn:R; [|discriminate H]. cbn [bind] in H.
      destruct (static_write ds u c v bufs St Wu) as (L1 & K1 & V1). revert H L1 K1 V1.
      generalize (set_buffer c (write_at (buffer c bufs) (l_pos (u_location u)) (le_bytes (Z.to_nat (width (u_type u))) v)) bufs). intros bufs1 H L1 K1 V1.
      destruct (IH _ _ _ _ H A') as (L2 & K2 & V2 & R2 & D2).
      { rewrite Forall_forall in *. intros x I. apply (within_same bufs); auto. }
      repeat split.
      * intro c'. now rewrite L2.
      * intros c' i N. rewrite K2 by (intros; apply N; auto; now right). apply K1. apply N; [now left|congruence].
      * intros. apply in_reachb_true in R. destruct H0 as [<-|I]; [|now apply (V2 _ _ _ I H1)]. rewrite St in H1. injection H1 as <- <-. exact R.
      * intros i B. destruct H0 as [<-|I]; [|now apply (V2 _ _ _ I H1)]. rewrite St in H1. injection H1 as <- <-.
        rewrite K2; [now apply V1|]. intros u' I' _ Cv. rewrite Forall_forall in Au. refine (apart_covers _ _ _ _ (Au u' I') _ Cv).
        destruct (static_section _ _ _ _ St) as [Sc _]. destruct (Wu c Sc) as [P _]. split; [exact Sc|]. lia.
      * intro I. apply R2 in I. destruct I as [I|(u' & d' & I & E)]; [auto|]. right. exists u', d'. split; [now right|exact E].
      * intros [I|(u' & d' & [<-|I] & E & Sn & E')]; apply R2; [auto|congruence|]. right. eauto 6.
      * intros u' [<-|I] Sn; [congruence|]. now apply D2.
    + destruct (reloc_of names d u) as [r|] eqn:E; cbn [bind] in H; [|discriminate H].
      destruct (IH _ _ _ _ H A' W') as (L2 & K2 & V2 & R2 & D2). repeat split.
      * exact L2.
      * intros c i N. apply K2. intros u' I Sn. apply N; [now right|exact Sn].
      * destruct H0 as [<-|I]; [congruence|]. now apply (V2 _ _ _ I H1).
      * destruct H0 as [<-|I]; [congruence|]. now apply (V2 _ _ _ I H1).
      * intro I. apply R2 in I. rewrite in_app_iff in I. destruct I as [[I|[<-|[]]]|(u' & d' & I & E')]; [auto| |].
        -- right. exists u, d. repeat split; auto. now left.
        -- right. exists u', d'. split; [now right|exact E'].
      * intro I. apply R2. rewrite in_app_iff. destruct I as [I|(u' & d' & [<-|I] & E1 & Sn & E2)]; [auto| |].
        -- left. right. left. congruence.
        -- right. eauto 6.
      * intros u' [<-|I] Sn; [eauto|]. now apply D2.
Qed.

(** When it succeeds. *)
Definition fine (ds : list (option def)) (names : list (string * label)) (u : use) : Prop :=
  match static ds u with
  | Some (_, v) => in_reach (u_type u) v
  | None => exists d r, nth_error ds (u_target u) = Some d /\ reloc_of names d u = Some r
  end.

Lemma produce_uses_some ds names : forall us st, (exists st', produce_uses ds names us st = Ret (Some st')) <-> Forall (fine ds names) us.
Proof.
  induction us as [|u us IH]; intros [bufs rel]; cbn [produce_uses].
  - split; [constructor|eauto].
  - rewrite produce_use_exact. unfold fine at 1. split.
    + intros (st' & H). destruct (nth_error ds (u_target u)) as [d|] eqn:D; [|discriminate H]. destruct (static ds u) as [[c v]|] eqn:St.
      * destruct (in_reachb (u_type u) v) eqn:R; [|discriminate H]. cbn [bind] in H. constructor; [|eapply IH; eauto]. unfold fine. rewrite St. now apply in_reachb_true.
      * destruct (reloc_of names d u) as [r|] eqn:E; [|discriminate H]. cbn [bind] in H. constructor; [|eapply IH; eauto]. unfold fine. rewrite St. eauto.
    + intro F. inversion F as [|? ? Fu F']; subst. unfold fine in Fu. destruct (static ds u) as [[c v]|] eqn:St.
      * apply in_reachb_true in Fu. rewrite Fu. unfold static in St. destruct (nth_error ds (u_target u)) as [d|]; [|discriminate St]. cbn [bind]. now apply IH.
      * destruct Fu as (d & r & -> & ->). cbn [bind]. now apply IH.
Qed.
