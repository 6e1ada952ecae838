(** Symbol tables, and sections of relocations. *)
From Coq Require Import NArith ZArith Lia.
From Verif.Base Require Import Base.
From Verif.Asm Require Model.
From Verif.Obj Require Import Model.
From Verif.Elf Require Import Model Spec ProofsRead ProofsWrite.
Import Asm.Model(le_bytes).
Local Open Scope string_scope.
Local Open Scope Z_scope.
Local Open Scope list_scope.

(** ** Symbols *)

(** An entry: the offset of its name, whether it is global, the symbol. *)
Definition entry : Type := Z * bool * symbol.
Definition e_bytes (x : entry) : list N :=
  let '(i, g, s) := x in
  le_bytes 4 i ++ le_bytes 1 ((if g : bool then 16 else 0) + symbol_type_code (y_type s)) ++
  le_bytes 1 (visibility_code (y_vis s)) ++ le_bytes 2 (y_shndx s) ++ le_bytes 8 (y_value s) ++ le_bytes 8 (y_size s).

Definition tabled (t : symtab) (l : list entry) : Prop :=
  sy_payload t = flat_map e_bytes l /\ good (sy_strtab t) /\
  Forall (fun x => get_string (st_payload (sy_strtab t)) (fst (fst x)) = Some (y_name (snd x))) l.

Definition strings (t : symtab) : Z := len (st_payload (sy_strtab t)).

Lemma e_bytes_length x : len (e_bytes x) = 24.
Proof. destruct x as [[i g] s]. unfold e_bytes. now rewrite !len_app, !len_le_bytes. Qed.

Lemma tabled_length t l : tabled t l -> len (sy_payload t) = Z.of_nat (List.length l) * 24.
Proof. intros (P & _). rewrite P. apply len_flat. intros; apply e_bytes_length. Qed.

Lemma tabled_next t l : tabled t l -> Z.of_nat (List.length l) < 2 ^ 32 -> next_index t = Z.of_nat (List.length l).
Proof.
  intros T L. unfold next_index, symbol_size. change (size (sy_payload t)) with (len (sy_payload t)).
  rewrite (tabled_length _ _ T), Z.div_mul by lia. apply Z.mod_small. lia.
Qed.

Lemma tabled_new : tabled (new_symtab new_strtab) [(0, false, undef_symbol "")].
Proof. split; [reflexivity|]. split; [exact good_new|]. constructor; [reflexivity | constructor]. Qed.

Lemma add_tabled s t l : tabled t l -> nul_free (y_name s) -> strings t < 2 ^ 32 -> Z.of_nat (List.length l) < 2 ^ 32 ->
  exists t' i, symtab_add s t = Ret (t', Z.of_nat (List.length l)) /\
    tabled t' (l ++ [(i, match sy_first_nonlocal t with Some _ => true | None => false end, s)]) /\
    sy_first_nonlocal t' = sy_first_nonlocal t /\ strings t' <= strings t + name_bytes (y_name s).
Proof.
  intros T F Ls Ll. pose proof (tabled_next _ _ T Ll) as Nx. destruct T as (P & G & Ns).
  destruct (get_total (y_name s) (sy_strtab t) F) as (t1 & i & E1).
  destruct (get_good _ _ _ _ G Ls E1) as (G1 & S1 & (q & Q) & L1).
  unfold symtab_add. rewrite E1, Nx. cbn [bind fst snd]. eexists. exists i. split; [reflexivity|]. split; [|split; [reflexivity|exact L1]].
  split; [|split]; cbn [sy_payload sy_strtab].
  - rewrite flat_map_app. cbn [flat_map e_bytes]. rewrite app_nil_r, P. destruct (sy_first_nonlocal t); reflexivity.
  - exact G1.
  - apply Forall_app. split; [|constructor; auto]. eapply Forall_impl; [|exact Ns]. intros x Hx. cbn beta. rewrite Q. now apply get_string_app.
Qed.

(** The symbols of an object, one after the other. *)
Section Object.
Variable shndx : by_section.

Definition symbol_for (x : string * binding) : symbol :=
  match snd x with
  | Local l | Global (Some l) => new_symbol (fst x) (for_section shndx (l_section l)) (l_pos l)
  | Global None => undef_symbol (fst x)
  end.

Fixpoint add_all (syms : list (string * binding)) (t : symtab) (m : list (string * Z)) : outcome (symtab * list (string * Z)) :=
  match syms with
  | [] => Ret (t, m)
  | x :: syms => let* r := symtab_add (symbol_for x) t in add_all syms (fst r) ((fst x, snd r) :: m)
  end.

Lemma add_locals_all syms : forall t m, add_locals shndx syms t m = add_all (filter is_local syms) t m.
Proof.
  induction syms as [|[n [l|l]] syms IH]; intros t m; cbn [add_locals filter is_local snd add_all]; auto.
  unfold symbol_for. cbn [snd fst]. destruct (symtab_add _ t); cbn [bind]; auto.
Qed.

Lemma add_globals_all syms : forall t m, add_globals shndx syms t m = add_all (filter (fun x => negb (is_local x)) syms) t m.
Proof.
  induction syms as [|[n [l|l]] syms IH]; intros t m; cbn [add_globals filter is_local snd add_all negb]; auto.
  unfold symbol_for. cbn [snd fst]. destruct l; destruct (symtab_add _ t); cbn [bind]; auto.
Qed.

Definition indices (k : nat) (syms : list (string * binding)) : list (string * Z) :=
  combine (map fst syms) (map Z.of_nat (seq k (List.length syms))).

Definition name_total (syms : list (string * binding)) : Z := total (map (fun x => name_bytes (fst x)) syms).

Lemma name_total_nonneg syms : 0 <= name_total syms.
Proof.
  unfold name_total. induction syms as [|x syms IH]; cbn [map total fold_right]; [lia|].
  fold (total (map (fun x => name_bytes (fst x)) syms)). unfold name_bytes at 1. lia.
Qed.

Lemma name_total_cons x syms : name_total (x :: syms) = name_bytes (fst x) + name_total syms.
Proof. reflexivity. Qed.

Lemma symbol_for_name x : y_name (symbol_for x) = fst x.
Proof. unfold symbol_for. destruct (snd x) as [l|[l|]]; reflexivity. Qed.

Lemma add_all_tabled syms : forall t m l, tabled t l -> Forall (fun x => nul_free (fst x)) syms ->
  strings t + name_total syms < 2 ^ 32 -> Z.of_nat (List.length l + List.length syms) < 2 ^ 32 ->
  exists t' l', add_all syms t m = Ret (t', rev (indices (List.length l) syms) ++ m) /\ tabled t' (l ++ l') /\
    map (fun e : entry => (snd (fst e), snd e)) l' = map (fun x => (match sy_first_nonlocal t with Some _ => true | None => false end, symbol_for x)) syms /\
    sy_first_nonlocal t' = sy_first_nonlocal t /\ strings t' <= strings t + name_total syms.
Proof.
  induction syms as [|x syms IH]; intros t m l T F Ls Ll.
  - exists t, []. rewrite app_nil_r. cbn. refine (conj eq_refl (conj T (conj eq_refl (conj eq_refl _)))). lia.
  - rewrite name_total_cons in *. pose proof (name_total_nonneg syms) as Nn. cbn [List.length] in Ll.
    inversion F as [|? ? F1 F2]; subst.
    assert (N1 : 0 <= name_bytes (fst x)) by (unfold name_bytes; lia).
    destruct (add_tabled (symbol_for x) t l T) as (t1 & i & E1 & T1 & B1 & L1);
      [now rewrite symbol_for_name | lia | lia |]. rewrite symbol_for_name in L1.
    destruct (IH t1 ((fst x, Z.of_nat (List.length l)) :: m) _ T1 F2) as (t2 & l2 & E2 & T2 & M2 & B2 & L2);
      [lia | rewrite app_length; cbn [List.length]; lia |].
    exists t2, ((i, match sy_first_nonlocal t with Some _ => true | None => false end, symbol_for x) :: l2).
    cbn [add_all]. rewrite E1. cbn [bind fst snd]. rewrite E2. refine (conj _ (conj _ (conj _ (conj _ _)))).
    + f_equal. f_equal. rewrite app_length. cbn [List.length]. unfold indices. cbn [map List.length seq combine rev].
      rewrite <- app_assoc. cbn [app]. now replace (List.length l + 1)%nat with (S (List.length l)) by lia.
    + now rewrite <- app_assoc in T2.
    + cbn [map fst snd]. f_equal. rewrite M2, B1. reflexivity.
    + now rewrite B2.
    + lia.
Qed.
End Object.

Lemma find_index_in n k m : NoDup (map fst m) -> In (n, k) m -> find_index n m = Some k.
Proof.
  induction m as [|[n' k'] m IH]; intros D I; [easy|]. cbn [map fst find_index] in *. inversion D as [|? ? D1 D2]; subst.
  destruct (String.eqb_spec n n') as [->|Ne].
  - destruct I as [E|I]; [now injection E as <-|]. destruct D1. apply in_map_iff. now exists (n', k).
  - destruct I as [E|I]; [congruence | now apply IH].
Qed.

Lemma indices_names k syms : map fst (indices k syms) = map fst syms.
Proof.
  unfold indices. revert k. induction syms as [|x syms IH]; intro k; [reflexivity|].
  cbn [map List.length seq combine fst]. f_equal. apply (IH (S k)).
Qed.

Lemma indices_nth k syms : forall i x, nth_error syms i = Some x -> nth_error (indices k syms) i = Some (fst x, Z.of_nat (k + i)).
Proof.
  unfold indices. revert k. induction syms as [|y syms IH]; intros k i x E; [now destruct i|].
  destruct i; cbn [map List.length seq combine fst nth_error] in *.
  - injection E as ->. now rewrite Nat.add_0_r.
  - rewrite (IH (S k) i x E). do 2 f_equal. lia.
Qed.

Lemma indices_app k a b : indices k (a ++ b) = indices k a ++ indices (k + List.length a) b.
Proof.
  revert k. induction a as [|x a IH]; intro k; [cbn [app List.length]; now rewrite Nat.add_0_r|].
  unfold indices in *. cbn [map List.length app seq combine]. f_equal. rewrite (IH (S k)).
  now replace (k + S (List.length a))%nat with (S k + List.length a)%nat by lia.
Qed.

(** ** Reading symbols *)

Definition fields_fit (s : symbol) : Prop := 0 <= y_shndx s < 2 ^ 16 /\ 0 <= y_value s < 2 ^ 64.

Definition interpret (hs : list header) (i : nat) (g : bool) (s : symbol) : option (bool * meaning) :=
  let info := (if g : bool then 16 else 0) + symbol_type_code (y_type s) in
  let name := y_name s in let shndx := y_shndx s in let value := y_value s in
  if info =? 0 then
    if (name =? "")%string && (shndx =? 0) && (value =? 0) && (Z.of_nat i * 24 =? 0) then Some (true, MUndefined)
    else option_map (fun s => (true, MSymbol name (Local (Loc s value)))) (kind_at hs shndx)
  else if info =? 3 then option_map (fun s => (true, MSection s)) (kind_at hs shndx)
  else if info =? 4 then if shndx =? 65521 then Some (true, MFile name) else None
  else if info =? 16 then
    if shndx =? 0 then Some (false, MSymbol name (Global None))
    else option_map (fun s => (false, MSymbol name (Global (Some (Loc s value))))) (kind_at hs shndx)
  else None.

Lemma symbol_read hs t l i k g s names :
  sy_payload t = flat_map e_bytes l -> nth_error l i = Some (k, g, s) -> get_string names k = Some (y_name s) -> 0 <= k < 2 ^ 32 ->
  fields_fit s ->
  read_symbol hs (sy_payload t) names (Z.of_nat i * 24) = interpret hs i g s.
Proof.
  intros P E Nm Rk (R1 & R2). rewrite P.
  destruct (nth_flat e_bytes 24 l (fun x _ => e_bytes_length x) i _ E) as (a & b & F & L). rewrite F, <- L.
  set (f := a ++ e_bytes (k, g, s) ++ b).
  assert (At : forall m j, 0 <= j -> get m f (len a + j) = get m (e_bytes (k, g, s) ++ b) j).
  { intros m j J. unfold f. rewrite get_skip by lia. f_equal. lia. }
  unfold read_symbol.
  replace (get 4 f (len a)) with (get 4 f (len a + 0)) by (f_equal; lia).
  rewrite !At by lia. unfold e_bytes. rewrite <- !app_assoc.
  rewrite get_here by (auto; lia). cbn [opt_bind]. rewrite Nm. cbn [opt_bind].
  do 1 (rewrite get_skip by (rewrite len_le_bytes; lia)). rewrite len_le_bytes.
  rewrite get_here by (auto; destruct g; destruct (y_type s); cbn; lia). cbn [opt_bind].
  field. rewrite get_here by (auto; lia). cbn [opt_bind].
  field. rewrite get_here by (auto; lia). cbn [opt_bind]. unfold interpret. rewrite L. reflexivity.
Qed.

(** ** Relocations *)

Section Relocations.
Variable m : list (string * Z).
Variable index : by_section.

Definition target_index (r : reloc) : Z :=
  match r_target r with Symbol n => match find_index n m with Some i => i | None => 0 end | Section s => for_section index s end.
Definition r_bytes (r : reloc) : list N :=
  le_bytes 8 (l_pos (r_location r)) ++ le_bytes 8 (target_index r * 2 ^ 32 + relocation_code (r_type r)) ++ le_bytes 8 (r_addend r).

Lemma r_bytes_length r : len (r_bytes r) = 24.
Proof. unfold r_bytes. now rewrite !len_app, !len_le_bytes. Qed.

Lemma add_relocs_spec rs : forall p,
  (forall r, In r rs -> l_section (r_location r) <> Bss /\
    match r_target r with Symbol n => find_index n m <> None | Section _ => True end) ->
  add_relocs m index rs p = Ret (Payloads (in_text p ++ flat_map r_bytes (filter (is_in Text) rs))
    (in_data p ++ flat_map r_bytes (filter (is_in Data) rs)) (in_rodata p ++ flat_map r_bytes (filter (is_in Rodata) rs))).
Proof.
  induction rs as [|r rs IH]; intros p H.
  - cbn. rewrite !app_nil_r. now destruct p.
  - cbn [add_relocs]. destruct (H r (or_introl eq_refl)) as [Nb Tg].
    assert (A : add_reloc m index r p = Ret (Payloads
      (if is_in Text r then in_text p ++ r_bytes r else in_text p)
      (if is_in Data r then in_data p ++ r_bytes r else in_data p)
      (if is_in Rodata r then in_rodata p ++ r_bytes r else in_rodata p))).
    { unfold add_reloc, r_bytes, target_index, rela_add, is_in.
      destruct (r_target r) as [n|s]; [destruct (find_index n m) as [i|]; [|easy]|]; cbn [bind];
        destruct (l_section (r_location r)) as [[]|]; try easy; destruct p; reflexivity. }
    rewrite A. cbn [bind]. rewrite IH by (intros; apply H; now right). cbn [in_text in_data in_rodata filter].
    destruct (is_in Text r), (is_in Data r), (is_in Rodata r); cbn [flat_map]; rewrite <- ?app_assoc; reflexivity.
Qed.

Lemma code_kind t : reloc_kind (relocation_code t) = Some t.
Proof. now destruct t. Qed.

Lemma signed64_spec a : - 2 ^ 63 <= a < 2 ^ 63 -> signed64 (a mod 2 ^ 64) = a.
Proof.
  intro R. unfold signed64. destruct (Z.ltb_spec a 0) as [N|N].
  - replace (a mod 2 ^ 64) with (a + 2 ^ 64).
    + destruct (Z.ltb_spec (a + 2 ^ 64) (2 ^ 63)); lia.
    + rewrite <- (Z.mod_add a 1) by lia. rewrite Z.mod_small; lia.
  - rewrite Z.mod_small by lia. destruct (Z.ltb_spec a (2 ^ 63)); lia.
Qed.

Lemma reloc_read syms s rs i r : nth_error rs i = Some r -> fits_location (r_location r) -> - 2 ^ 63 <= r_addend r < 2 ^ 63 ->
  0 <= target_index r < 2 ^ 32 -> l_section (r_location r) = s ->
  nth_error syms (Z.to_nat (target_index r)) =
    Some (match r_target r with Symbol n => MSymbol n (match nth_error syms (Z.to_nat (target_index r)) with Some (MSymbol _ b) => b | _ => Global None end) | Section s => MSection s end) ->
  read_reloc syms s (flat_map r_bytes rs) (Z.of_nat i * 24) = Some r.
Proof.
  intros E Fl Fa Ft Sc Tg. destruct (nth_flat r_bytes 24 rs (fun x _ => r_bytes_length x) i _ E) as (a & b & F & L). rewrite F, <- L.
  set (f := a ++ r_bytes r ++ b).
  assert (At : forall m j, 0 <= j -> get m f (len a + j) = get m (r_bytes r ++ b) j).
  { intros k j J. unfold f. rewrite get_skip by lia. f_equal. lia. }
  unfold read_reloc. replace (get 8 f (len a)) with (get 8 f (len a + 0)) by (f_equal; lia).
  rewrite !At by lia. unfold r_bytes. rewrite <- !app_assoc. unfold fits_location in Fl.
  assert (C : 0 <= relocation_code (r_type r) < 2 ^ 32) by (destruct (r_type r); cbn; lia).
  rewrite get_here by (auto; lia). cbn [opt_bind].
  do 1 (rewrite get_skip by (rewrite len_le_bytes; lia)). rewrite len_le_bytes.
  rewrite get_here by (auto; lia). cbn [opt_bind]. field.
  unfold get. rewrite slice_here by now rewrite len_le_bytes. cbn [option_map opt_bind]. rewrite number_le_bytes.
  change (256 ^ Z.of_nat 8) with (2 ^ 64). rewrite signed64_spec by auto.
  rewrite Z.div_add_l, Z.div_small, Z.add_0_r by lia.
  rewrite (Z.add_comm (target_index r * 2 ^ 32)), Z.mod_add, Z.mod_small by lia. rewrite code_kind. cbn [opt_bind].
  rewrite Tg. cbn [opt_bind]. destruct r as [[sc pos] tg ad ty]. cbn in *. subst s. destruct tg; reflexivity.
Qed.
End Relocations.
