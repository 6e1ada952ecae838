(** C07 and C35: interning and source locations. *)
From Verif.Base Require Import Base.
From Verif.Lexer Require Import Model Spec.
From Verif.Intern Require Import Model Spec Proofs.

(** In any history of at most 2^32 intern requests two handles are equal exactly when the values are,
    every handle reviews to its value in the final table, and exactly the requested values are interned. *)
Theorem interning_is_exact :
  forall (T : Type) (eqb : T -> T -> bool), decides eqb ->
  forall (xs : list T) (hs : list N) (tb : intern_table T),
    (N.of_nat (List.length xs) <= handle_space)%N ->
    intern_all eqb new_table xs = (hs, tb) ->
    List.length hs = List.length xs /\
    (forall i j xi xj hi hj, nth_error xs i = Some xi -> nth_error xs j = Some xj ->
       nth_error hs i = Some hi -> nth_error hs j = Some hj -> (hi = hj <-> xi = xj)) /\
    (forall i xi hi, nth_error xs i = Some xi -> nth_error hs i = Some hi ->
       review tb hi = Ret xi /\ get_interned eqb tb xi = Some hi) /\
    (forall y, is_interned eqb tb y = true <-> In y xs).
Proof. exact @interning_handles. Qed.
Print Assumptions interning_is_exact.

(** The range computed for a byte interval of a text counts lines and columns correctly, exists
    exactly for intervals on character boundaries, and reads back the text it covers. *)
Theorem from_range_is_exact :
  (forall (t : text) (a b : N) (r : location_range), from_range t a b = Ret r <->
     exists u m v, t = u ++ m ++ v /\ a = blen u /\ b = (blen u + blen m)%N /\ r = range_of u m) /\
  (forall u m v : text, review_range (range_of u m) (u ++ m ++ v) = Ret m) /\
  (forall u v : text, from_offset (u ++ v) (blen u) = Ret (position u)).
Proof. exact (conj from_range_exact (conj review_range_ok from_offset_ok)). Qed.
Print Assumptions from_range_is_exact.

(** In any interleaving of begin, issue and complete requests on one table, once a locator has been
    completed each location it issued resolves to its path and range, and two issued locations
    coincide exactly when they came from the same locator for the same range. *)
Theorem locations_resolve :
  forall (P : Type) (peqb : P -> P -> bool), decides peqb ->
  forall (os : list (@op P)) (c : client),
    (N.of_nat (List.length os) <= handle_space)%N -> runs peqb new_client os c ->
    (forall s i r p, In (s, (i, r)) (c_issued c) -> nth_error (c_paths c) i = Some p ->
       nth_error (c_locs c) i = Some None -> review_location (c_table c) s = Ret (p, r)) /\
    (forall s i r s' i' r', In (s, (i, r)) (c_issued c) -> In (s', (i', r')) (c_issued c) ->
       (s = s' <-> i = i' /\ r = r')).
Proof. exact @locations_ok. Qed.
Print Assumptions locations_resolve.

(** Beginning a path is refused (by an assertion) exactly when it has been begun before. *)
Theorem begin_locate_refuses_duplicates :
  forall (P : Type) (peqb : P -> P -> bool), decides peqb ->
  forall (os : list (@op P)) (c : client) (p : P),
    (N.of_nat (List.length os) <= handle_space)%N -> runs peqb new_client os c ->
    (In p (c_paths c) <-> step peqb c (Begin p) = Some Panic) /\ step peqb c (Begin p) <> Some OutOfFuel.
Proof. exact @begin_ok. Qed.
Print Assumptions begin_locate_refuses_duplicates.

(** Non-vacuity. *)
Example interning_example :
  intern_all N.eqb new_table [7; 5; 7; 9; 5]%N =
  ([0; 1; 0; 2; 1]%N, {| ids := [7; 5; 9]%N; symbols := [(9, 2); (5, 1); (7, 0)]%N |}) /\ decides N.eqb.
Proof. split; [reflexivity|]. intros x y. apply N.eqb_eq. Qed.
Example locations_example :
  let r1 := range_of [] (t_ "ab") in let r2 := range_of (t_ "ab") (t_ "c") in
  exists c, runs N.eqb new_client [Begin 3; Begin 4; Issue 0 r1; Issue 1 r1; Issue 0 r2; Complete 0]%N c /\
    c_issued c = [((0, 0), (0%nat, r1)); ((1, 0), (1%nat, r1)); ((0, 1), (0%nat, r2))]%N /\
    review_location (c_table c) (0, 1)%N = Ret (3%N, r2) /\ review_location (c_table c) (1, 0)%N = Panic.
Proof. intros r1 r2. eexists. split; [repeat (eapply runs_cons; [reflexivity|]); apply runs_nil|]. repeat split; reflexivity. Qed.
Example from_range_example :
  from_range ([97; 10; 233; 98]%N) 2 5 =
  Ret {| start := {| offset := 2; line := 1; character := 0 |}; end_ := {| offset := 5; line := 1; character := 3 |} |}.
Proof. reflexivity. Qed.
