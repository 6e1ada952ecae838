(** C18: representation of data types. *)
From Verif.Base Require Import Base Vec.
From Verif.Ir Require Import Model Spec.
From Verif.Data Require Import Model Spec ProofsExpand.

(** Every set of data types with distinct names, recursive or not, gets a representation for exactly
    its members, unless a C data type has several constructors. *)
Theorem data_representation_total :
  forall dts e, NoDup (map fst dts) -> Forall (fun p => c_compatible (snd p)) dts ->
  exists m e', compute dts e = Ret (m, e') /\ env_grows e e' /\ (env_wf e -> env_wf e') /\
    forall id, get m id <> None <-> In id (map fst dts).
Proof. exact compute_total. Qed.
Print Assumptions data_representation_total.

(** Building a value succeeds for every constructor, does not touch what was in memory, and the value
    matches the pattern of a constructor exactly when it was built with it, in which case the fields
    of the pattern are matched against the fields given. *)
Theorem data_build_match_exact :
  forall scoped round32 prim funs,
  (forall t h, exists v, prim (QNullary (NUninitialized t)) h [] = Some (h, v)) ->
  forall dts e m e', NoDup (map fst dts) -> Forall (fun p => c_compatible (snd p)) dts ->
  compute dts e = Ret (m, e') ->
  forall id d, In (id, d) dts -> (N.of_nat (List.length (d_cons d)) <= 2 ^ 64)%N ->
  exists x, get m id = Some x /\
  forall i fi, nth_error (d_cons d) i = Some fi ->
  forall h env es h1 vs, List.length es = List.length fi ->
    evs scoped round32 prim funs h env es h1 (inl vs) ->
  exists made h2 w, to_rt x i es = Ret made /\
    ev scoped round32 prim funs h env made h2 (RsVal w) /\ unchanged h1 h2 /\
    forall j fj ps, nth_error (d_cons d) j = Some fj -> List.length ps = List.length fj ->
    exists p, to_rt_pat x j ps = Ret p /\
      forall h3, still_holds h1 h2 h3 ->
        pmatch round32 h3 p w =
        if (j =? i)%nat then pmatch_fields (pmatch round32 h3) ps vs else MNo.
Proof. exact build_match. Qed.
Print Assumptions data_build_match_exact.

(** What is built, and every pattern, agrees with the definitions of the structures and unions added:
    each has the fields it is given, in number and type, a tag is in the range of its type, and the
    type of the whole is the one that replaces the data type. *)
Theorem data_definitions_agree :
  forall dts e m e', NoDup (map fst dts) -> Forall (fun p => c_compatible (snd p)) dts ->
  compute dts e = Ret (m, e') ->
  forall id d x, In (id, d) dts -> get m id = Some x ->
  forall i fi, nth_error (d_cons d) i = Some fi ->
  (forall field es y, Forall2 field es fi -> to_rt x i es = Ret y -> made (defs e') field y (to_ct x)) /\
  (forall field ps p, Forall2 field ps fi -> to_rt_pat x i ps = Ret p -> fits (defs e') field p (to_ct x)).
Proof. exact definitions_agree. Qed.
Print Assumptions data_definitions_agree.

(** Replacing data types by their representations in any type terminates, however the data types
    refer to each other. *)
Theorem data_types_replaced :
  forall dts e m e', NoDup (map fst dts) -> Forall (fun p => c_compatible (snd p)) dts ->
  (forall id, In id (map fst dts) -> (id < next e)%nat) ->
  compute dts e = Ret (m, e') ->
  forall t, exists t', conv (fun fuel => expand_ct fuel m t) t' /\ stands_for m t t'.
Proof. exact all_finite. Qed.
Print Assumptions data_types_replaced.
