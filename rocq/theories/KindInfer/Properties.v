(** Kind inference: the property theorems. *)
From Verif.Base Require Import Base Vec.
From Verif.Kind Require Import Model Spec.
From Verif.KindInfer Require Import Model Spec ProofsTop ProofsRefuted ProofsModuleTop.

Theorem kinds_decided mods gs : known mods -> Forall annotations_proper gs ->
  exists r, conv (fun n => infer_groups mods n gs) r.
Proof. exact (fun H => kind_inference_ends mods H gs). Qed.
Print Assumptions kinds_decided.

Theorem kinds_fit mods gs kinds : known mods -> Forall annotations_proper gs ->
  conv (fun n => infer_groups mods n gs) (inr kinds) ->
  exists K, respects mods K /\ extends_kinds kinds K /\
    Forall (fun g => group_fits K g /\ params_first_class K g) gs /\
    (forall c, In c (flat_map declared gs) <-> exists k, assoc c kinds = Some k) /\
    (forall c k, assoc c kinds = Some k -> complete k).
Proof. exact (fun H => kind_inference_sound mods H gs kinds). Qed.
Print Assumptions kinds_fit.

Theorem kinds_rejected mods gs e : known mods -> Forall annotations_proper gs -> in_order mods [] gs ->
  conv (fun n => infer_groups mods n gs) (inl e) ->
  exists before g after kinds, gs = before ++ g :: after /\ conv (fun n => infer_groups mods n before) (inr kinds) /\
    forall K, respects mods K -> extends_kinds kinds K -> ~ (group_fits K g /\ params_first_class K g).
Proof. exact (fun H => kind_inference_rejects mods H gs e). Qed.
Print Assumptions kinds_rejected.

Theorem kinds_most_general mods gs kinds : known mods -> Forall annotations_proper gs -> in_order mods [] gs ->
  conv (fun n => infer_groups mods n gs) (inr kinds) ->
  forall g, In g gs -> exists G : nat -> gkind,
    (forall c, In c (declared g) -> assoc c kinds = Some (ast_of (fill GType (G c)))) /\
    (forall K, respects mods K -> (forall c k, ~ In c (declared g) -> assoc c kinds = Some k -> K c = k) -> group_fits K g ->
       exists s, forall c, In c (declared g) -> collapse (K c) = ast_of (instantiate s (G c))) /\
    (forall s, exists K, respects mods K /\ (forall c k, ~ In c (declared g) -> assoc c kinds = Some k -> K c = k) /\ group_fits K g /\
       forall c, In c (declared g) -> K c = ast_of (instantiate s (G c))).
Proof. exact (fun H => kind_inference_general mods H gs kinds). Qed.
Print Assumptions kinds_most_general.

Theorem kinds_order_irrelevant mods gs gs' kinds : known mods -> Forall annotations_proper gs ->
  in_order mods [] gs -> in_order mods [] gs' -> reordered gs gs' ->
  conv (fun n => infer_groups mods n gs) (inr kinds) ->
  exists kinds', conv (fun n => infer_groups mods n gs') (inr kinds') /\ forall c, assoc c kinds' = assoc c kinds.
Proof. exact (fun H => kind_inference_order mods H gs gs' kinds). Qed.
Print Assumptions kinds_order_irrelevant.

Theorem kinds_table_order_refuted : exists mods r r' kinds e, known mods /\ same_tables r r' /\
  conv (fun n => infer_root mods n r) (inr kinds) /\ conv (fun n => infer_root mods n r') (inl e).
Proof. exact table_order. Qed.
Print Assumptions kinds_table_order_refuted.

Theorem module_kinds_decided mods r : known mods -> root_annotations_proper r ->
  NoDup (map dt_id (data_types r)) -> NoDup (map cls_id (classes r)) ->
  exists x, conv (fun n => infer_root mods n r) x.
Proof. exact (fun H Ha Hd Hc => module_ends mods H r Hd Hc Ha). Qed.
Print Assumptions module_kinds_decided.

Theorem module_kinds_fit mods r kinds : known mods -> root_annotations_proper r ->
  NoDup (map dt_id (data_types r)) -> NoDup (map cls_id (classes r)) ->
  conv (fun n => infer_root mods n r) (inr kinds) ->
  exists K, respects mods K /\ extends_kinds kinds K /\ root_fits K r /\
    (forall c, In c (root_declared r) <-> exists k, assoc c kinds = Some k) /\
    (forall c k, assoc c kinds = Some k -> complete k).
Proof. exact (fun H Ha Hd Hc => module_fits mods H r kinds Hd Hc Ha). Qed.
Print Assumptions module_kinds_fit.

Theorem module_kinds_rejected_partial mods r e : known mods -> root_annotations_proper r -> scoped mods r ->
  conv (fun n => infer_root mods n r) (inl e) ->
  exists before g after kinds, root_groups r = Ret (before ++ g :: after) /\ conv (fun n => infer_groups mods n before) (inr kinds) /\
    forall K, respects mods K -> extends_kinds kinds K -> ~ (group_fits K g /\ params_first_class K g).
Proof. exact (fun H Ha Hs => module_rejects mods H r e Hs Ha). Qed.
Print Assumptions module_kinds_rejected_partial.

Theorem module_kinds_order_partial mods r r' kinds : known mods -> root_annotations_proper r -> scoped mods r -> same_tables r r' ->
  conv (fun n => infer_root mods n r) (inr kinds) ->
  exists kinds', conv (fun n => infer_root mods n r') (inr kinds') /\ forall c, assoc c kinds' = assoc c kinds.
Proof. exact (fun H Ha Hs => module_order mods H r r' kinds Hs Ha). Qed.
Print Assumptions module_kinds_order_partial.
