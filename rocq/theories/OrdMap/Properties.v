From Verif.Base Require Import Base.
From Verif.OrdMap Require Import Model Spec SpecTree ProofsSpec ProofsMap.
Local Open Scope list_scope.

(** C27. Whatever is called on an ordered map, no call fails, each answers what the list of entries in increasing order
    would, and the tree stays balanced and its nodes in bounds, so that it is as deep as a logarithm of its size. *)
Theorem ordered_map_answers : forall (K V : Type) (cmp : K -> K -> comparison), lawful cmp ->
  forall cs : list (call K V), exists m,
    run cmp map_empty cs = Ret (fst (spec_run cmp [] cs), m) /\
    exists h, balanced h (m_root m) /\ (h = 0 \/ 2 * 6 ^ h <= S (m_length m)).
Proof. exact (@run_all). Qed.
Print Assumptions ordered_map_answers.

(** The entries stay in increasing order. *)
Theorem entries_increasing : forall (K V : Type) (cmp : K -> K -> comparison), lawful cmp ->
  forall cs : list (call K V), increasing cmp (snd (spec_run cmp [] cs)).
Proof. exact (fun K V cmp law cs => spec_run_increasing cmp law cs [] Logic.I). Qed.
Print Assumptions entries_increasing.

(** What a key has after inserting or removing a key: its value is the new one or none if it is that key, and as before if
    it is another one. *)
Theorem lookup_after_put : forall (K V : Type) (cmp : K -> K -> comparison), lawful cmp ->
  forall keep k (v : V) l k', increasing cmp l ->
    lookup cmp k' (put cmp keep k v l) = match cmp k' k with Eq => Some v | _ => lookup cmp k' l end.
Proof. exact (@lookup_put). Qed.
Print Assumptions lookup_after_put.

Theorem lookup_after_del : forall (K V : Type) (cmp : K -> K -> comparison), lawful cmp ->
  forall k (l : list (K * V)) k', increasing cmp l ->
    lookup cmp k' (del cmp k l) = match cmp k' k with Eq => None | _ => lookup cmp k' l end.
Proof. exact (@lookup_del). Qed.
Print Assumptions lookup_after_del.

(** A value is found exactly if an entry has it under an equal key. *)
Theorem lookup_finds : forall (K V : Type) (cmp : K -> K -> comparison), lawful cmp ->
  forall k (v : V) l, increasing cmp l -> ((exists k', cmp k k' = Eq /\ In (k', v) l) <-> lookup cmp k l = Some v).
Proof. exact (@lookup_in). Qed.
Print Assumptions lookup_finds.
