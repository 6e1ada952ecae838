(** * What is asked of a hash map: a finite map whose entries have no order *)
From Coq Require Import Permutation.
From Verif.Base Require Import Base Buf.
From Verif.HashMap Require Import Model.
Local Open Scope N_scope.
Local Open Scope list_scope.

Section Spec.
Context {K V : Type} (eqk : K -> K -> bool) (hash : K -> N).
Notation entries := (list (K * V)).

(** Equality of keys is an equivalence, and equal keys have equal hashes, of 64 bits. *)
Definition lawful : Prop :=
  (forall a, eqk a a = true) /\
  (forall a b, eqk a b = true -> eqk b a = true) /\
  (forall a b c, eqk a b = true -> eqk b c = true -> eqk a c = true) /\
  (forall a b, eqk a b = true -> hash a = hash b) /\
  (forall a, hash a < 2 ^ 64).

(** The value of a key; a key with its value put in, a key that is there staying as it is; a key removed. *)
Definition value_of (k : K) (l : entries) : option V := option_map snd (find (fun e => eqk k (fst e)) l).
Fixpoint put (k : K) (v : V) (l : entries) : entries :=
  match l with
  | [] => [(k, v)]
  | (k', v') :: l => if eqk k k' then (k', v) :: l else (k', v') :: put k v l
  end.
Definition del (k : K) (l : entries) : entries := filter (fun e => negb (eqk k (fst e))) l.

(** No two entries have equal keys. *)
Fixpoint distinct (l : entries) : Prop :=
  match l with [] => True | (k, _) :: l => value_of k l = None /\ distinct l end.

Definition equal (eqv : V -> V -> bool) (a b : entries) : bool :=
  (List.length a =? List.length b)%nat &&
  forallb (fun e => match value_of (fst e) b with Some w => eqv (snd e) w | None => false end) a.

(** What a call answers when each map is the list of its entries, and the maps after it. *)
Definition with_map (ms : list entries) (i : nat) (f : entries -> answer K V * list entries) : answer K V * list entries :=
  match nth_error ms i with None => (ANoMap, ms) | Some m => f m end.
Definition spec_step (ms : list entries) (c : call K V) : answer K V * list entries :=
  match c with
  | New _ => (ADone, ms ++ [[]])
  | Get i k => with_map ms i (fun m => (AValue (value_of k m), ms))
  | Has i k => with_map ms i (fun m => (ABool (match value_of k m with Some _ => true | None => false end), ms))
  | Insert i k v => with_map ms i (fun m => (AValue (value_of k m), update ms i (put k v m)))
  | Remove i k => with_map ms i (fun m => (AValue (value_of k m), update ms i (del k m)))
  | Clear i => with_map ms i (fun m => (ADone, update ms i []))
  | Reserve i _ => with_map ms i (fun m => (ADone, ms))
  | Length i => with_map ms i (fun m => (ALength (N.of_nat (List.length m)), ms))
  | IsEmpty i => with_map ms i (fun m => (ABool (match m with [] => true | _ => false end), ms))
  | Elems i => with_map ms i (fun m => (AElems m, ms))
  | ShallowCopy i => with_map ms i (fun m => (ADone, ms ++ [m]))
  | DeepCopy dk dv i => with_map ms i (fun m => (ADone, ms ++ [map (fun e => (dk (fst e), dv (snd e))) m]))
  | Equal eqv i j => with_map ms i (fun a => with_map ms j (fun b => (ABool (equal eqv a b), ms)))
  end.
Fixpoint spec_run (ms : list entries) (cs : list (call K V)) : list (answer K V) * list entries :=
  match cs with
  | [] => ([], ms)
  | c :: cs => let (a, ms) := spec_step ms c in let (r, ms) := spec_run ms cs in (a :: r, ms)
  end.

(** Two answers agree: they are the same, but entries may come in another order. *)
Definition agree (a b : answer K V) : Prop :=
  match a, b with
  | AElems l, AElems l' => Permutation l l'
  | a, b => a = b
  end.

(** What a caller has to see to: a capacity is not zero when a map is made with it, and at most [2 ^ 62]; a deep copy of a
    key is equal to the key. *)
Definition proper (c : call K V) : Prop :=
  match c with
  | New c => 1 <= c <= 2 ^ 62
  | Reserve _ c => c <= 2 ^ 62
  | DeepCopy dk _ _ => forall k, eqk k (dk k) = true
  | _ => True
  end.

End Spec.
