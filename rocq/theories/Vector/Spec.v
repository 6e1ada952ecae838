(** * What is asked of arrays and vectors: they behave as sequences, as long as what is shared is not written *)
From Verif.Base Require Import Base.
From Verif.Vector Require Import Model.
Local Open Scope N_scope.
Local Open Scope list_scope.

Section Spec.
Context {A : Type}.
Implicit Types l : list A.

(** What a program holds: nothing any more (it handed the elements on), a sequence it alone can see, or one that is seen
    through other objects too. For a vector also how much room it has at least; for an iterator, what is still to come. *)
Inductive mode := Own | Shared.
Inductive sobj := SGone | SArray (w : mode) l | SVector (w : mode) l (room : N) | SIter (w : mode) l.

Definition len l : N := N.of_nat (List.length l).
Definition nth_ l (k : N) : option A := nth_error l (N.to_nat k).
Definition first (n : N) l := firstn (N.to_nat n) l.
Definition after (n : N) l := skipn (N.to_nat n) l.

Inductive outcome_ X := SDone (a : answer (A := A)) (s : X) | SFails | SMisuse.
Arguments SDone {X}. Arguments SFails {X}. Arguments SMisuse {X}.
Notation result := (outcome_ (list sobj)).

Definition spec_array (ss : list sobj) (i : nat) (f : mode -> list A -> result) : result :=
  match nth_error ss i with Some (SArray w l) => f w l | _ => SMisuse end.
Definition spec_vector (ss : list sobj) (i : nat) (f : mode -> list A -> N -> result) : result :=
  match nth_error ss i with Some (SVector w l room) => f w l room | _ => SMisuse end.
Definition spec_iter (ss : list sobj) (i : nat) (f : mode -> list A -> result) : result :=
  match nth_error ss i with Some (SIter w l) => f w l | _ => SMisuse end.
(** Arrays and vectors alike; the sequence can be replaced by another of the same length. *)
Definition spec_view (ss : list sobj) (i : nat) (f : mode -> list A -> (list A -> sobj) -> result) : result :=
  match nth_error ss i with
  | Some (SArray w l) => f w l (SArray w)
  | Some (SVector w l room) => f w l (fun l => SVector w l room)
  | _ => SMisuse
  end.
Definition needs (b : bool) (r : result) : result := if b then r else SFails.
(** Only what is not shared may be written. *)
Definition writes (w : mode) (r : result) : result := match w with Own => r | Shared => SMisuse end.

(** When a view of an object is made, either both are shared from then on, or the object is given up. *)
Definition view_mode (keep : bool) (w : mode) : mode := if keep then Shared else w.
Definition leave (keep : bool) (s : sobj) : sobj :=
  if keep then
    match s with SGone => SGone | SArray _ l => SArray Shared l | SVector _ l room => SVector Shared l room | SIter _ l => SIter Shared l end
  else SGone.
Definition lend (ss : list sobj) (i : nat) (keep : bool) : list sobj :=
  match nth_error ss i with Some s => set_nth i (leave keep s) ss | None => ss end.

Definition eq_list (eqx : A -> A -> bool) := fix go (a b : list A) : bool :=
  match a, b with [], [] => true | x :: a, y :: b => eqx x y && go a b | _, _ => false end.
Definition compare_list (cmp : A -> A -> comparison) := fix go (a b : list A) : comparison :=
  match a, b with
  | [], [] => Eq | [], _ => Lt | _, [] => Gt
  | x :: a, y :: b => match cmp x y with Eq => go a b | o => o end
  end.
Definition swapped l (a b : N) (x y : A) := set_nth (N.to_nat b) x (set_nth (N.to_nat a) y l).
Definition copy_of (ss : list sobj) (i : nat) l : sobj :=
  match nth_error ss i with Some (SVector _ _ _) => SVector Own l (len l) | _ => SArray Own l end.

Definition spec_step (ss : list sobj) (c : call (A := A)) : result :=
  let new l := SDone ADone (ss ++ [SArray Own l]) in
  let newv l room := SDone ADone (ss ++ [SVector Own l room]) in
  match c with
  | NewArray x n => new (repeat x (N.to_nat n))
  | Literal l => new l
  | EmptyArray => new []
  | NewVector x n => newv (repeat x (N.to_nat n)) n
  | EmptyVector => newv [] 0
  | WithCapacity n => newv [] n
  | Length i => spec_view ss i (fun _ l _ => SDone (ANumber (len l)) ss)
  | IsEmpty i => spec_view ss i (fun _ l _ => SDone (ABool (match l with [] => true | _ => false end)) ss)
  | Get i k | LoadRef i k => spec_view ss i (fun _ l _ => match nth_ l k with Some x => SDone (AValue x) ss | None => SFails end)
  | GetOpt i k => spec_view ss i (fun _ l _ => SDone (AOption (nth_ l k)) ss)
  | Set_ i k x | StoreRef i k x => spec_view ss i (fun w l f => writes w (needs (k <? len l) (SDone ADone (set_nth i (f (set_nth (N.to_nat k) x l)) ss))))
  | Fill i x => spec_view ss i (fun w l f => writes w (SDone ADone (set_nth i (f (map (fun _ => x) l)) ss)))
  | Swap i a b => spec_view ss i (fun w l f => writes w
      match nth_ l a, nth_ l b with Some x, Some y => SDone ADone (set_nth i (f (swapped l a b x y)) ss) | _, _ => SFails end)
  | Reverse i => spec_view ss i (fun w l f => writes w (SDone ADone (set_nth i (f (rev l)) ss)))
  | ShallowCopy i => spec_view ss i (fun _ l _ => SDone ADone (ss ++ [copy_of ss i l]))
  | DeepCopy g i => spec_view ss i (fun _ l _ => SDone ADone (ss ++ [copy_of ss i (map g l)]))
  | Equal eqx i j => spec_view ss i (fun _ a _ => spec_view ss j (fun _ b _ => SDone (ABool (eq_list eqx a b)) ss))
  | Compare cmp i j => spec_view ss i (fun _ a _ => spec_view ss j (fun _ b _ => SDone (AOrder (compare_list cmp a b)) ss))
  | Iterate keep i => spec_view ss i (fun w l _ => SDone ADone (lend ss i keep ++ [SIter (view_mode keep w) l]))
  | RevIterate keep i => spec_view ss i (fun w l _ => SDone ADone (lend ss i keep ++ [SIter (view_mode keep w) (rev l)]))
  | Subarray keep i s e => spec_array ss i (fun w l =>
      needs ((s <=? e) && (e <=? len l)) (SDone ADone (lend ss i keep ++ [SArray (view_mode keep w) (first (e - s) (after s l))])))
  | Take keep i n => spec_array ss i (fun w l => SDone ADone (lend ss i keep ++ [SArray (view_mode keep w) (first n l)]))
  | Skip keep i n => spec_array ss i (fun w l => SDone ADone (lend ss i keep ++ [SArray (view_mode keep w) (after n l)]))
  | SplitAt keep i k => spec_array ss i (fun w l =>
      needs (k <=? len l) (SDone ADone (lend ss i keep ++ [SArray (view_mode keep w) (first k l); SArray (view_mode keep w) (after k l)])))
  | SplitAtOpt keep i k => spec_array ss i (fun w l =>
      if k <=? len l then SDone (ASome true) (lend ss i keep ++ [SArray (view_mode keep w) (first k l); SArray (view_mode keep w) (after k l)])
      else SDone (ASome false) ss)
  | SplitFirst keep i => spec_array ss i (fun w l =>
      match l with [] => SFails | x :: l => SDone (AValue x) (lend ss i keep ++ [SArray (view_mode keep w) l]) end)
  | SplitFirstOpt keep i => spec_array ss i (fun w l =>
      match l with [] => SDone (AOption None) ss | x :: l => SDone (AOption (Some x)) (lend ss i keep ++ [SArray (view_mode keep w) l]) end)
  | SplitLast keep i => spec_array ss i (fun w l =>
      match rev l with [] => SFails | x :: r => SDone (AValue x) (lend ss i keep ++ [SArray (view_mode keep w) (rev r)]) end)
  | SplitLastOpt keep i => spec_array ss i (fun w l =>
      match rev l with [] => SDone (AOption None) ss | x :: r => SDone (AOption (Some x)) (lend ss i keep ++ [SArray (view_mode keep w) (rev r)]) end)
  | Insert i k x => spec_array ss i (fun _ l => needs (k <=? len l) (new (first k l ++ x :: after k l)))
  | Push i x => spec_array ss i (fun _ l => new (l ++ [x]))
  | Unshift i x => spec_array ss i (fun _ l => new (x :: l))
  | Update i k x => spec_array ss i (fun _ l => needs (k <? len l) (new (set_nth (N.to_nat k) x l)))
  | Remove i k => spec_array ss i (fun _ l => needs (k <? len l) (new (first k l ++ after (k + 1) l)))
  | Concat i j => spec_array ss i (fun u a => spec_array ss j (fun w b =>
      match a, b with
      | [], _ => SDone ADone (lend ss j true ++ [SArray Shared b])
      | _, [] => SDone ADone (lend ss i true ++ [SArray Shared a])
      | _, _ => new (a ++ b)
      end))
  | CopyTo i j => spec_array ss i (fun _ a => spec_array ss j (fun w b => writes w
      (if Nat.eqb i j then SMisuse else needs (len a <=? len b) (SDone ADone (set_nth j (SArray w (a ++ after (len a) b)) ss)))))
  | FromArray keep i => spec_array ss i (fun w l => SDone ADone (lend ss i keep ++ [SVector (view_mode keep w) l (len l)]))
  | Buffer keep i => spec_vector ss i (fun w l _ => SDone ADone (lend ss i keep ++ [SArray (view_mode keep w) l]))
  | Capacity i => spec_vector ss i (fun _ _ room => SDone (AAtLeast room) ss)
  | Free i => spec_vector ss i (fun _ l room => SDone (AAtLeast (room - len l)) ss)
  | Reserve i n _ => spec_vector ss i (fun w l room => writes w (SDone ADone (set_nth i (SVector w l (N.max room n)) ss)))
  | ReserveFree i n _ => spec_vector ss i (fun w l room => writes w (SDone ADone (set_nth i (SVector w l (N.max room (len l + n))) ss)))
  | Append i j => spec_array ss j (fun _ a => spec_vector ss i (fun w l room => writes w
      (SDone ADone (set_nth i (SVector w (l ++ a) (N.max room (len l + len a))) ss))))
  | VPush i x => spec_vector ss i (fun w l room => writes w (SDone ADone (set_nth i (SVector w (l ++ [x]) (N.max room (len l + 1))) ss)))
  | VInsert i k x => spec_vector ss i (fun w l room => writes w (needs (k <=? len l)
      (SDone ADone (set_nth i (SVector w (first k l ++ x :: after k l) (N.max room (len l + 1))) ss))))
  | VPop i => spec_vector ss i (fun w l room => writes w
      match rev l with
      | [] => SDone (AOption None) ss
      | x :: r => SDone (AOption (Some x)) (set_nth i (SVector w (rev r) room) ss)
      end)
  | SwapRemove i k => spec_vector ss i (fun w l room => writes w
      match nth_ l k, rev l with
      | Some x, y :: r => SDone (AValue x) (set_nth i (SVector w (if k =? len (rev r) then rev r else set_nth (N.to_nat k) y (rev r)) room) ss)
      | _, _ => SFails
      end)
  | VRemove i k => spec_vector ss i (fun w l room => writes w
      match nth_ l k with
      | Some x => SDone (AValue x) (set_nth i (SVector w (first k l ++ after (k + 1) l) room) ss)
      | None => SFails
      end)
  | Truncate i n => spec_vector ss i (fun w l room => writes w (SDone ADone (set_nth i (SVector w (first n l) room) ss)))
  | Clear i => spec_vector ss i (fun w l room => writes w (SDone ADone (set_nth i (SVector w [] room) ss)))
  | Consume i n => spec_vector ss i (fun w l room => writes w (needs (n <=? len l)
      (SDone ADone (set_nth i (SVector w (after n l) (room - n)) ss ++ [SArray w (first n l)]))))
  | ConsumeAll i => spec_vector ss i (fun w l room => writes w
      (SDone ADone (set_nth i (SVector w [] (room - len l)) ss ++ [SArray w l])))
  | MoveOut i => spec_vector ss i (fun w l room => SDone ADone (set_nth i (SVector w [] 0) ss ++ [SVector w l room]))
  | Next i => spec_iter ss i (fun w l =>
      match l with
      | [] => SDone (AOption None) ss
      | x :: l => SDone (AOption (Some x)) (set_nth i (SIter w l) ss)
      end)
  | Collect i => spec_iter ss i (fun w l => SDone ADone (set_nth i (SIter w []) ss ++ [SVector Own l (len l)]))
  end.

(** The answers that are asked for, and whether a call fails. *)
Fixpoint spec_run (ss : list sobj) (cs : list (call (A := A))) : list (answer (A := A)) * bool :=
  match cs with
  | [] => ([], false)
  | c :: cs =>
      match spec_step ss c with
      | SDone a ss => let (r, e) := spec_run ss cs in (a :: r, e)
      | SFails | SMisuse => ([], true)
      end
  end.

(** How many elements a call asks memory for, one way or another. *)
Definition length_of (ss : list sobj) (i : nat) : N :=
  match nth_error ss i with Some (SArray _ l) | Some (SVector _ l _) | Some (SIter _ l) => len l | _ => 0 end.
Definition asks (ss : list sobj) (c : call (A := A)) : N :=
  match c with
  | NewArray _ n | NewVector _ n | WithCapacity n | Reserve _ n _ => n
  | Literal l => len l
  | ReserveFree i n _ => length_of ss i + n
  | Append i j | Concat i j => length_of ss i + length_of ss j
  | Insert i _ _ | Push i _ | Unshift i _ | VPush i _ | VInsert i _ _ => length_of ss i + 1
  | Collect i => length_of ss i
  | _ => 0
  end.
(** Two calls that do not check what they should: updating an empty array, and taking a reference one past the end. *)
Definition unchecked (ss : list sobj) (c : call (A := A)) : Prop :=
  match c with
  | Update i _ _ => length_of ss i = 0
  | LoadRef i k | StoreRef i k _ => length_of ss i = k
  | _ => False
  end.
(** A program that uses what it holds, writes nothing that is shared, and does not ask for 2^63 elements or more. *)
Fixpoint proper (ss : list sobj) (cs : list (call (A := A))) : Prop :=
  match cs with
  | [] => True
  | c :: cs =>
      asks ss c < 2 ^ 63 /\
      match spec_step ss c with SDone _ ss => proper ss cs | SFails => True | SMisuse => False end
  end.
Fixpoint checked (ss : list sobj) (cs : list (call (A := A))) : Prop :=
  match cs with
  | [] => True
  | c :: cs => ~ unchecked ss c /\ match spec_step ss c with SDone _ ss => checked ss cs | _ => True end
  end.

(** Calls other than these. *)
Definition plain (c : call (A := A)) : Prop := match c with Update _ _ _ | LoadRef _ _ | StoreRef _ _ _ => False | _ => True end.

(** An answer is as asked for. *)
Definition agree (a b : answer (A := A)) : Prop :=
  match b with AAtLeast n => exists k, a = ANumber k /\ n <= k | b => a = b end.
End Spec.
Arguments SDone {A X}. Arguments SFails {A X}. Arguments SMisuse {A X}.
