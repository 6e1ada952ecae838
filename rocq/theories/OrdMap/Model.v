(** * std/ord-map.llrl: the mutable ordered map, a B-tree

    A node owns its arrays and its child nodes, so a node is a value here: a function that changes a node gives the new
    one. The arrays of keys and values are one list of the elements that are initialised; writing past the capacity of an
    array, or reading an element that is not there, is [Panic]. *)
From Verif.Base Require Import Base.
Local Open Scope nat_scope.
Local Open Scope list_scope.

Section OrdMap.
Context {K V : Type} (cmp : K -> K -> comparison).

(** ord-map.llrl:124-127 *)
Definition B : nat := 6.
Definition cap_elems : nat := 2 * B - 1.
Definition cap_edges : nat := 2 * B.

(** ord-map.llrl:129-134; no edges is the null pointer of a leaf *)
Inductive node := Node (elems : list (K * V)) (edges : option (list node)).

Definition elems_of (n : node) : list (K * V) := match n with Node e _ => e end.
Definition edges_of (n : node) : option (list node) := match n with Node _ e => e end.

(** Arrays. Reading an element; replacing one; [ptr/move!] of the elements from a position to the next one and storing
    there; the same to the position before. *)
Definition load {A} (i : nat) (l : list A) : outcome A := match nth_error l i with Some x => Ret x | None => Panic end.
Definition store {A} (i : nat) (x : A) (l : list A) : outcome (list A) :=
  if Nat.ltb i (List.length l) then Ret (firstn i l ++ x :: skipn (S i) l) else Panic.
Definition open_at {A} (cap i : nat) (x : A) (l : list A) : outcome (list A) :=
  if (Nat.leb i (List.length l) && Nat.ltb (List.length l) cap)%bool then Ret (firstn i l ++ x :: skipn i l) else Panic.
Definition close_at {A} (i : nat) (l : list A) : outcome (list A) :=
  if Nat.ltb i (List.length l) then Ret (firstn i l ++ skipn (S i) l) else Panic.
Definition append {A} (cap : nat) (l r : list A) : outcome (list A) :=
  if Nat.leb (List.length l + List.length r) cap then Ret (l ++ r) else Panic.

(** std/assert.llrl *)
Definition assert_ (b : bool) : outcome unit := if b then Ret tt else Panic.

(** ord-map.llrl:143-148 [node/new-leaf] *)
Definition new_leaf : node := Node [] None.

(** ord-map.llrl:157-165 [node/new-root] *)
Definition new_root (key : K) (value : V) (left right : node) : node := Node [(key, value)] (Some [left; right]).

(** ord-map.llrl:167-171 [node/simplify-root] *)
Definition simplify_root (root : node) : outcome node :=
  match root with
  | Node [] (Some edges) => load 0 edges
  | _ => Ret root
  end.

(** ord-map.llrl:173-175 *)
Definition length_ (n : node) : nat := List.length (elems_of n).
Definition is_full (n : node) : bool := Nat.eqb cap_elems (length_ n).
Definition has_room (n : node) : bool := negb (Nat.eqb cap_elems (length_ n)).
Definition is_leaf (n : node) : bool := match edges_of n with None => true | Some _ => false end.

(** ord-map.llrl:183-191 *)
Definition value_at (i : nat) (n : node) : outcome V :=
  let* _ := assert_ (Nat.ltb i (length_ n)) in let* e := load i (elems_of n) in Ret (snd e).

(** ord-map.llrl:188-191 [node/replace-value-at!]: the old value, and the node *)
Definition replace_value_at (i : nat) (v : V) (n : node) : outcome (V * node) :=
  let* _ := assert_ (Nat.ltb i (length_ n)) in
  let* e := load i (elems_of n) in
  let* es := store i (fst e, v) (elems_of n) in
  Ret (snd e, Node es (edges_of n)).

(** ord-map.llrl:193-196 *)
Definition elem_at (i : nat) (n : node) : outcome (K * V) :=
  let* _ := assert_ (Nat.ltb i (length_ n)) in load i (elems_of n).

(** ord-map.llrl:198-202 *)
Definition replace_elem_at (i : nat) (x : K * V) (n : node) : outcome ((K * V) * node) :=
  let* _ := assert_ (Nat.ltb i (length_ n)) in
  let* e := load i (elems_of n) in
  let* es := store i x (elems_of n) in
  Ret (e, Node es (edges_of n)).

(** ord-map.llrl:212-216 [node/edge-at], and what is done with the node there. The assertion that the index is at most
    the number of elements is that it is in the list of edges, which is one longer. *)
Section EdgeDo.
Context {A : Type} (f : node -> outcome A).
Fixpoint edge_do (i : nat) (edges : list node) {struct edges} : outcome A :=
  match edges, i with
  | [], _ => Panic
  | e :: _, O => f e
  | _ :: edges, S i => edge_do i edges
  end.
End EdgeDo.

Definition edge_at (i : nat) (n : node) : outcome node :=
  match edges_of n with
  | None => Panic
  | Some edges => let* _ := assert_ (Nat.leb i (length_ n)) in load i edges
  end.

(** The node with another node at an edge: what changing the node at an edge does to the node above. *)
Definition set_edge (i : nat) (e : node) (n : node) : outcome node :=
  match edges_of n with
  | None => Panic
  | Some edges => let* edges := store i e edges in Ret (Node (elems_of n) (Some edges))
  end.

(** ord-map.llrl:236-238 *)
Inductive search_result := Found (i : nat) | GoDown (i : nat).

(** ord-map.llrl:223-234 [node/search] *)
Fixpoint search_from (i : nat) (key : K) (l : list (K * V)) : search_result :=
  match l with
  | [] => GoDown i
  | (k, _) :: l =>
      match cmp key k with
      | Lt => GoDown i
      | Eq => Found i
      | Gt => search_from (S i) key l
      end
  end.
Definition search (key : K) (n : node) : search_result := search_from 0 key (elems_of n).

(** ord-map.llrl:240-247 [node/get?] *)
Fixpoint get (key : K) (n : node) {struct n} : outcome (option V) :=
  match search key n with
  | Found i => let* v := value_at i n in Ret (Some v)
  | GoDown i =>
      match n with
      | Node _ None => Ret None
      | Node elems (Some edges) => edge_do (fun c => get key c) i edges
      end
  end.

(** ord-map.llrl:249-257 *)
Fixpoint get_min (n : node) : outcome (K * V) :=
  match n with
  | Node _ None => elem_at 0 n
  | Node _ (Some edges) => edge_do get_min 0 edges
  end.
Fixpoint get_max (n : node) : outcome (K * V) :=
  match n with
  | Node _ None => elem_at (length_ n - 1) n
  | Node elems (Some edges) => edge_do get_max (List.length elems) edges
  end.

(** ord-map.llrl:272-275 *)
Inductive insertion := Replace (v : V) | Fit | Split (k : K) (v : V) (right : node).

(** ord-map.llrl:290-307 [node/room/insert-at!] *)
Definition room_insert_at (i : nat) (k : K) (v : V) (right : option node) (n : node) : outcome node :=
  let* _ := assert_ (Bool.eqb (is_leaf n) (match right with None => true | Some _ => false end)) in
  let* _ := assert_ (has_room n) in
  let* elems := open_at cap_elems i (k, v) (elems_of n) in
  match right, edges_of n with
  | Some r, Some edges => let* edges := open_at cap_edges (i + 1) r edges in Ret (Node elems (Some edges))
  | Some _, None => Panic
  | None, edges => Ret (Node elems edges)
  end.

(** ord-map.llrl:312-322 [node/full/split!]: the node, the element in the middle and the new node *)
Definition full_split (n : node) : outcome (node * (K * V) * node) :=
  let* _ := assert_ (is_full n) in
  let* m := load (B - 1) (elems_of n) in
  let left := firstn (B - 1) (elems_of n) in
  let right := firstn (B - 1) (skipn B (elems_of n)) in
  match edges_of n with
  | None => Ret (Node left None, m, Node right None)
  | Some edges => Ret (Node left (Some (firstn B edges)), m, Node right (Some (firstn B (skipn B edges))))
  end.

(** ord-map.llrl:277-288 [node/insert-at!] *)
Definition insert_at (i : nat) (k : K) (v : V) (right : option node) (n : node) : outcome (insertion * node) :=
  let* _ := assert_ (Bool.eqb (is_leaf n) (match right with None => true | Some _ => false end)) in
  if has_room n then let* n := room_insert_at i k v right n in Ret (Fit, n)
  else
    let* (n, (mk, mv), r) := full_split n in
    if Nat.leb i (length_ n) then
      let* n := room_insert_at i k v right n in Ret (Split mk mv r, n)
    else
      let* r := room_insert_at (i - length_ n - 1) k v right r in Ret (Split mk mv r, n).

(** ord-map.llrl:259-270 [node/insert!] *)
Fixpoint insert (key : K) (value : V) (n : node) {struct n} : outcome (insertion * node) :=
  match search key n with
  | Found i => let* (v, n) := replace_value_at i value n in Ret (Replace v, n)
  | GoDown i =>
      match n with
      | Node _ None => insert_at i key value None n
      | Node _ (Some edges) =>
          let* (r, c) := edge_do (fun c => insert key value c) i edges in
          let* n := set_edge i c n in
          match r with
          | Split k v rn => insert_at i k v (Some rn) n
          | r => Ret (r, n)
          end
      end
  end.

(** ord-map.llrl:362-373 [node/leaf/remove-at!] *)
Definition leaf_remove_at (i : nat) (n : node) : outcome ((K * V) * node) :=
  let* _ := assert_ (is_leaf n) in
  let* e := load i (elems_of n) in
  let* es := close_at i (elems_of n) in
  Ret (e, Node es (edges_of n)).

(** ord-map.llrl:400-427 [node/steal-from-left!] *)
Definition steal_from_left (i : nat) (n : node) : outcome node :=
  let* _ := assert_ (negb (Nat.eqb i 0)) in
  let* l := edge_at (i - 1) n in
  let* r := edge_at i n in
  let* _ := assert_ (Nat.ltb (B - 1) (length_ l) && Nat.ltb (length_ r) (B - 1)) in
  let* p := load (i - 1) (elems_of n) in
  let* x := load (length_ l - 1) (elems_of l) in
  let* p_elems := store (i - 1) x (elems_of n) in
  let* r_elems := open_at cap_elems 0 p (elems_of r) in
  let* l_elems := close_at (length_ l - 1) (elems_of l) in
  let* (l_edges, r_edges) :=
    match edges_of l, edges_of r with
    | Some le, Some re =>
        let* e := load (length_ l) le in
        let* re := open_at cap_edges 0 e re in
        let* le := close_at (length_ l) le in
        Ret (Some le, Some re)
    | Some _, None => Panic
    | None, re => Ret (None, re)
    end in
  let* n := set_edge (i - 1) (Node l_elems l_edges) (Node p_elems (edges_of n)) in
  set_edge i (Node r_elems r_edges) n.

(** ord-map.llrl:429-456 [node/steal-from-right!] *)
Definition steal_from_right (i : nat) (n : node) : outcome node :=
  let* _ := assert_ (negb (Nat.eqb i (length_ n))) in
  let* l := edge_at i n in
  let* r := edge_at (i + 1) n in
  let* _ := assert_ (Nat.ltb (length_ l) (B - 1) && Nat.ltb (B - 1) (length_ r)) in
  let* p := load i (elems_of n) in
  let* x := load 0 (elems_of r) in
  let* l_elems := open_at cap_elems (length_ l) p (elems_of l) in
  let* p_elems := store i x (elems_of n) in
  let* r_elems := close_at 0 (elems_of r) in
  let* (l_edges, r_edges) :=
    match edges_of l, edges_of r with
    | Some le, Some re =>
        let* e := load 0 re in
        let* le := open_at cap_edges (length_ l + 1) e le in
        let* re := close_at 0 re in
        Ret (Some le, Some re)
    | None, Some _ => Panic
    | le, None => Ret (le, None)
    end in
  let* n := set_edge i (Node l_elems l_edges) (Node p_elems (edges_of n)) in
  set_edge (i + 1) (Node r_elems r_edges) n.

(** ord-map.llrl:458-485 [node/merge!] *)
Definition merge (i : nat) (n : node) : outcome node :=
  let* l := edge_at i n in
  let* r := edge_at (i + 1) n in
  let* _ := assert_ (Nat.leb (length_ l + length_ r + 1) (2 * B - 1)) in
  let* x := load i (elems_of n) in
  let* p_elems := close_at i (elems_of n) in
  let* l_elems := open_at cap_elems (length_ l) x (elems_of l) in
  let* l_elems := append cap_elems l_elems (elems_of r) in
  let* l_edges :=
    match edges_of l, edges_of r with
    | Some le, Some re => let* le := append cap_edges le re in Ret (Some le)
    | Some _, None => Panic
    | None, _ => Ret None
    end in
  let* n := set_edge i (Node l_elems l_edges) n in
  match edges_of n with
  | None => Panic
  | Some p_edges => let* p_edges := close_at (i + 1) p_edges in Ret (Node p_elems (Some p_edges))
  end.

(** ord-map.llrl:380-388 [node/check-underflow-left!] *)
Definition check_underflow_left (i : nat) (n : node) : outcome node :=
  let* _ := assert_ (negb (Nat.eqb i 0)) in
  let* target := edge_at i n in
  let* l := edge_at (i - 1) n in
  if Nat.leb (B - 1) (length_ target) then Ret n
  else if Nat.ltb (B - 1) (length_ l) then steal_from_left i n
  else merge (i - 1) n.

(** ord-map.llrl:390-398 [node/check-underflow-right!] *)
Definition check_underflow_right (i : nat) (n : node) : outcome node :=
  let* _ := assert_ (negb (Nat.eqb i (length_ n))) in
  let* target := edge_at i n in
  let* r := edge_at (i + 1) n in
  if Nat.leb (B - 1) (length_ target) then Ret n
  else if Nat.ltb (B - 1) (length_ r) then steal_from_right i n
  else merge i n.

(** ord-map.llrl:375-378 [node/check-underflow!] *)
Definition check_underflow (i : nat) (n : node) : outcome node :=
  if Nat.eqb i 0 then check_underflow_right i n else check_underflow_left i n.

(** ord-map.llrl:346-352 [node/remove-smallest-elem!] *)
Fixpoint remove_smallest (n : node) : outcome ((K * V) * node) :=
  match n with
  | Node _ None => leaf_remove_at 0 n
  | Node _ (Some edges) =>
      let* (e, c) := edge_do remove_smallest 0 edges in
      let* n := set_edge 0 c n in
      let* n := check_underflow 0 n in
      Ret (e, n)
  end.

(** ord-map.llrl:354-360 [node/remove-largest-elem!] *)
Fixpoint remove_largest (n : node) : outcome ((K * V) * node) :=
  match n with
  | Node _ None => leaf_remove_at (length_ n - 1) n
  | Node elems (Some edges) =>
      let* (e, c) := edge_do remove_largest (List.length elems) edges in
      let* n := set_edge (List.length elems) c n in
      let* n := check_underflow (List.length elems) n in
      Ret (e, n)
  end.

(** ord-map.llrl:324-344 [node/remove!] *)
Fixpoint remove (key : K) (n : node) {struct n} : outcome (option (K * V) * node) :=
  match search key n with
  | Found i =>
      match n with
      | Node _ None => let* (e, n) := leaf_remove_at i n in Ret (Some e, n)
      | Node _ (Some edges) =>
          let* (x, c) := edge_do remove_smallest (i + 1) edges in
          let* n := set_edge (i + 1) c n in
          let* (e, n) := replace_elem_at i x n in
          let* n := check_underflow (i + 1) n in
          Ret (Some e, n)
      end
  | GoDown i =>
      match n with
      | Node _ None => Ret (None, n)
      | Node _ (Some edges) =>
          let* (e, c) := edge_do (fun c => remove key c) i edges in
          match e with
          | None => Ret (None, n)
          | Some e =>
              let* n := set_edge i c n in
              let* n := check_underflow i n in
              Ret (Some e, n)
          end
      end
  end.

(** ord-map.llrl:17-21: the length and the root *)
Record map := Map { m_length : nat; m_root : node }.

(** ord-map.llrl:34-35 *)
Definition map_empty : map := Map 0 new_leaf.

(** ord-map.llrl:37-49 *)
Definition map_get (k : K) (m : map) : outcome (option V) := get k (m_root m).
Definition map_has (k : K) (m : map) : outcome bool :=
  let* r := map_get k m in Ret (match r with Some _ => true | None => false end).

(** ord-map.llrl:51-61 *)
Definition map_get_min (m : map) : outcome (option (K * V)) :=
  if Nat.eqb 0 (m_length m) then Ret None else let* e := get_min (m_root m) in Ret (Some e).
Definition map_get_max (m : map) : outcome (option (K * V)) :=
  if Nat.eqb 0 (m_length m) then Ret None else let* e := get_max (m_root m) in Ret (Some e).

(** ord-map.llrl:63-73 [ord-map/insert!] *)
Definition map_insert (k : K) (v : V) (m : map) : outcome (option V * map) :=
  let* (r, root) := insert k v (m_root m) in
  match r with
  | Replace v => Ret (Some v, Map (m_length m) root)
  | Fit => Ret (None, Map (m_length m + 1) root)
  | Split k v rn => Ret (None, Map (m_length m + 1) (new_root k v root rn))
  end.

(** ord-map.llrl:79-84 [ord-map/remove!] *)
Definition map_remove (k : K) (m : map) : outcome (option V * map) :=
  let* (r, root) := remove k (m_root m) in
  match r with
  | None => Ret (None, Map (m_length m) root)
  | Some (_, v) => let* root := simplify_root root in Ret (Some v, Map (m_length m - 1) root)
  end.

(** ord-map.llrl:86-100 *)
Definition map_remove_min (m : map) : outcome (option (K * V) * map) :=
  if Nat.eqb 0 (m_length m) then Ret (None, m)
  else
    let* (e, root) := remove_smallest (m_root m) in
    let* root := simplify_root root in
    Ret (Some e, Map (m_length m - 1) root).
Definition map_remove_max (m : map) : outcome (option (K * V) * map) :=
  if Nat.eqb 0 (m_length m) then Ret (None, m)
  else
    let* (e, root) := remove_largest (m_root m) in
    let* root := simplify_root root in
    Ret (Some e, Map (m_length m - 1) root).

(** ord-map.llrl:487-518: a cursor is a stack of nodes and positions, here with its top first *)
Definition cursor := list (node * nat).

(** ord-map.llrl:507-518 [cursor/push!] *)
Fixpoint push (n : node) (i : nat) (stack : cursor) {struct n} : outcome cursor :=
  match n with
  | Node _ None => Ret ((n, i) :: stack)
  | Node elems (Some edges) => edge_do (fun c => push c 0 ((n, i) :: stack)) i edges
  end.

(** ord-map.llrl:495-505 [cursor/next!] *)
Fixpoint next (stack : cursor) : outcome (option (K * V) * cursor) :=
  match stack with
  | [] => Ret (None, [])
  | (n, i) :: stack =>
      if Nat.ltb i (length_ n) then
        let* stack := push n (i + 1) stack in
        let* e := elem_at i n in
        Ret (Some e, stack)
      else next stack
  end.

(** ord-map.llrl:110-113 [ord-map/elems]: what the iterator gives until it gives nothing; [fuel] bounds the calls *)
Fixpoint drain (fuel : nat) (stack : cursor) : outcome (list (K * V)) :=
  match fuel with
  | O => OutOfFuel
  | S fuel =>
      let* (e, stack) := next stack in
      match e with
      | None => Ret []
      | Some e => let* l := drain fuel stack in Ret (e :: l)
      end
  end.
Definition map_elems (fuel : nat) (m : map) : outcome (list (K * V)) :=
  let* stack := push (m_root m) 0 [] in drain fuel stack.

(** Calls on a map, and what they answer. *)
Inductive call :=
| Insert (k : K) (v : V) | Remove (k : K) | RemoveMin | RemoveMax | Clear | Get (k : K) | GetMin | GetMax | Length | Elems.
Inductive answer :=
| AValue (v : option V) | AEntry (e : option (K * V)) | ALength (n : nat) | AElems (l : list (K * V)) | ANone.

Definition step (m : map) (c : call) : outcome (answer * map) :=
  match c with
  | Insert k v => let* (r, m) := map_insert k v m in Ret (AValue r, m)
  | Remove k => let* (r, m) := map_remove k m in Ret (AValue r, m)
  | RemoveMin => let* (r, m) := map_remove_min m in Ret (AEntry r, m)
  | RemoveMax => let* (r, m) := map_remove_max m in Ret (AEntry r, m)
  | Clear => Ret (ANone, map_empty)                                          (* ord-map.llrl:102-104 *)
  | Get k => let* r := map_get k m in Ret (AValue r, m)
  | GetMin => let* r := map_get_min m in Ret (AEntry r, m)
  | GetMax => let* r := map_get_max m in Ret (AEntry r, m)
  | Length => Ret (ALength (m_length m), m)
  | Elems => let* l := map_elems (S (m_length m)) m in Ret (AElems l, m)
  end.

Fixpoint run (m : map) (cs : list call) : outcome (list answer * map) :=
  match cs with
  | [] => Ret ([], m)
  | c :: cs =>
      let* (a, m) := step m c in
      let* (l, m) := run m cs in
      Ret (a :: l, m)
  end.

End OrdMap.
Arguments node : clear implicits.
Arguments map : clear implicits.
Arguments insertion : clear implicits.
Arguments call : clear implicits.
Arguments answer : clear implicits.
