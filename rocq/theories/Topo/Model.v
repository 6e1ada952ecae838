(** Model of llrl0/src/topological_sort.rs (Tarjan's algorithm). *)
From Verif.Base Require Import Base Vec.
Open Scope Z_scope.

(** topological_sort.rs:58-66 without the key map. [isize] is unbounded. The stack has its top first. *)
Record state := { indices : list Z; lowlinks : list Z; scc_indices : list Z;
                  next_index : Z; next_scc_index : Z; stack : list nat }.

(** topological_sort.rs:87-91: the pop loop. *)
Fixpoint pop_until (i : nat) (scc : Z) (sccs : list Z) (stk : list nat) : outcome (list Z * list nat) :=
  match stk with
  | [] => Panic
  | j :: stk =>
    let* sccs := vset sccs j scc in
    if Nat.eqb j i then Ret (sccs, stk) else pop_until i scc sccs stk
  end.

Section Run.
  Context {K V : Type} (eqb : K -> K -> bool) (deps : V -> list K).

  (** The [BTreeMap] from keys to positions, as an association list. *)
  Definition key_map := list (K * nat).
  Fixpoint key_insert (m : key_map) (k : K) (i : nat) : key_map :=
    match m with
    | [] => [(k, i)]
    | (k', j) :: m => if eqb k k' then (k', i) :: m else (k', j) :: key_insert m k i
    end.
  Fixpoint key_get (m : key_map) (k : K) : option nat :=
    match m with
    | [] => None
    | (k', j) :: m => if eqb k k' then Some j else key_get m k
    end.

  Section Visit.
    Context (keys : key_map) (values : list V).

    (** topological_sort.rs:75-84: the closure applied to each dependency in turn; [rec] is the
        recursive call. *)
    Fixpoint each_dep (rec : nat -> state -> outcome state) (i : nat) (ks : list K) (st : state) : outcome state :=
      match ks with
      | [] => Ret st
      | k :: ks =>
        match key_get keys k with
        | None => each_dep rec i ks st
        | Some j =>
          let* ij := vget (indices st) j in
          if ij <? 0 then
            let* st := rec j st in
            let* li := vget (lowlinks st) i in
            let* lj := vget (lowlinks st) j in
            let* lows := vset (lowlinks st) i (Z.min li lj) in
            each_dep rec i ks {| indices := indices st; lowlinks := lows; scc_indices := scc_indices st;
                                 next_index := next_index st; next_scc_index := next_scc_index st; stack := stack st |}
          else
            let* sj := vget (scc_indices st) j in
            if sj <? 0 then
              let* li := vget (lowlinks st) i in
              let* lows := vset (lowlinks st) i (Z.min li ij) in
              each_dep rec i ks {| indices := indices st; lowlinks := lows; scc_indices := scc_indices st;
                                   next_index := next_index st; next_scc_index := next_scc_index st; stack := stack st |}
            else each_dep rec i ks st
        end
      end.

    (** topological_sort.rs:69-94; [fuel] bounds the recursion depth. *)
    Fixpoint visit (fuel : nat) (i : nat) (st : state) : outcome state :=
      match fuel with
      | O => OutOfFuel
      | S fuel =>
        let* inds := vset (indices st) i (next_index st) in
        let* lows := vset (lowlinks st) i (next_index st) in
        let st := {| indices := inds; lowlinks := lows; scc_indices := scc_indices st;
                     next_index := next_index st + 1; next_scc_index := next_scc_index st; stack := i :: stack st |} in
        let* v := vget values i in
        let* st := each_dep (visit fuel) i (deps v) st in
        let* ii := vget (indices st) i in
        let* li := vget (lowlinks st) i in
        if ii =? li then
          let* (sccs, stk) := pop_until i (next_scc_index st) (scc_indices st) (stack st) in
          Ret {| indices := indices st; lowlinks := lowlinks st; scc_indices := sccs;
                 next_index := next_index st; next_scc_index := next_scc_index st + 1; stack := stk |}
        else Ret st
      end.

    (** topological_sort.rs:41-45 *)
    Fixpoint visit_all (fuel : nat) (is : list nat) (st : state) : outcome state :=
      match is with
      | [] => Ret st
      | i :: is =>
        let* ii := vget (indices st) i in
        if ii <? 0 then let* st := visit fuel i st in visit_all fuel is st
        else visit_all fuel is st
      end.
  End Visit.

  (** topological_sort.rs:33-39 *)
  Fixpoint build_keys (i : nat) (data : list (K * V)) (m : key_map) : key_map :=
    match data with
    | [] => m
    | (k, _) :: data => build_keys (S i) data (key_insert m k i)
    end.

  (** topological_sort.rs:51-53; [scc_index as usize] of a negative number is out of range. *)
  Fixpoint distribute (vs : list V) (sccs : list Z) (result : list (list V)) : outcome (list (list V)) :=
    match vs, sccs with
    | v :: vs, s :: sccs =>
      if s <? 0 then Panic else
      let* g := vget result (Z.to_nat s) in
      let* result := vset result (Z.to_nat s) (g ++ [v]) in
      distribute vs sccs result
    | _, _ => Ret result
    end.

  (** topological_sort.rs:16-56. The recursion depth never exceeds the number of items. *)
  Definition run (data : list (K * V)) : outcome (list (list V)) :=
    let values := map snd data in
    let n := List.length data in
    let keys := build_keys 0 data [] in
    let st := {| indices := repeat (-1) n; lowlinks := repeat (-1) n; scc_indices := repeat (-1) n;
                 next_index := 0; next_scc_index := 0; stack := [] |} in
    let* st := visit_all keys values (S n) (seq 0 (List.length keys)) st in
    distribute values (scc_indices st) (repeat [] (Z.to_nat (next_scc_index st))).
End Run.
