From Verif.Base Require Import Base BaseFacts VecFacts.
From Verif.Types Require Import Model Spec Proofs.
From Verif.Instances Require Import Model Spec Examples.

(** * A failed search binds variables of the program *)
(** [(C v0 v1 Bool)], with the instance [(C A A I32)]. *)
Definition bad : constr := con_ 400 2 [fst v0; fst v1; bool]%N.

Definition after : context := Eval vm_compute in
  match build (xdecls eqs) xenv [] 40 (xpool, []) bad 0%N with Ret (p, _, _) => p | _ => [] end.

Definition apart_solution (v : var) : gty :=
  match nth_error xpool v with
  | Some (YVar 12 _ _) => TCon 0%N
  | Some (YVar _ _ _) => TCon 2%N
  | Some (YApp a b) => TApp (TCon 1%N) [TGen 4%N 1%N]
  | Some (YCon c) => TCon c
  | Some (YGen g lv) => TGen g lv
  | None => TCon 0%N
  end.

Lemma failed_search_binds : exists env pool ts D c pool' checked u w, reachable env pool ts /\ declared env pool ts D /\ well_founded_classes D /\
  constraint_ok env pool ts D c /\ In u ts /\ In w ts /\
  conv (fun n => build D env [] n (pool, []) c 0%N) (pool', checked, No NoMatchingInstances) /\
  (exists s, solution env pool s /\ interp s u <> interp s w) /\
  (forall s, equations pool' s -> interp s u = interp s w).
Proof.
  exists xenv, xpool, xts, (xdecls eqs), bad, after, [2%N], (fst v0), (fst v1).
  split; [exact xreach|]. split; [apply xdeclared, eqs_ok|]. split; [apply xwell_founded|]. split; [okc|]. split; [cbn; tauto|]. split; [cbn; tauto|].
  split; [compute_conv|]. split.
  - exists apart_solution. split; [split|vm_compute; discriminate].
    + intros i t H. do 14 (destruct i as [|i]; [injection H as <-; reflexivity|]). destruct i; discriminate.
    + intros v k lv H. unfold unresolved in H. do 14 (destruct v as [|v]; [first [discriminate H | injection H as <- <-; split; [reflexivity|intros y [<-|[]]; exact I]]|]). destruct v; discriminate.
  - intros s Hs. cbn. pose proof (fun v t H => Hs v t H) as E.
    assert (X : forall v t, nth_error after v = Some t -> s v = interp s t) by exact Hs. clear Hs.
    repeat (match goal with |- context [s ?v] => first [
       (let H := fresh in pose proof (X v _ eq_refl) as H; cbn in H; match type of H with s ?v = s ?v => fail 1 | _ => rewrite H end)] end; try reflexivity).
Qed.

(** * A class above itself *)
Definition loop_decls : decls := {|
  classes := fun cl => if (cl =? 3)%N then {| k_params := [9%N]; k_supers := [con_ 500 3 [gen_ 9]]%N |} else {| k_params := []; k_supers := [] |};
  instances := fun _ => {| i_params := []; i_s_params := []; i_target := con_ 0 4 [] |}%N;
  available := fun _ => [];
  module_of := fun _ => 0%N;
  here := 0%N |}.

Lemma loop_forever n : forall pool pr id path, install loop_decls n (pool, pr) id path 3%N [i32] = OutOfFuel.
Proof.
  induction n as [|n IH]; intros pool pr id path; [reflexivity|]. cbn [install]. cbn [classes loop_decls N.eqb Pos.eqb].
  assert (A : apply_class n pool {| k_params := [9%N]; k_supers := [con_ 500 3 [gen_ 9]]%N |} [i32] = OutOfFuel \/
              apply_class n pool {| k_params := [9%N]; k_supers := [con_ 500 3 [gen_ 9]]%N |} [i32] = Ret ({| k_params := [9%N]; k_supers := [con_ 500 3 [i32]]%N |}, pool)).
  { destruct n as [|[|n]]; cbn; auto. }
  destruct A as [->| ->]; cbn [bind]; [reflexivity|]. cbn [k_supers]. cbn [c_id c_class c_args con_]. rewrite IH. reflexivity.
Qed.

Lemma loop_declared : declared xenv xpool xts loop_decls.
Proof.
  split; [|split].
  - intros cl. cbn [classes loop_decls]. destruct (cl =? 3)%N; (split; [nodup|]); cbn; repeat (constructor; [dc|]); constructor.
  - intros i. cbn. split; [nodup|]. split; [dc|constructor].
  - intros cl i [].
Qed.

Lemma hierarchy_self : exists env pool ts D cs c, reachable env pool ts /\ declared env pool ts D /\ constraint_ok env pool ts D c /\
  NoDup (map fst cs) /\ (forall cl, In (cl, map c_class (k_supers (classes D cl))) cs \/ k_supers (classes D cl) = []) /\
  verify_classes_hierarchy cs = Ret Ok /\ forall n, install_all D n (pool, []) [c] = OutOfFuel.
Proof.
  exists xenv, xpool, xts, loop_decls, [(3, [3])]%N, (con_ 501 3 [i32])%N. split; [exact xreach|]. split; [exact loop_declared|]. split; [okc|]. split; [nodup|].
  split; [|split; [vm_compute; reflexivity|]].
  - intros cl. cbn [classes loop_decls]. destruct (N.eqb_spec cl 3) as [->|_]; [left; left; reflexivity|right; reflexivity].
  - intros n. cbn [install_all con_ c_id c_class c_args]. rewrite loop_forever. reflexivity.
Qed.
