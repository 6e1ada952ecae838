(** C39: loading. *)
From Verif.Base Require Import Base.
From Verif.Path Require Import Model Spec.
From Verif.Loader Require Import Model Spec Proofs.

(** After any history of registrations, a path loads exactly what the history says. *)
Theorem load_exact :
  forall (A : Type) (rs : list (@request A)) (p : path) (x : loaded),
    load (register_all rs) p = x <-> denotes rs p x.
Proof. exact (fun A rs p x => conj (fun E => eq_ind _ (denotes rs p) (load_sound rs p) _ E) (load_complete rs p x)). Qed.
Print Assumptions load_exact.

(** In a file system package distinct modules whose last part has no dot come from distinct files. *)
Theorem module_file_injective_partial :
  forall (root : list text) (m1 m2 : module_name), valid_module m1 -> valid_module m2 ->
    plain m1 -> plain m2 -> module_file root m1 = module_file root m2 -> m1 = m2.
Proof. exact module_file_inj. Qed.
Print Assumptions module_file_injective_partial.

(** Without that restriction it is false: the extension replaces what follows the last dot. *)
Theorem module_file_injective_refuted :
  exists (root : list text) (m1 m2 : module_name), valid_module m1 /\ valid_module m2 /\ m1 <> m2 /\
    module_file root m1 = module_file root m2.
Proof. exact module_file_collides. Qed.
Print Assumptions module_file_injective_refuted.

(** Non-vacuity. *)
Example load_example :
  let std := Some (t_ "std") in
  let rs := [AddSource {| package := std; module := [t_ "a"] |} 1; AddPackage None (FileSystem [t_ "home"]);
             AddPackage std (FileSystem []); AddSource {| package := std; module := [t_ "a"] |} 2]%N in
  load (register_all rs) {| package := std; module := [t_ "a"] |} = Source 2%N /\
  load (register_all rs) {| package := std; module := [] |} = ModuleNotFound /\
  load (register_all rs) {| package := None; module := [t_ "x"; t_ "y"] |} = File [t_ "home"; t_ "x"; t_ "y.llrl"] /\
  load (register_all rs) {| package := Some (t_ "z"); module := [] |} = PackageNotFound.
Proof. repeat split; reflexivity. Qed.
Example plain_example : plain [t_ "persistent"; t_ "ord-map"] /\ valid_module [t_ "persistent"; t_ "ord-map"].
Proof.
  split; [right; cbn; intros H; repeat destruct H as [H|H]; try discriminate; assumption|].
  right; exists [t_ "persistent"; t_ "ord-map"]; reflexivity.
Qed.
