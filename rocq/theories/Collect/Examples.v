(** A program of four modules, and one with a cycle. *)
From Verif.Base Require Import Base.
From Verif.Lexer Require Import Model.
From Verif.Sexp Require Import Model.
From Verif.Path Require Import Model Facts.
From Verif.Collect Require Import Model Spec.

Definition e (r : srep) : sexp := Sexp (location_new, location_new) r.
Definition sym (s : string) : sexp := e (RSymbol (t_ s)).
Definition import_ (s : string) : sexp := e (RList [sym "import"; e (RString (t_ s)); sym "_"]).
Definition no_std : sexp := e (RList [sym "no-implicit-std"]).
Definition pkg (p : string) (m : string) : path := {| package := Some (t_ p); module := [t_ m] |}.

Definition files : list (path * list sexp) :=
  [(builtin_path, [no_std]); (std_path, [no_std]);
   (pkg "app" "main", [import_ "~/lib"; import_ "app/lib"]);
   (pkg "app" "lib", [no_std; sym "body"]);
   (pkg "app" "x", [import_ "~/y"]); (pkg "app" "y", [import_ "~/x"])].
Definition load_files (p : path) : loaded :=
  match find (fun f => path_eqb p (fst f)) files with
  | Some (_, ss) => {| code := Some ss; load_errors := [] |}
  | None => {| code := None; load_errors := [LoadError] |}
  end.
(** Threads taking turns. *)
Definition turns : list thread := List.concat (repeat (Main :: map Task (seq 0 5)) 12).
Definition collected (inputs : list path) : list source :=
  match exec load_files turns (start inputs) with Ret s => result s | _ => [] end.
Definition paths_of (l : list source) : list path := map (fun src => s_path (base src)) l.

Lemma load_files_errors : forall p, code (load_files p) = None -> load_errors (load_files p) <> [].
Proof. intros p. unfold load_files. destruct (find _ files) as [(q, ss)|]; cbn; [discriminate|intros _ H; discriminate]. Qed.
Lemma program_case : exists s, exec load_files turns (start [pkg "app" "main"]) = Ret s /\ complete s /\
  paths_of (result s) = [pkg "app" "lib"; pkg "app" "main"; builtin_path; std_path] /\
  (forall x, In x (result s) -> errors x = []) /\
  exists l, dependencies_order (result s) = Ret (inl l) /\ paths_of l = [builtin_path; pkg "app" "lib"; std_path; pkg "app" "main"].
Proof.
  eexists. split; [vm_compute; reflexivity|]. split; [split; [reflexivity|]|split; [reflexivity|split]].
  - intros t H. cbn in H. repeat (destruct H as [<-|H]; [reflexivity|]). destruct H.
  - intros x H. cbn in H. repeat (destruct H as [<-|H]; [reflexivity|]). destruct H.
  - eexists. split; [vm_compute; reflexivity|]. vm_compute. reflexivity.
Qed.
Lemma cycle_case : dependencies_order (collected [pkg "app" "x"]) = Ret (inr [pkg "app" "y"; pkg "app" "x"]).
Proof. vm_compute. reflexivity. Qed.
