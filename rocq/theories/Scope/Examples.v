(** Concrete cases for the scope and port theorems. *)
From Verif.Base Require Import Base BaseFacts Assoc.
From Verif.Lexer Require Import Model.
From Verif.Sexp Require Import Model.
From Verif.Scope Require Import Model Spec Proofs ProofsPort.

Definition at0 : srcloc := (location_new, location_new).
Definition sym (s : string) : sexp := Sexp at0 (RSymbol (t_ s)).
Definition str (s : string) : sexp := Sexp at0 (RString (t_ s)).
Definition lst (ss : list sexp) : sexp := Sexp at0 (RList ss).
Definition con (k : N) : located := {| loc := at0; construct := k |}.

Definition shadowing : list op :=
  [Define (t_ "x") (con 1); Enter; Define (t_ "x") (con 2); Define (t_ "y") (con 3); Enter; Define (t_ "x") (con 4); Get (t_ "x"); Get (t_ "y");
   Leave; Get (t_ "x"); Leave; Get (t_ "x"); Get (t_ "y"); Enter; Define (t_ "z") (con 5); Define (t_ "z") (con 6)].
Lemma shadowing_case : session (fun t => t) shadowing new_scopes =
  Ret [Done; Done; Done; Done; Done; Done; Got (Some (con 4)); Got (Some (con 3)); Done; Got (Some (con 2)); Done; Got (Some (con 1)); Got None;
       Done; Done; Failed (DuplicatedIdentifier (t_ "z") (con 5) (con 6))].
Proof. vm_compute. reflexivity. Qed.

Definition vec_exports : table := [(t_ "vec-push", con 10); (t_ "vec-pop", con 11); (t_ "vec-", con 12); (t_ "len", con 13)].
Definition std_exports : table := [(t_ "len", con 20); (t_ "map", con 21)].
Definition finder (p : text) : option module := if text_eqb p (t_ "vec") then Some (7%N, vec_exports) else None.
Definition import_code : list sexp := [lst [sym "import"; str "vec"; lst [sym "v/_"; sym "vec-_"]; sym "len"]; lst [sym "f"]].
Lemma import_case : exists top, import_run (@rev _) finder (Some 0%N) (Some (1%N, std_exports)) at0 import_code [] = Ret (top, [0; 7; 1]%N, Ok tt) /\
  map (fun n => option_map construct (hget (t_ n) top)) ["v/push"; "v/pop"; "v/"; "len"; "map"]%string = [Some 10; Some 11; None; Some 13; Some 21]%N.
Proof. eexists. split; vm_compute; reflexivity. Qed.
Lemma finder_nodup : forall p id es, finder p = Some (id, es) -> NoDup (keys es).
Proof.
  intros p id es. unfold finder. destruct (text_eqb p (t_ "vec")); [|discriminate]. intros E. injection E as _ <-. cbn.
  repeat (constructor; [cbn; intros H; repeat (destruct H as [H|H]; [discriminate|]); exact H|]). constructor.
Qed.
Lemma import_code_reachable : reachable finder import_code.
Proof.
  intros s p ts [<-|[<-|[]]] H; inversion H; subst. exists (7%N, vec_exports). vm_compute. reflexivity.
Qed.

Definition clash_code : list sexp := [lst [sym "export"; lst [sym "p-_"; sym "a-_"]; lst [sym "p-_"; sym "b-_"]]].
Definition clash_top : table := [(t_ "a-x", con 1); (t_ "b-x", con 2)].
Lemma clash_case : exists ex c c', export_run (fun t => t) clash_code clash_top [] = (ex, Err (ConflictingExports (t_ "x") c c')).
Proof. do 3 eexists. vm_compute. reflexivity. Qed.

Lemma no_such_export : forall c, ~ exported clash_code clash_top (t_ "x") c.
Proof.
  intros c (s & ts & t & x & [<-|[]] & Hf & Hin & (o & t0 & Ht & Hsel) & _). inversion Hf; subst. clear Hf.
  assert (Ho : o = Some (t_ "p-_")) by (destruct Hin as [<-|[<-|[]]]; inversion Ht; reflexivity). subst o. cbn [new_name] in Hsel.
  destruct Hsel as [(_ & _ & E)|(_ & r & _ & _ & Hst)]; [discriminate E|].
  assert (Hsh : shape (t_ "p-_") (StartsWith (t_ "p-"))) by (apply from_pattern_some; vm_compute; reflexivity).
  apply (stands_shape _ _ Hsh) in Hst. discriminate Hst.
Qed.

Lemma conflict_name_case : exists code top ex n c c', NoDup (keys top) /\ export_run (fun t => t) code top [] = (ex, Err (ConflictingExports n c c')) /\ forall k, ~ exported code top n k.
Proof.
  destruct clash_case as (ex & c & c' & E). exists clash_code, clash_top, ex, (t_ "x"), c, c'. split; [|split; [exact E|exact no_such_export]].
  repeat (constructor; [cbn; intros H; repeat (destruct H as [H|H]; [discriminate|]); exact H|]). constructor.
Qed.

Lemma export_case : let code := [lst [sym "export"; sym "_"; lst [sym "q"; sym "a"]]] in let top := [(t_ "a", con 1); (t_ "b", con 2)] in
  exists ex, export_run (@rev _) code top [] = (ex, Ok tt) /\ map (fun n => option_map construct (hget (t_ n) ex)) ["a"; "b"; "q"; "_"]%string = [Some 1; Some 2; Some 1; None]%N.
Proof. eexists. split; vm_compute; reflexivity. Qed.
