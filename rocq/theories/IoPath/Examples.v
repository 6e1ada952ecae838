From Coq Require Import NArith.
From Verif.Base Require Import Base.
From Verif.Utf8 Require Import Spec.
From Verif.Strings Require Import Spec ProofsOrder.
From Verif.IoPath Require Import Model Spec.
Local Open Scope list_scope.

Definition s (x : string) : list N := map (fun c => N.of_nat (Ascii.nat_of_ascii c)) (list_ascii_of_string x).
Lemma ascii x : forallb (fun c => N.ltb c 128) (s x) = true -> is_string (s x).
Proof.
  intro H. exists (s x). assert (F : Forall (fun c => c < 128)%N (s x)).
  { apply Forall_forall. intros c I. rewrite forallb_forall in H. apply N.ltb_lt, H, I. }
  split; [|symmetry; apply text_latin, F]. eapply Forall_impl; [|exact F]. intros c Hc. unfold known, scalar. cbn beta in Hc. lia.
Qed.

(** A path that meets the hypotheses, with all there is *)
Definition p : list N := s "../usr//./lib/foo.tar.gz//".
Example p_string : is_string p /\ fits p.
Proof. split; [apply ascii; reflexivity|reflexivity]. Qed.
Example p_components : components p = Ret [ParentDir; Normal (s "usr"); CurrentDir; Normal (s "lib"); Normal (s "foo.tar.gz")].
Proof. vm_compute. reflexivity. Qed.
Example p_located : located p (s "../usr//./lib/") (s "foo.tar.gz") (s "//").
Proof.
  split; [reflexivity|]. split; [vm_compute; intuition discriminate|]. split; [repeat constructor|].
  split; [right; exists (s "../usr//./lib"); reflexivity|discriminate].
Qed.
Example p_extension_ : has_extension (s "foo.tar.gz") (s "foo.tar") (s "gz").
Proof. split; [reflexivity|]. split; [discriminate|vm_compute; intuition discriminate]. Qed.
Example p_base : base_name p = Ret (s "foo.tar.gz"). Proof. vm_compute. reflexivity. Qed.
Example p_dir : dir_name p = Ret (s "../usr//./lib"). Proof. vm_compute. reflexivity. Qed.
Example p_extension : extension p = Ret (Some (s "gz")). Proof. vm_compute. reflexivity. Qed.
Example p_with : with_extension (Some (s "xz")) p = Ret (s "../usr//./lib/foo.tar.xz//"). Proof. vm_compute. reflexivity. Qed.
Example p_default : default_extension (s "c") (s "a/.b") = Ret (s "a/.b.c"). Proof. vm_compute. reflexivity. Qed.
Example p_canonical : canonicalize (s "/home/llrl") p = Ret (s "/home/usr/lib/foo.tar.gz"). Proof. vm_compute. reflexivity. Qed.
Example p_joined : path_of (s "/a/") [s "b"; s "../c"] = Ret (s "/a/b/../c") /\ canonicalized_path (s "/") [s "/a/"; s "b"; s "../c"] = Ret (s "/a/c").
Proof. split; vm_compute; reflexivity. Qed.
(** .. has the empty extension *)
Example dots_extension : extension (s "..") = Ret (Some []). Proof. vm_compute. reflexivity. Qed.
