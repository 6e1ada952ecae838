From Coq Require Import NArith Lia.
From Verif.Base Require Import Base.
From Verif.Utf8 Require Import Model Spec.
From Verif.Strings Require Import Model Spec.
Local Open Scope N_scope.
Local Open Scope list_scope.

(** "aéaéaé", and "éa" *)
Definition s6 : list N := flat_map utf8 [97; 233; 97; 233; 97; 233].
Definition ea : list N := flat_map utf8 [233; 97].

Example s6_string : is_string s6 /\ is_string ea /\ fits s6 /\ ea <> [].
Proof.
  refine (conj _ (conj _ (conj _ _))); [exists [97; 233; 97; 233; 97; 233]|exists [233; 97]| |discriminate].
  1,2: split; [repeat constructor; lia|reflexivity].
  vm_compute. reflexivity.
Qed.

Example s6_found : find ea s6 = Ret (Some 1%nat) /\ contains ea s6 = Ret true /\ find (utf8 98) s6 = Ret None.
Proof. repeat split; reflexivity. Qed.

Example s6_split : split ea s6 = Ret [[97]; []; [195; 169]] /\ join ea [[97]; []; [195; 169]] = s6.
Proof. split; reflexivity. Qed.

Example s6_replaced : replace ea [120] s6 = Ret [97; 120; 120; 195; 169] /\ replace [] [120] ea = Ret [120; 195; 169; 120; 97; 120].
Proof. split; reflexivity. Qed.

(** "aaa" by "aa": the left one is found *)
Example overlapping : split [97; 97] [97; 97; 97] = Ret [[]; [97]].
Proof. reflexivity. Qed.

Example s6_substring : substring 1 3 s6 = Ret [195; 169] /\ substring 2 3 s6 = Panic /\ substring 3 1 s6 = Panic /\
  take 3 s6 = Ret [97; 195; 169] /\ skip 100 s6 = Ret [] /\ skip 2 s6 = Panic.
Proof. repeat split; reflexivity. Qed.

Example s6_between : between [97; 233; 97] 1 /\ ~ between [97; 233; 97] 2.
Proof.
  split.
  - now exists [97], [233; 97].
  - intros (a & b & E & L). destruct a as [|x [|y a]]; cbn in L; [discriminate| |].
    + injection E as <- _. discriminate.
    + injection E as <- <- E. cbn in L. discriminate.
Qed.

(** "a\r\nb\n\nc\r" *)
Example some_lines : split_lines [97; 13; 10; 98; 10; 10; 99; 13] = Ret [[97]; [98]; []; [99; 13]] /\
  split_lines [97; 10] = Ret [[97]] /\ split_lines [] = Ret [].
Proof. repeat split; reflexivity. Qed.

Example removed : remove_start 10 [97] [97; 97; 98; 97] = Ret [98; 97] /\ remove_end 10 [97; 98] [97; 98; 97; 98] = Ret [].
Proof. split; reflexivity. Qed.

Example reversed : reverse [97; 98; 99] = [99; 98; 97].
Proof. reflexivity. Qed.

Example ordered : compare ea [97] = Ret Gt /\ compare [97] [97; 98] = Ret Lt /\ compare s6 s6 = Ret Eq.
Proof. repeat split; reflexivity. Qed.

Example joined_split : Forall (fun x => Forall known x /\ ~ In 44 x) [[97]; []; [233]].
Proof. repeat constructor; cbn; try lia; intuition discriminate. Qed.

Example bytes_checked : from_bytes [195] = Panic /\ from_bytes_opt [195; 169] = Some [195; 169] /\ consume 1 s6 = Ret ([97], [195; 169; 97; 195; 169; 97; 195; 169]).
Proof. repeat split; reflexivity. Qed.
