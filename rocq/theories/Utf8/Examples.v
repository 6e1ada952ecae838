From Coq Require Import NArith Lia.
From Verif.Base Require Import Base.
From Verif.Utf8 Require Import Model Spec.
Local Open Scope N_scope.
Local Open Scope list_scope.

(** "aé€𛀀": one to four bytes *)
Definition sample : list N := [97; 233; 8364; 110592].

Example sample_known : Forall known sample.
Proof. repeat constructor; cbn; lia. Qed.

Example sample_bytes : flat_map utf8 sample = [97; 195; 169; 226; 130; 172; 240; 155; 128; 128].
Proof. reflexivity. Qed.

Example sample_encoded : map encode sample = [Some (Latin 97); Some (C2 195 169); Some (C3 226 130 172); Some (C4 240 155 128 128)].
Proof. reflexivity. Qed.

Example sample_valid : valid_sequence (flat_map utf8 sample) = true /\ chars (flat_map utf8 sample) = Ret sample /\
  char_indices (flat_map utf8 sample) = Ret [(0, 97); (1, 233); (3, 8364); (6, 110592)].
Proof. repeat split; reflexivity. Qed.

(** overlong, surrogate, cut, stray continuation, byte out of use *)
Example sample_invalid : map valid_sequence [[192; 128]; [237; 160; 128]; [226; 130]; [128]; [255]; [195; 97]] =
  [false; false; false; false; false; false].
Proof. reflexivity. Qed.

Example sample_boundaries : map (fun i => char_boundary i (flat_map utf8 sample)) [0; 1; 2; 3; 10; 11]%nat =
  [Ret true; Ret true; Ret false; Ret true; Ret true; Ret false].
Proof. reflexivity. Qed.

Example sample_lengths : map utf8_length sample = [Ret 1; Ret 2; Ret 3; Ret 4].
Proof. reflexivity. Qed.

Example surrogate_refused : encode 55296 = None /\ from_unicode_scalar 57343 = None /\ from_unicode_scalar 57344 = Some 57344.
Proof. repeat split; reflexivity. Qed.
