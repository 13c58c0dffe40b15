(** * EccEnds: the round of the 9-qubit Shor code puts any state into the code (a long computation) *)
From Verif Require Export EccEnc2.
Lemma s9_ends : ends 17 (roundWords 9 8 []) s9stabs s9rest = true. Proof. vm_cast_no_check (eq_refl true). Qed.
