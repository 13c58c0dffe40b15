(* src/mqt/qecc/analog_information_decoding/utils/simulation_utils.py:125-161: the values that initialise the virtual
   nodes of the analog Tanner graph.  Floats are reals: overflow of exp is not modelled. *)
From Coq Require Import Reals List.
Import ListNotations.
Local Open Scope R_scope.

(* 125-129 get_analog_llr *)
Definition get_analog_llr (analog_syndrome : list R) (sigma : R) : list R :=
  if Rle_dec sigma 0 then map (fun _ => 0) analog_syndrome
  else map (fun y => (2 * y) / (sigma * sigma)) analog_syndrome.
(* 152-161 get_virtual_check_init_vals *)
Definition get_virtual_check_init_vals (noisy_syndr : list R) (sigma : R) : list R :=
  if Rle_dec sigma 0 then map (fun _ => 0) noisy_syndr
  else map (fun l => 1 / (exp (Rabs l) + 1)) (get_analog_llr noisy_syndr sigma).
