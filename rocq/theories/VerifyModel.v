(** * VerifyModel: heuristic_verification_circuit and gate_optimal_verification_circuit (src/mqt/qecc/ft_stateprep/state_prep.py) with the fault-set caches of the circuit *)
From Verif Require Export FlagModel VerifModel2.
Local Open Scope nat_scope.

(** _verification_circuit, state_prep.py 695-715, with the caches (x/z_fault_sets of the StatePrepCircuit) that the two calls of the search share and change.
    [stabs x_errors additional caches] is verification_stabs_fun. *)
Definition verification_circuit_run (s : spc) (stabs : bool -> option mat -> cache * cache -> outcome ((cache * cache) * list (list vec))) (full_fault_tolerance : bool) (kk : cache * cache) : outcome qcirc :=
  obind (stabs (sp_zero s) None kk) (fun r1 =>
  let measurements_1 := concat (snd r1) in
  obind (if full_fault_tolerance then obind (stabs (negb (sp_zero s)) (Some (hook_errors measurements_1)) (fst r1)) (fun r2 => Done (concat (snd r2))) else Done []) (fun measurements_2 =>
  of_py (if sp_zero s then measure_ft_stabs s measurements_2 measurements_1 full_fault_tolerance else measure_ft_stabs s measurements_1 measurements_2 full_fault_tolerance))).
(** heuristic_verification_circuit, state_prep.py 753-775 *)
Definition heuristic_verification_circuit (fuel : nat) lin ord (opt : cl_solver) (s : spc) (max_covering_sets : nat) (find_coset_leaders full_fault_tolerance : bool) (kk : cache * cache) : outcome qcirc :=
  verification_circuit_run s (fun x additional => heuristic_verification_stabilizers fuel lin ord opt s x max_covering_sets find_coset_leaders additional) full_fault_tolerance kk.
(** gate_optimal_verification_circuit, state_prep.py 718-750; the solver and the timeouts may behave differently in the two searches *)
Definition gate_optimal_verification_circuit (fuel : nat) lin (opt : cl_solver) (e : bool -> env) (s : spc) (min_timeout max_timeout : Z) (max_ancillas : option nat) (full_fault_tolerance : bool) (kk : cache * cache) : outcome qcirc :=
  verification_circuit_run s (fun x additional => gate_optimal_verification_stabilizers fuel lin opt (e x) s x min_timeout max_timeout max_ancillas additional) full_fault_tolerance kk.
