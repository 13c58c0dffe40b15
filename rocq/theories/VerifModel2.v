(** * VerifModel2: heuristic_verification_stabilizers, gate_optimal_verification_stabilizers of
    src/mqt/qecc/ft_stateprep/state_prep.py *)
From Verif Require Export FaultModel SearchModel.
Local Open Scope nat_scope.
Local Open Scope py_scope.

(** compute_fault_sets, state_prep.py 68-71; the object holds a pair of caches, for X and for Z errors *)
Definition compute_fault_sets lin opt (s : spc) (reduce : bool) (kk : cache * cache) : py (cache * cache) :=
  do a <- compute_fault_set lin opt s true reduce (max_errors s) (fst kk);
  do b <- compute_fault_set lin opt s false reduce (max_errors s) (snd kk);
  Ret (fst a, fst b).
Definition cache_of (x_errors : bool) (kk : cache * cache) : cache := if x_errors then fst kk else snd kk.
(** state_prep.py 597-604 and 797-804 (combine_faults calls compute_fault_sets again, which only reads the caches then) *)
Definition fault_sets_for lin opt (s : spc) (x_errors : bool) (additional : option mat) (kk : cache * cache) : py ((cache * cache) * list (option mat)) :=
  do kk <- compute_fault_sets lin opt s true kk;
  match additional with
  | Some faults => do kk <- compute_fault_sets lin opt s true kk; do sets <- combine_faults opt s x_errors faults (cache_of x_errors kk); Ret (kk, sets)
  | None => Ret (kk, k_sets (cache_of x_errors kk))
  end.
Definition orth_checks (s : spc) (x_errors : bool) : mat := if x_errors then sp_zc s else sp_xc s.
Definition of_py {A} (r : py A) : outcome A := match r with Ret a => Done a | Raise e => Failed e end.
Definition obind {A B} (r : outcome A) (f : A -> outcome B) : outcome B := match r with Done a => f a | Failed e => Failed e | Unfinished => Unfinished end.

(** heuristic_verification_stabilizers, state_prep.py 778-817; the layers for 1, 2, .. errors *)
Fixpoint heuristic_layers (fuel : nat) ord (opt : cl_solver) (checks : mat) (fcl : bool) (max_sets : nat) (sets : list (option mat)) : outcome (list (list vec)) :=
  match sets with
  | [] => Done []
  | None :: _ => Failed AssertionError
  | Some faults :: sets' =>
      obind (match faults with [] => Done [] | _ => heuristic_layer fuel ord opt faults checks fcl max_sets end) (fun layer =>
      obind (heuristic_layers fuel ord opt checks fcl max_sets sets') (fun layers => Done (layer :: layers)))
  end.
Definition heuristic_verification_stabilizers (fuel : nat) lin ord (opt : cl_solver) (s : spc) (x_errors : bool) (max_sets : nat) (fcl : bool) (additional : option mat)
  (kk : cache * cache) : outcome ((cache * cache) * list (list vec)) :=
  obind (of_py (fault_sets_for lin opt s x_errors additional kk)) (fun r =>
  obind (heuristic_layers fuel ord opt (orth_checks s x_errors) fcl max_sets (firstn (max_errors s) (skipn 1 (snd r)))) (fun layers => Done (fst r, layers))).

(** gate_optimal_verification_stabilizers, state_prep.py 570-692.  The solver may answer differently at each call; [late] as in
    [world].  The state is the number of calls made so far. *)
Record env := mkEnv { e_solver : nat -> vs_solver; e_late : nat -> Z -> bool }.
Definition cnot_world (e : env) (n : nat) (checks faults : mat) (num_anc : nat) : world (list vec) :=
  mkWorld (fun k p => Ret (verification_stabilizers (e_solver e k) n checks faults num_anc (Z.to_nat p))) (e_late e).
Definition anc_world (e : env) (n : nat) (checks faults : mat) (num_cnots : nat) : world (list vec) :=
  mkWorld (fun k a => Ret (verification_stabilizers (e_solver e k) n checks faults (Z.to_nat a) num_cnots)) (e_late e).
Fixpoint min_list (m : nat) (l : list nat) : nat := match l with [] => m | x :: l' => min_list (Nat.min m x) l' end.
(** one layer; [None]: nothing found and the whole function returns [] (643-646) *)
Definition optimal_layer (fuel : nat) (e : env) (n : nat) (checks : mat) (max_anc : nat) (tmin tmax : Z) (faults : mat) (k : nat) : outcome (nat * option (list vec)) :=
  match map weight checks with
  | [] => Failed ValueError
  | w0 :: ws =>
    let lo := Z.of_nat (min_list w0 ws) in let hi := Z.of_nat (list_sum (w0 :: ws)) in
    obind (iterative_search_with_timeout fuel (cnot_world e n checks faults max_anc) k lo hi tmin tmax) (fun r =>
    match r with
    | (k, (None, _)) => Done (k, None)
    | (k, (Some ms, p)) =>
        let ms := filter (fun m => 0 <? weight m) ms in
        obind (descend fuel (cnot_world e n checks faults (length ms)) k (Some 0%Z) ms p tmax) (fun r2 =>
        let '(k, (ms2, p)) := r2 in
        obind (descend fuel (anc_world e n checks faults (Z.to_nat p)) k (Some 0%Z) ms2 (Z.of_nat (length ms)) tmax) (fun r3 =>
        Done (fst r3, Some (fst (snd r3)))))
    end)
  end.
Fixpoint optimal_layers (fuel : nat) (e : env) (n : nat) (checks : mat) (max_anc : nat) (tmin tmax : Z) (sets : list (option mat)) (k : nat) : outcome (nat * option (list (list vec))) :=
  match sets with
  | [] => Done (k, Some [])
  | None :: _ => Failed AssertionError
  | Some [] :: sets' =>
      obind (optimal_layers fuel e n checks max_anc tmin tmax sets' k) (fun r => Done (fst r, option_map (cons []) (snd r)))
  | Some faults :: sets' =>
      obind (optimal_layer fuel e n checks max_anc tmin tmax faults k) (fun r =>
      match r with
      | (k, None) => Done (k, None)
      | (k, Some layer) => obind (optimal_layers fuel e n checks max_anc tmin tmax sets' k) (fun r => Done (fst r, option_map (cons layer) (snd r)))
      end)
  end.
Definition gate_optimal_verification_stabilizers (fuel : nat) lin (opt : cl_solver) (e : env) (s : spc) (x_errors : bool) (tmin tmax : Z) (max_anc : option nat)
  (additional : option mat) (kk : cache * cache) : outcome ((cache * cache) * list (list vec)) :=
  let checks := orth_checks s x_errors in
  obind (of_py (fault_sets_for lin opt s x_errors additional kk)) (fun r =>
  obind (optimal_layers fuel e (sp_n s) checks (match max_anc with Some a => a | None => length checks end) tmin tmax (firstn (max_errors s) (skipn 1 (snd r))) 0) (fun l =>
  Done (fst r, match snd l with Some layers => layers | None => [] end))).
