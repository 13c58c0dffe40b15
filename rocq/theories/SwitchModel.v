(** * SwitchModel: StatePrepCircuit.set_error_detection (src/mqt/qecc/ft_stateprep/state_prep.py 63-66) and histories that contain it *)
From Verif Require Export FaultSem2.
Local Open Scope nat_scope.

(** 63-66 with _set_max_errors 179-194: the flag (forced for distance 2), the numbers of errors that depend on it, and new empty caches *)
Definition set_error_detection (b : bool) (s : spc) : spc * (cache * cache) :=
  let s' := mkSpc (sp_n s) (sp_circ s) (sp_xc s) (sp_zc s) (sp_zero s) (sp_d s) (sp_dx s) (sp_dz s) (b || (sp_d s =? 2)%Z) in (s', (cache0 s', cache0 s')).
(** what a user does with the object: compute_fault_set(j, x_errors, reduce) (67-145) or set_error_detection(b) *)
Inductive op := Compute (x : bool) (j : nat) (reduce : bool) | Detect (b : bool).
Definition do_op lin opt (st : spc * (cache * cache)) (o : op) : spc * (cache * cache) :=
  match o with
  | Compute x j reduce => (fst st, call_one lin opt (fst st) (snd st) (x, j, reduce))
  | Detect b => set_error_detection b (fst st)
  end.
Definition object_after lin opt (s : spc) (ops : list op) : spc * (cache * cache) := fold_left (do_op lin opt) ops (s, (cache0 s, cache0 s)).
