(** * FaultModel: fault sets of src/mqt/qecc/ft_stateprep/state_prep.py (StatePrepCircuit) *)
From Verif Require Export VerifModel.
Local Open Scope nat_scope.
Local Open Scope py_scope.

(** ** Circuit DAG.  The operations of the front layer are those acting on no qubit used before. *)
Definition gate_qubits (g : gate) : list nat := match g with GH q => [q] | GCX c t => [c; t] end.
(** state_prep.py 81-83: the operations left after removing the front layer, in circuit order *)
Fixpoint drop_front (used : list nat) (circ : list gate) : list gate :=
  match circ with
  | [] => []
  | g :: circ' =>
      let rest := drop_front (gate_qubits g ++ used) circ' in
      if existsb (fun q => existsb (Nat.eqb q) used) (gate_qubits g) then g :: rest else rest
  end.
(** node.qargs[1] of a Hadamard that is left raises IndexError (simplification: a Hadamard that is the first operation left
    would be tolerated for X errors; the circuits built by the library start with their only Hadamards) *)
Fixpoint cnots_of (circ : list gate) : py (list (nat * nat)) :=
  match circ with
  | [] => Ret []
  | GH _ :: _ => Raise IndexError
  | GCX c t :: circ' => do l <- cnots_of circ'; Ret ((c, t) :: l)
  end.
(** state_prep.py 1175-1195 *)
Definition prop1 (x_errors : bool) (e : vec) (p : nat * nat) : vec := if x_errors then cxv (fst p) (snd p) e else cxv (snd p) (fst p) e.
Definition propagate_error (n : nat) (x_errors : bool) (nodes : list (nat * nat)) : vec :=
  match nodes with
  | [] => vzero n
  | p :: rest => fold_left (prop1 x_errors) rest (unitv n (if x_errors then fst p else snd p))
  end.
(** state_prep.py 84-90 *)
Fixpoint single_faults (n : nat) (x_errors : bool) (nodes : list (nat * nat)) : mat :=
  match nodes with [] => [] | p :: rest => propagate_error n x_errors nodes :: single_faults n x_errors rest end.

(** np.unique(_, axis=0): sorted rows without repetition *)
Fixpoint vlt (a b : vec) : bool :=
  match a, b with
  | [], [] => false | [], _ => true | _, [] => false
  | x :: a', y :: b' => if Bool.eqb x y then vlt a' b' else negb x
  end.
Fixpoint vinsert (v : vec) (l : mat) : mat :=
  match l with [] => [v] | w :: l' => if veqb v w then l else if vlt v w then v :: l else w :: vinsert v l' end.
Definition np_unique (l : mat) : mat := fold_right vinsert [] l.

(** ** the object: __init__ 33-62 and _set_max_errors 179-194 *)
Record spc := mkSpc { sp_n : nat; sp_circ : list gate; sp_xc : mat; sp_zc : mat; sp_zero : bool; sp_d : Z; sp_dx : Z; sp_dz : Z; sp_detect : bool }.
Definition StatePrepCircuit (n : nat) (circ : list gate) (c : css) (zero_state detect : bool) : spc :=
  mkSpc n circ (if zero_state then nd_rows (css_Hx c) else css_Lx c ++ nd_rows (css_Hx c))
    (if zero_state then css_Lz c ++ nd_rows (css_Hz c) else nd_rows (css_Hz c)) zero_state
    (css_distance c) (css_xdist c) (css_zdist c) (detect || (css_distance c =? 2)%Z).
Definition half (detect : bool) (d : Z) : nat := Z.to_nat (if detect then d / 2 else (d - 1) / 2).
Definition max_errors (s : spc) : nat := half (sp_detect s) (sp_d s).

(** state_prep.py 1198-1212; the distances are positive *)
Definition max_weight (s : spc) (x_errors : bool) : nat :=
  let d_error := if x_errors then sp_dx s else sp_dz s in
  Z.to_nat (Z.max ((d_error - 1) / 2) 1 / Z.max ((sp_d s - 1) / 2) 1).
Definition remove_trivial_faults (opt : cl_solver) (faults stabs : mat) (max_w num_errors : nat) : mat :=
  np_unique (filter (fun f => max_w * num_errors <? weight f) (map (fun f => coset_leader opt f stabs) faults)).
(** state_prep.py 1215-1245.  [removed] marks indices; the ranks are those of the external package ldpc.mod2. *)
Fixpoint mark_equiv (n : nat) (stabs1 : mat) (l : list (vec * bool)) : list (vec * bool) :=
  match l with
  | [] => []
  | (f2, r) :: l' => (f2, r || (rk n (stabs1 ++ [f2]) =? rk n stabs1)) :: mark_equiv n stabs1 l'
  end.
Fixpoint rse_loop (fuel : nat) (n : nat) (stabs : mat) (l : list (vec * bool)) : mat :=
  match fuel, l with
  | S fuel', (f1, true) :: l' => rse_loop fuel' n stabs l'
  | S fuel', (f1, false) :: l' =>
      let ext1 := stabs ++ [f1] in
      if rk n ext1 =? rk n stabs then rse_loop fuel' n stabs l' else f1 :: rse_loop fuel' n stabs (mark_equiv n ext1 l')
  | _, _ => []
  end.
Definition remove_stabilizer_equivalent_faults (n : nat) (faults stabs : mat) : mat :=
  rse_loop (length faults) n stabs (map (fun f => (f, false)) faults).

(** ** caches: x_fault_sets / z_fault_sets and their unreduced versions, lists of length max_errors + 1 *)
Record cache := mkCache { k_sets : list (option mat); k_unred : list (option mat) }.
Definition cache0 (s : spc) : cache := mkCache (repeat None (S (max_errors s))) (repeat None (S (max_errors s))).
Definition sums (A B : mat) : mat := flat_map (fun a => map (fun b => vxor a b) B) A.
Definition stabs_of (s : spc) (x_errors : bool) : mat := if x_errors then sp_xc s else sp_zc s.
(** compute_fault_set 73-145 for one type of errors.  [lin] is dag.topological_op_nodes. For num_errors = 0 the indices
    -1, -2, .. are tried: with at most two entries in the lists this ends in an IndexError (only this case is modelled). *)
Fixpoint compute_fault_set (lin : list (nat * nat) -> list (nat * nat)) (opt : cl_solver) (s : spc) (x_errors : bool) (reduce : bool) (num_errors : nat) (k : cache)
  : py (cache * mat) :=
  match num_errors with
  | O => Raise IndexError
  | S pred =>
    match nth_error (k_sets k) num_errors with
    | None => Raise IndexError
    | Some (Some faults) => Ret (k, faults)
    | Some None =>
      do kf <- match pred with
               | O => do nodes <- cnots_of (drop_front [] (sp_circ s));
                      let faults := np_unique (single_faults (sp_n s) x_errors (lin nodes)) in
                      match lin nodes with
                      | [] => Raise ValueError (* np.vstack of a (0,) array and the identity *)
                      | _ => Ret (mkCache (k_sets k) (set_nth 1 (Some (faults ++ identity (sp_n s))) (k_unred k)), faults)
                      end
               | _ => do kf <- compute_fault_set lin opt s x_errors reduce pred k;
                      let k := fst kf in
                      match nth_error (k_unred k) pred, nth_error (k_unred k) 1 with
                      | Some (Some faults), Some (Some single) =>
                          let faults := np_unique (sums faults single) in
                          Ret (mkCache (k_sets k) (set_nth num_errors (Some faults) (k_unred k)), faults)
                      | _, _ => Raise AssertionError
                      end
               end;
      let k := fst kf in
      let faults := remove_trivial_faults opt (snd kf) (stabs_of s x_errors) (max_weight s x_errors) num_errors in
      let faults := if reduce then remove_stabilizer_equivalent_faults (sp_n s) faults (stabs_of s x_errors) else faults in
      Ret (mkCache (set_nth num_errors (Some faults) (k_sets k)) (k_unred k), faults)
    end
  end.

(** combine_faults 147-177 for one type of errors; [k] is the cache after compute_fault_sets *)
Fixpoint combine_loop (additional : mat) (i count : nat) (unred : list (option mat)) : py (list (option mat)) :=
  match count with
  | O => Ret unred
  | S count' =>
      match nth i unred None, nth (S i) unred None with
      | Some uncombined, Some next => combine_loop additional (S i) count' (set_nth (S i) (Some (next ++ sums uncombined additional)) unred)
      | _, _ => Raise AssertionError
      end
  end.
Definition combine_faults (opt : cl_solver) (s : spc) (x_errors : bool) (additional : mat) (k : cache) : py (list (option mat)) :=
  match additional with
  | [] => Ret (k_sets k)
  | _ =>
    match nth_error (k_unred k) 1 with
    | None => Raise IndexError
    | Some None => Raise AssertionError
    | Some (Some base) =>
      do unred <- combine_loop additional 1 (max_errors s - 1) (set_nth 1 (Some (base ++ additional)) (k_unred k));
      Ret (None :: map (fun num => match nth num unred None with
                                   | Some fs => Some (remove_trivial_faults opt fs (stabs_of s x_errors) (max_weight s x_errors) num)
                                   | None => None end) (seq 1 (max_errors s)))
    end
  end.
