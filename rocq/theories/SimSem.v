(** * SimSem: specification of the stim circuit: records, noise-free execution, which circuits it represents *)
From Verif Require Export SimModel FlagPauli2.
Local Open Scope nat_scope.

(** the measurement record of a stim circuit: the measured qubits and whether in the X basis *)
Definition records (ops : list sop) : list (nat * bool) := flat_map (fun o => match o with SMR q => [(q, false)] | SMRX q => [(q, true)] | _ => [] end) ops.
(** flipq qubit q *)
Definition flipq (q : nat) (psi : state) : state := fun x => psi (set_nth q (negb (nth q x false)) x).
(** execution without noise, for given records; amplitudes up to a common positive factor.  Measured qubits are reset *)
Fixpoint sexec (ops : list sop) (outs : list bool) (psi : state) : state :=
  match ops with
  | [] => psi
  | SH q :: l => sexec l outs (apply_gate psi (GH q))
  | SCX c t :: l => sexec l outs (apply_gate psi (GCX c t))
  | SMR q :: l => let phi := project q (hd false outs) psi in sexec l (tl outs) (if hd false outs then flipq q phi else phi)
  | SMRX q :: l => let phi := project q (hd false outs) (apply_gate psi (GH q)) in sexec l (tl outs) (apply_gate (if hd false outs then flipq q phi else phi) (GH q))
  | _ :: l => sexec l outs psi
  end.
(** what happens on the wire of a qubit: the qubit is still |0>, is |+> and not used yet, is in use, has been measured; or something unsupported happened *)
Inductive wst := Fresh | Pend | Live | Off | Bad.
Definition qstep (q : nat) (st : wst) (i : ins) : wst :=
  match i with
  | IH r => if r =? q then match st with Fresh => Pend | Live => Live | _ => Bad end else st
  | ICX c t => if c =? q then match st with Fresh | Pend | Live => Live | _ => Bad end
               else if t =? q then match st with Fresh | Live => Live | _ => Bad end else st
  | IM r _ => if r =? q then match st with Fresh | Live | Off => Off | _ => Bad end else st
  end.
(** supported circuits: a Hadamard on an unused qubit is the only one before its first CNOT, whose control it is; nothing but measurements follows a measurement *)
Definition simulable (n : nat) (circ : list ins) : Prop := forall q, q < n -> let st := fold_left (qstep q) circ Fresh in st <> Bad /\ st <> Pend.
(** orders of the same circuit *)
Definition independent (i j : ins) : Prop := forall q, In q (qubits i) -> ~ In q (qubits j).
Inductive exchange : list ins -> list ins -> Prop :=
| ex_refl l : exchange l l
| ex_swap a i j b : independent i j -> exchange (a ++ i :: j :: b) (a ++ j :: i :: b)
| ex_trans l1 l2 l3 : exchange l1 l2 -> exchange l2 l3 -> exchange l1 l3.
(** the contract of circuit_to_dag(circ).layers() *)
Definition layers_of (circ : list ins) (layers : list (list ins)) : Prop := exchange circ (concat layers).
(** the noise model: initialisations, gates, measurements and idling *)
Inductive noisy (p : Q) : list sop -> Prop :=
| ny_nil : noisy p []
| ny_init0 l q : noisy p l -> noisy p (l ++ [SXerr q (2 * p / 3)])
| ny_initp l q : noisy p l -> noisy p (l ++ [SH q; SZerr q (2 * p / 3)])
| ny_h l q : noisy p l -> noisy p (l ++ [SH q; SDep1 q (2 * p / 3)])
| ny_cx l c t : noisy p l -> noisy p (l ++ [SCX c t; SDep2 c t p])
| ny_m l q : noisy p l -> noisy p (l ++ [SXerr q (2 * p / 3); SMR q])
| ny_idle l q : noisy p l -> noisy p (l ++ [SDep1 q (2 * p / 3)]).
Definition measured_qubits (l : list ins) : list nat := map fst (meas_bits l).
Definition cx_targets (l : list ins) : list nat := flat_map (fun i => match i with ICX _ t => [t] | _ => [] end) l.
(** Pauli noise: one choice of errors (X and Z on the first qubit, X and Z on the second one) per noise operation, in their order *)
Definition zflip (q : nat) (psi : state) : state := fun x => if nth q x false then (- psi x)%Z else psi x.
Definition pauli_at (q : nat) (x z : bool) (psi : state) : state := let phi := if z then zflip q psi else psi in if x then flipq q phi else phi.
Record choice := mkC { c_x : bool; c_z : bool; c_x2 : bool; c_z2 : bool }.
Definition no_error : choice := mkC false false false false.
(** the execution for given records and given errors *)
Fixpoint nexec (ops : list sop) (errs : list choice) (outs : list bool) (psi : state) : state :=
  match ops with
  | [] => psi
  | SH q :: l => nexec l errs outs (apply_gate psi (GH q))
  | SCX c t :: l => nexec l errs outs (apply_gate psi (GCX c t))
  | SMR q :: l => let phi := project q (hd false outs) psi in nexec l errs (tl outs) (if hd false outs then flipq q phi else phi)
  | SMRX q :: l => let phi := project q (hd false outs) (apply_gate psi (GH q)) in nexec l errs (tl outs) (apply_gate (if hd false outs then flipq q phi else phi) (GH q))
  | SXerr q _ :: l => nexec l (tl errs) outs (pauli_at q (c_x (hd no_error errs)) false psi)
  | SZerr q _ :: l => nexec l (tl errs) outs (pauli_at q false (c_z (hd no_error errs)) psi)
  | SDep1 q _ :: l => nexec l (tl errs) outs (pauli_at q (c_x (hd no_error errs)) (c_z (hd no_error errs)) psi)
  | SDep2 c t _ :: l => nexec l (tl errs) outs (pauli_at t (c_x2 (hd no_error errs)) (c_z2 (hd no_error errs)) (pauli_at c (c_x (hd no_error errs)) (c_z (hd no_error errs)) psi))
  end.
(** a record that the noisy circuit, started in |0..0>, can produce with the given errors *)
Definition possible (ops : list sop) (errs : list choice) (rec : list bool) : Prop :=
  length rec = length (records ops) /\ exists x, length x = num_qubits ops /\ nexec ops errs rec (zero_ket (num_qubits ops)) x <> 0%Z.
