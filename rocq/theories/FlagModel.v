(** * FlagModel: measurement gadgets and verified circuits of src/mqt/qecc/ft_stateprep/state_prep.py
    (w_flag_pattern, measure_flagged and its variants, _hook_errors, _measure_ft_x/z/stabs, _verification_circuit, naive_verification_circuit) *)
From Verif Require Export VerifModel2.
Local Open Scope nat_scope.
Local Open Scope py_scope.

(** A circuit of qiskit: Hadamards, CNOTs and measurements into a classical bit; the numbers of qubits and classical bits so far.
    New registers are appended. *)
Inductive ins := IH (q : nat) | ICX (c t : nat) | IM (q b : nat).
Record qcirc := mkQc { qc_ins : list ins; qc_nq : nat; qc_nc : nat }.
Definition emit (qc : qcirc) (l : list ins) : qcirc := mkQc (qc_ins qc ++ l) (qc_nq qc) (qc_nc qc).
(** add_register of an AncillaRegister(k) and of a ClassicalRegister(k) *)
Definition add_regs (qc : qcirc) (k : nat) : qcirc := mkQc (qc_ins qc) (qc_nq qc + k) (qc_nc qc + k).

(** state_prep.py 1260-1272; w - 4, w - 3 and w - 2 may be negative *)
Definition w_flag_pattern (w : Z) : list Z :=
  let js := map Z.of_nat (rev (seq 0 (Z.to_nat ((w - 4) / 2)))) in
  (map (fun j => 2 * j + 2) js ++ [w - 3; 0] ++ map (fun j => 2 * j + 1) js ++ [w - 2])%Z.

(** state_prep.py 1275-1294 (_flag_reset is never called) *)
Definition ancilla_cnot (z : bool) (q a : nat) : ins := if z then ICX q a else ICX a q.
Definition flag_measure (z : bool) (f b : nat) : list ins := (if z then [IH f] else []) ++ [IM f b].
Definition flag_init (z : bool) (f : nat) : list ins := if z then [IH f] else [].
(** state_prep.py 1297-1312; cx on empty lists of qubits raises CircuitError *)
Definition measure_stab_unflagged (qc : qcirc) (stab : list nat) (a b : nat) (z : bool) : py qcirc :=
  match stab with
  | [] => Raise CircuitError
  | _ => Ret (emit qc ((if z then map (fun q => ICX q a) stab else [IH a] ++ map (fun q => ICX a q) stab ++ [IH a]) ++ [IM a b]))
  end.
(** state_prep.py 1364-1396; stab[0] of an empty list raises.  stab[1:-1] is removelast (tl stab), stab[-1] is last. *)
Definition measure_stab_one_flagged (qc0 : qcirc) (stab : list nat) (a b : nat) (z : bool) : py qcirc :=
  let f := qc_nq qc0 in let m := qc_nc qc0 in
  let qc := add_regs qc0 1 in
  match stab with
  | [] => Raise IndexError
  | s0 :: rest =>
      Ret (emit qc ((if z then [] else [IH a]) ++ [ancilla_cnot z s0 a] ++ flag_init z f ++ [ancilla_cnot z f a] ++
        map (fun q => ancilla_cnot z q a) (removelast rest) ++ [ancilla_cnot z f a] ++ flag_measure z f m ++ [ancilla_cnot z (last stab 0) a] ++
        (if z then [] else [IH a]) ++ [IM a b]))
  end.
(** flag_reg[i] of a register of k flags starting at qubit f0 *)
Definition flag_at (f0 k i : nat) : py nat := if i <? k then Ret (f0 + i) else Raise IndexError.
(** state_prep.py 1432-1440: the loop over stab[2:-2]; [cnots] and [flags] are the counters; the flag measurement of flag i goes to bit m0 + i *)
Fixpoint two_flag_loop (z : bool) (a f0 m0 k w : nat) (qs : list nat) (cnots flags : nat) : py (list ins * (nat * nat)) :=
  match qs with
  | [] => Ret ([], (cnots, flags))
  | q :: qs' =>
      let cnots := S cnots in
      do l1 <- (if Nat.even cnots && (cnots <? w - 2) then do f <- flag_at f0 k flags; Ret (flag_init z f ++ [ancilla_cnot z f a]) else Ret []);
      do l2 <- (if (7 <=? cnots) && Nat.odd cnots then do f <- flag_at f0 k (flags - 1); Ret ([ancilla_cnot z f a] ++ flag_measure z f (m0 + (flags - 1))) else Ret []);
      do r <- two_flag_loop z a f0 m0 k w qs' cnots (S flags);
      Ret ([ancilla_cnot z q a] ++ l1 ++ l2 ++ fst r, snd r)
  end.
(** state_prep.py 1447-1449, 1455-1458 *)
Definition two_flag_close (z : bool) (a f0 m0 k cnots flags : nat) : py (list ins) :=
  if (7 <=? cnots) && Nat.odd cnots then do f <- flag_at f0 k (flags - 1); Ret ([ancilla_cnot z f a] ++ flag_measure z f (m0 + (flags - 1))) else Ret [].
(** state_prep.py 1399-1462 *)
Definition measure_stab_two_flagged (qc0 : qcirc) (stab : list nat) (a b : nat) (z : bool) : py qcirc :=
  let w := length stab in
  if w <=? 4 then Raise AssertionError else
  let k := (w + 1) / 2 - 1 in
  let f0 := qc_nq qc0 in let m0 := qc_nc qc0 in
  let qc := add_regs qc0 k in
  let cx q := ancilla_cnot z q a in
  do fl0 <- flag_at f0 k 0;
  do fl1 <- flag_at f0 k 1;
  do r <- two_flag_loop z a f0 m0 k w (firstn (w - 4) (skipn 2 stab)) 2 2;
  let '(body, (cnots, flags)) := r in
  do c1 <- two_flag_close z a f0 m0 k (S cnots) flags;
  do c2 <- two_flag_close z a f0 m0 k (S (S cnots)) flags;
  Ret (emit qc ((if z then [] else [IH a]) ++ [cx (nth 0 stab 0)] ++ flag_init z fl0 ++ [cx fl0] ++ [cx (nth 1 stab 0)] ++ flag_init z fl1 ++ [cx fl1] ++ body ++
    [cx fl0] ++ flag_measure z fl0 m0 ++ [cx (nth (w - 2) stab 0)] ++ c1 ++ [cx fl1] ++ flag_measure z fl1 (m0 + 1) ++ [cx (nth (w - 1) stab 0)] ++ c2 ++ (if z then [] else [IH a]) ++ [IM a b])).
(** state_prep.py 1465-1500 *)
Definition measure_flagged_4 (qc0 : qcirc) (stab : list nat) (a b : nat) (z : bool) : py qcirc :=
  if negb (length stab =? 4) then Raise AssertionError else
  let f := qc_nq qc0 in let m := qc_nc qc0 in let cx q := ancilla_cnot z q a in let s i := nth i stab 0 in
  Ret (emit (add_regs qc0 1) ((if z then [] else [IH a]) ++ [cx (s 0)] ++ flag_init z f ++ [cx f] ++ [cx (s 1); cx (s 2)] ++ [cx f] ++ flag_measure z f m ++ [cx (s 3)] ++
    (if z then [] else [IH a]) ++ [IM a b])).
(** state_prep.py 1503-1546 *)
Definition measure_flagged_6 (qc0 : qcirc) (stab : list nat) (a b : nat) (z : bool) : py qcirc :=
  if negb (length stab =? 6) then Raise AssertionError else
  let f i := qc_nq qc0 + i in let m i := qc_nc qc0 + i in let cx q := ancilla_cnot z q a in let s i := nth i stab 0 in
  Ret (emit (add_regs qc0 2) ((if z then [] else [IH a]) ++ [cx (s 0)] ++ flag_init z (f 0) ++ [cx (f 0)] ++ [cx (s 1)] ++ flag_init z (f 1) ++ [cx (f 1)] ++
    [cx (s 2); cx (s 3)] ++ [cx (f 0)] ++ flag_measure z (f 0) (m 0) ++ [cx (s 4)] ++ [cx (f 1)] ++ flag_measure z (f 1) (m 1) ++ [cx (s 5)] ++
    (if z then [] else [IH a]) ++ [IM a b])).
(** state_prep.py 1549-1599 *)
Definition measure_flagged_8 (qc0 : qcirc) (stab : list nat) (a b : nat) (z : bool) : py qcirc :=
  if negb (length stab =? 8) then Raise AssertionError else
  let f i := qc_nq qc0 + i in let m i := qc_nc qc0 + i in let cx q := ancilla_cnot z q a in let s i := nth i stab 0 in
  Ret (emit (add_regs qc0 3) ((if z then [] else [IH a]) ++ [cx (s 0)] ++ flag_init z (f 0) ++ [cx (f 0)] ++ [cx (s 1)] ++ flag_init z (f 1) ++ [cx (f 1)] ++
    [cx (s 2); cx (s 3)] ++ flag_init z (f 2) ++ [cx (f 2)] ++ [cx (s 4); cx (s 5)] ++ [cx (f 0)] ++ flag_measure z (f 0) (m 0) ++ [cx (s 6)] ++
    [cx (f 2)] ++ flag_measure z (f 2) (m 2) ++ [cx (f 1)] ++ flag_measure z (f 1) (m 1) ++ [cx (s 7)] ++
    (if z then [] else [IH a]) ++ [IM a b])).
(** state_prep.py 1315-1361 *)
Definition measure_flagged (qc : qcirc) (stab : list nat) (a b t : nat) (z : bool) : py qcirc :=
  let w := length stab in
  if t =? 1 then measure_stab_one_flagged qc stab a b z else
  if (w <? 3) && (t =? 2) then measure_stab_unflagged qc stab a b z else
  if (w =? 4) && (t =? 2) then measure_flagged_4 qc stab a b z else
  if (w =? 6) && (t =? 2) then measure_flagged_6 qc stab a b z else
  if (w =? 8) && (t =? 2) then measure_flagged_8 qc stab a b z else
  if t =? 2 then measure_stab_two_flagged qc stab a b z else
  Raise NotImplementedErr.

(** state_prep.py 1602-1612 *)
Definition hook_errors (stabs : mat) : mat := flat_map (fun stab => map (fun i => set_nth i false stab) (filter (fun i => nth i stab false) (seq 0 (length stab)))) stabs.

(** np.where(m != 0)[0] *)
Definition support (v : vec) : list nat := filter (fun i => nth i v false) (seq 0 (length v)).
(** the loops of state_prep.py 932-940 and 952-957 *)
Fixpoint meas_loop (one : qcirc -> list nat -> nat -> nat -> py qcirc) (a0 b0 i : nat) (ms : list vec) (qc : qcirc) : py qcirc :=
  match ms with
  | [] => Ret qc
  | v :: ms' => do qc' <- one qc (support v) (a0 + i) (b0 + i); meas_loop one a0 b0 (S i) ms' qc'
  end.
(** state_prep.py 923-940; the unflagged branch builds the same instructions as _measure_stab_unflagged *)
Definition measure_ft_x (qc : qcirc) (ms : list vec) (t : nat) (flags : bool) : py qcirc :=
  match ms with
  | [] => Ret qc
  | _ => meas_loop (fun qc s a b => if flags then measure_flagged qc s a b t false else measure_stab_unflagged qc s a b false) (qc_nq qc) (qc_nc qc) 0 ms (add_regs qc (length ms))
  end.
(** state_prep.py 943-958; all ancillas are measured at the end - with flags a second time *)
Definition measure_ft_z (qc : qcirc) (ms : list vec) (t : nat) (flags : bool) : py qcirc :=
  match ms with
  | [] => Ret qc
  | _ =>
      do qc' <- meas_loop (fun qc s a b => if flags then measure_flagged qc s a b t true else match s with [] => Raise CircuitError | _ => Ret (emit qc (map (fun q => ICX q a) s)) end)
                  (qc_nq qc) (qc_nc qc) 0 ms (add_regs qc (length ms));
      Ret (emit qc' (map (fun i => IM (qc_nq qc + i) (qc_nc qc + i)) (seq 0 (length ms))))
  end.
Definition ins_of (g : gate) : ins := match g with GH q => IH q | GCX c t => ICX c t end.
(** state_prep.py 186-194: max_x_errors, max_z_errors *)
Definition max_x_errors (s : spc) : nat := half (sp_detect s) (sp_dx s).
Definition max_z_errors (s : spc) : nat := half (sp_detect s) (sp_dz s).
(** state_prep.py 961-981 *)
Definition measure_ft_stabs (s : spc) (x_measurements z_measurements : list vec) (full_fault_tolerance : bool) : py qcirc :=
  let qc := mkQc (map ins_of (sp_circ s)) (sp_n s) 0 in
  if sp_zero s then
    do qc <- measure_ft_z qc z_measurements (max_x_errors s) false;
    if full_fault_tolerance then measure_ft_x qc x_measurements (max_x_errors s) true else Ret qc
  else
    do qc <- measure_ft_x qc x_measurements (max_z_errors s) false;
    if full_fault_tolerance then measure_ft_z qc z_measurements (max_z_errors s) true else Ret qc.
(** state_prep.py 695-715; [stabs x_errors additional] are the layers the search returns *)
Definition verification_circuit (s : spc) (stabs : bool -> option mat -> py (list (list vec))) (full_fault_tolerance : bool) : py qcirc :=
  do layers_1 <- stabs (sp_zero s) None;
  let m1 := concat layers_1 in
  do m2 <- (if full_fault_tolerance then do layers_2 <- stabs (negb (sp_zero s)) (Some (hook_errors m1)); Ret (concat layers_2) else Ret []);
  if sp_zero s then measure_ft_stabs s m2 m1 full_fault_tolerance else measure_ft_stabs s m1 m2 full_fault_tolerance.
(** state_prep.py 1248-1257 *)
Definition naive_verification_circuit (s : spc) (c : css) : py qcirc :=
  measure_ft_stabs s (concat (repeat (nd_rows (css_Hx c)) (max_errors s))) (concat (repeat (nd_rows (css_Hz c)) (max_errors s))) true.
