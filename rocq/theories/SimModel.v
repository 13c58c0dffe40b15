(** * SimModel: class NoisyNDFTStatePrepSimulator of src/mqt/qecc/ft_stateprep/simulation.py (24-296)
    Probabilities and rates are rational numbers instead of floats. *)
From Coq Require Export QArith.
From Verif Require Export FlagModel LutModel.
Local Open Scope nat_scope.

(** the operations appended to the stim circuit; MR and MRZ are the same operation of stim *)
Inductive sop :=
| SH (q : nat) | SCX (c t : nat) | SMR (q : nat) | SMRX (q : nat)
| SXerr (q : nat) (p : Q) | SZerr (q : nat) (p : Q) | SDep1 (q : nat) (p : Q) | SDep2 (c t : nat) (p : Q).
Definition sop_qubits (o : sop) : list nat :=
  match o with SH q | SMR q | SMRX q | SXerr q _ | SZerr q _ | SDep1 q _ => [q] | SCX c t | SDep2 c t _ => [c; t] end.
(** stim's num_qubits: one more than the greatest qubit mentioned *)
Definition num_qubits (ops : list sop) : nat := list_max (map S (flat_map sop_qubits ops)).

(** the local variables of to_stim_circ and the attributes it changes *)
Record tst := mkT { t_ops : list sop; t_init : list bool; t_ctrls : list nat; t_targets : list nat; t_measured : list nat;
                    t_xv : list nat; t_zv : list nat; t_nm : nat; t_reused : nat; t_used : list nat }.
Definition isin (q : nat) (l : list nat) : bool := existsb (Nat.eqb q) l.
Definition put (s : tst) (l : list sop) : tst := mkT (t_ops s ++ l) (t_init s) (t_ctrls s) (t_targets s) (t_measured s) (t_xv s) (t_zv s) (t_nm s) (t_reused s) (t_used s).
Definition use (s : tst) (l : list nat) : tst := mkT (t_ops s) (t_init s) (t_ctrls s) (t_targets s) (t_measured s) (t_xv s) (t_zv s) (t_nm s) (t_reused s) (t_used s ++ l).
Definition set_init (s : tst) (q : nat) (b : bool) : tst := mkT (t_ops s) (set_nth q b (t_init s)) (t_ctrls s) (t_targets s) (t_measured s) (t_xv s) (t_zv s) (t_nm s) (t_reused s) (t_used s).
Definition inited (s : tst) (q : nat) : bool := nth q (t_init s) false.
(** simulation.py 106-110 *)
Definition idle_error (p : Q) (s : tst) (used : list nat) : tst :=
  put s (map (fun q => SDep1 q (2 * p / 3)) (filter (fun q => inited s q && negb (isin q used)) (seq 0 (length (t_init s))))).
(** 132-135, 153-156, 167-170 *)
Definition after_gate (p : Q) (parallel : bool) (s : tst) (qs : list nat) : tst := if negb parallel then idle_error p s qs else use s qs.
(** 140-146: initialise a control *)
Definition init_ctrl (p : Q) (s : tst) (c : nat) : tst :=
  if inited s c then s else set_init (put s (if isin c (t_ctrls s) then [SH c; SZerr c (2 * p / 3)] else [SXerr c (2 * p / 3)])) c true.
(** 147-149: initialise a target *)
Definition init_target (p : Q) (s : tst) (t : nat) : tst := if inited s t then s else set_init (put s [SXerr t (2 * p / 3)]) t true.
(** 124-173: one gate *)
Definition sim_gate (p : Q) (parallel : bool) (s : tst) (g : ins) : tst :=
  match g with
  | IH q =>
      let s := mkT (t_ops s) (t_init s) (t_ctrls s ++ [q]) (t_targets s) (t_measured s) (t_xv s) (t_zv s) (t_nm s) (t_reused s) (t_used s) in
      if inited s q then after_gate p parallel (put s [SH q; SDep1 q (2 * p / 3)]) [q] else s
  | ICX c t =>
      let s := mkT (t_ops s) (t_init s) (t_ctrls s) (t_targets s ++ [t]) (t_measured s) (t_xv s) (t_zv s) (t_nm s) (t_reused s) (t_used s) in
      let s := init_target p (init_ctrl p s c) t in
      after_gate p parallel (put s [SCX c t; SDep2 c t p]) [c; t]
  | IM a _ =>
      let s := put s [SXerr a (2 * p / 3); SMR a] in
      let isz := isin a (t_targets s) in
      let s := mkT (t_ops s) (t_init s) (t_ctrls s) (t_targets s) (t_measured s) (if isz then t_xv s else t_xv s ++ [t_nm s]) (if isz then t_zv s ++ [t_nm s] else t_zv s) (S (t_nm s)) (t_reused s) (t_used s) in
      let s := after_gate p parallel s [a] in
      let m := t_measured s ++ [a] in
      mkT (t_ops s) (set_nth a false (t_init s)) (t_ctrls s) (t_targets s) m (t_xv s) (t_zv s) (t_nm s) (if count_occ Nat.eq_dec m a =? 2 then S (t_reused s) else t_reused s) (t_used s)
  end.
(** 117-123 *)
Definition sim_layer (p : Q) (parallel : bool) (s : tst) (layer : list ins) : tst :=
  let s := if 0 <? length (t_used s) then idle_error p s (t_used s) else s in
  fold_left (sim_gate p parallel) layer (mkT (t_ops s) (t_init s) (t_ctrls s) (t_targets s) (t_measured s) (t_xv s) (t_zv s) (t_nm s) (t_reused s) []).
(** 93-177; [layers] is what circuit_to_dag(self.circ).layers() yields *)
Definition to_stim_circ (p : Q) (parallel : bool) (nq : nat) (layers : list (list ins)) : tst :=
  fold_left (sim_layer p parallel) layers (mkT [] (repeat false nq) [] [] [] [] [] 0 0 []).

(** the attributes of the simulator after set_p; [s_n] is self.num_qubits, which may be negative *)
Record sim := mkSim { s_ops : list sop; s_xv : list nat; s_zv : list nat; s_x : list nat; s_z : list nat; s_data : list nat; s_nm : nat; s_n : Z; s_zero : bool; s_code : css; s_dec : lutdec }.
(** simulation.py 414-416 *)
Definition check_support (v : vec) : list nat := support v.
(** simulation.py 179-204, the loops; returns the operations and the ancillas *)
Fixpoint measure_checks (x : bool) (rows : list vec) (ops : list sop) : list sop :=
  match rows with
  | [] => ops
  | r :: rows' =>
      let anc := num_qubits ops in
      measure_checks x rows' (ops ++ (if x then [SH anc] ++ map (fun q => SCX anc q) (check_support r) ++ [SMRX anc] else map (fun q => SCX q anc) (check_support r) ++ [SMR anc]))
  end.
(** simulation.py 65-91 with 179-216; range of a negative number is empty.  data_measurements: the [n] records after [nm]; n_measurements grows by num_qubits itself *)
Definition set_p (p : Q) (parallel : bool) (nq : nat) (layers : list (list ins)) (zero_state : bool) (code : css) (dec : lutdec) : sim :=
  let t := to_stim_circ p parallel nq layers in
  let n := (Z.of_nat (num_qubits (t_ops t)) - Z.of_nat (length (t_xv t) + length (t_zv t)) + Z.of_nat (t_reused t))%Z in
  let rx := length (nd_rows (css_Hx code)) in let rz := length (nd_rows (css_Hz code)) in
  let ops := measure_checks false (nd_rows (css_Hz code)) (measure_checks true (nd_rows (css_Hx code)) (t_ops t)) in
  let nm := t_nm t + rx + rz in
  mkSim (ops ++ map (fun q => if zero_state then SMR q else SMRX q) (seq 0 (Z.to_nat n))) (t_xv t) (t_zv t) (seq (t_nm t) rx) (seq (t_nm t + rx) rz)
    (map (fun i => nm + i) (seq 0 (Z.to_nat n))) (Z.to_nat (Z.of_nat nm + n)) n zero_state code dec.

(** detection_events[:, idx]: the columns idx of a sample *)
Definition columns (idx : list nat) (row : list bool) : list bool := map (fun i => nth i row false) idx.
(** simulation.py 267-296 on the sampled records (all of the length of the circuit's record); state + estimates modulo 2 is XOR; a shape mismatch raises ValueError *)
Definition simulate_batch (s : sim) (events : list (list bool)) : lutdec * py (nat * nat) :=
  let accepted := filter (fun row => forallb negb (columns (s_xv s ++ s_zv s) row)) events in
  if length accepted =? 0 then (s_dec s, Ret (0, length events)) else
  let state := map (columns (s_data s)) accepted in
  let '(dec, ests) := if s_zero s then batch_decode decode_x (map (columns (s_z s)) accepted) 1 (s_dec s) else batch_decode decode_z (map (columns (s_x s)) accepted) 1 (s_dec s) in
  (dec, match ests with
        | Raise e => Raise e
        | Ret ests =>
            if negb (forallb (fun p => length (fst p) =? length (snd p)) (combine state ests)) then Raise ValueError else
            let observables := if s_zero s then css_Lz (s_code s) else css_Lx (s_code s) in
            let corrected := map (fun p => vxor (fst p) (snd p)) (combine state ests) in
            if negb (forallb (fun r => forallb (fun o => length o =? length r) observables) corrected) then Raise ValueError else
            Ret (length (filter (fun r => existsb (fun o => dot o r) observables) corrected), length events - length accepted)
        end).

(** the loop of logical_error_rate, simulation.py 247-265; [batches i] is the result of the i-th call of _simulate_batch (from 1); one turn per unit of fuel *)
Definition ratio (a b : nat) : Q := inject_Z (Z.of_nat a) / inject_Z (Z.of_nat b).
Fixpoint rate_loop (fuel : nat) (shots batch : nat) (at_least : bool) (min_errors : nat) (batches : nat -> nat * nat) (i : nat) (p_l r_a : Q) (errors : nat) : outcome (Q * Q * nat * nat) :=
  if (i <=? (shots + batch - 1) / batch) || at_least then
    match fuel with
    | O => Unfinished
    | S fuel' =>
        let '(e, d) := batches i in
        let p_l_batch := if d =? batch then 0%Q else ratio e (batch - d) in
        let p_l := ((ratio (i - 1) 1 * p_l + p_l_batch) / ratio i 1)%Q in
        let r_a_batch := (1 - ratio d batch)%Q in
        let errors := errors + e in
        let r_a := ((ratio (i - 1) 1 * r_a + r_a_batch) / ratio i 1)%Q in
        if at_least && (min_errors <=? errors) then Done (p_l, r_a, errors, i) else rate_loop fuel' shots batch at_least min_errors batches (S i) p_l r_a errors
    end
  else Done (p_l, r_a, errors, i).
(** simulation.py 218-265; shots and shots_per_batch at least 1 (0 divides by zero), code.k at least 1 *)
Definition logical_error_rate (fuel : nat) (k shots shots_per_batch : nat) (at_least : bool) (min_errors : nat) (batches : nat -> nat * nat) : outcome (Q * Q * nat * nat) :=
  let batch := Nat.min shots_per_batch shots in
  match rate_loop fuel shots batch at_least min_errors batches 1 0 0 0 with
  | Done (p_l, r_a, errors, i) => Done ((p_l / ratio k 1)%Q, r_a, errors, i * batch)
  | Failed e => Failed e
  | Unfinished => Unfinished
  end.
