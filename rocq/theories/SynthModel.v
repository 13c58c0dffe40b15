(** * SynthModel: the symbolic synthesis of state preparation circuits in src/mqt/qecc/ft_stateprep/state_prep.py:
    _column_addition_constraint, _final_matrix_constraint, _generate_circ_with_bounded_depth, _generate_circ_with_bounded_gates,
    depth_optimal_prep_circuit and gate_optimal_prep_circuit. *)
From Verif Require Export SearchModel.
Local Open Scope nat_scope.

(** the variables x_{d}_{i}_{j}, add_{d}_{i}_{j} (the naming is injective), control_{d} and target_{d} *)
Inductive cv := Xc (d i j : nat) | Ad (d i j : nat).
Inductive gw := Ct (d : nat) | Tg (d : nat).
Notation sexpr := (expr cv gw).
Definition synth_solver := list sexpr -> option (z3model cv gw).

(** columns[d, i, j]: state_prep.py 266-280 and 335-347 (columns[0] holds the Booleans of the check matrix) *)
Definition ent (rows : mat) (d i j : nat) : sym cv gw :=
  match d with O => Con (nth j (nth i rows []) false) | S _ => Sym (EVar (Xc d i j)) end.
(** columns[d, :, j] *)
Definition colS (rows : mat) (d j : nat) : svec cv gw := map (fun i => ent rows d i j) (seq 0 (length rows)).

(** state_prep.py 1130-1164 *)
Definition column_addition_constraint (rows : mat) (n D : nat) (add : nat -> nat -> nat -> sexpr) : sexpr :=
  EAnd (flat_map (fun d => flat_map (fun c1 => flat_map (fun c2 =>
    let col_sum := symbolic_vector_add (colS rows (d - 1) c1) (colS rows (d - 1) c2) in
    [EImp (add (d - 1) c1 c2) (EAnd [symbolic_vector_eq (colS rows d c2) col_sum; symbolic_vector_eq (colS rows d c1) (colS rows (d - 1) c1)]);
     EImp (add (d - 1) c2 c1) (EAnd [symbolic_vector_eq (colS rows d c1) col_sum; symbolic_vector_eq (colS rows d c2) (colS rows (d - 1) c2)])])
    (seq (S c1) (n - S c1))) (seq 0 n)) (seq 1 D)).
(** state_prep.py 1167-1172; a negative number of columns cannot be met *)
Definition final_matrix_constraint (rows : mat) (n D : nat) : sexpr :=
  if n <? length rows then ELit false
  else EPbEq (map (fun c => ENot (EOr (map (@toe cv gw) (colS rows D c)))) (seq 0 n)) (n - length rows).

Definition others (n col : nat) : list nat := filter (fun c => negb (col =? c)) (seq 0 n).
(** the additions a column takes part in (lines 288-289 and 301-302) *)
Definition involving (n d col : nat) : list sexpr := map (fun c1 => EVar (Ad d c1 col)) (others n col) ++ map (fun c2 => EVar (Ad d col c2)) (others n col).
(** state_prep.py 282-309 *)
Definition depth_query (rows : mat) (n D : nat) : list sexpr :=
  [column_addition_constraint rows n D (fun d i j => EVar (Ad d i j))] ++
  flat_map (fun d => map (fun col => EPbLe (involving n d col) 1) (seq 0 n)) (seq 0 D) ++
  flat_map (fun d => map (fun col => EImp (ENot (EOr (involving n (d - 1) col))) (symbolic_vector_eq (colS rows d col) (colS rows (d - 1) col))) (seq 0 n)) (seq 1 D) ++
  [final_matrix_constraint rows n D].
(** the last matrix of the model *)
Definition final_rows (m : z3model cv gw) (rows : mat) (n D : nat) : mat :=
  map (fun i => map (fun j => match zm_bool m (Xc D i j) with Some b => b | None => false end) (seq 0 n)) (seq 0 (length rows)).
(** state_prep.py 262-327.  For n = 1 the empty PbLe is not modelled faithfully; the theorems take 2 <= n. *)
Definition generate_circ_with_bounded_depth (solver : synth_solver) (checks : nd) (max_depth : Z) (zero_state : bool) : py (option (list gate)) :=
  let n := nd_cols checks in let rows := nd_rows checks in
  if (max_depth <=? 0)%Z then Raise AssertionError else
  if (length rows =? 0) || (n =? 0) then Raise IndexError (* columns[0, :, :] of an array with fewer dimensions, additions.shape[2] *) else
  let D := Z.to_nat max_depth in
  match solver (depth_query rows n D) with
  | None => Ret None
  | Some m =>
      let cnots := flat_map (fun d => flat_map (fun j => map (fun i => (i, j)) (filter (fun i => match zm_bool m (Ad d i j) with Some b => b | None => false end) (seq 0 n))) (seq 0 n)) (seq 0 D) in
      Ret (Some (build_circuit n cnots (final_rows m rows n D) zero_state))
  end.

(** state_prep.py 343-367: n & (n - 1) == 0 is the test for a power of two *)
Definition gates_query (rows : mat) (n D : nat) : list sexpr :=
  [column_addition_constraint rows n D (fun d i j => EAnd [EBvEq (Ct d) i; EBvEq (Tg d) j])] ++
  flat_map (fun d => [EBvNe (Ct (d - 1)) (Tg (d - 1))] ++ (if negb (n =? 0) && negb (n - 1 =? 0) && negb (Nat.land n (n - 1) =? 0) then [EBvLt (Ct (d - 1)) n; EBvLt (Tg (d - 1)) n] else [])) (seq 1 D) ++
  flat_map (fun d => map (fun col => EImp (ENot (EBvEq (Tg (d - 1)) col)) (symbolic_vector_eq (colS rows d col) (colS rows (d - 1) col))) (seq 0 n)) (seq 1 D) ++
  [final_matrix_constraint rows n D].
(** m[controls[d]].as_long(): the value of a variable the model does not assign is None *)
Definition as_long (m : z3model cv gw) (w : gw) : py nat := match zm_bv m w with Some k => Ret k | None => Raise AttributeError end.
Fixpoint model_cnots (m : z3model cv gw) (ds : list nat) : py (list (nat * nat)) :=
  match ds with
  | [] => Ret []
  | d :: ds' => pbind (as_long m (Ct d)) (fun c => pbind (as_long m (Tg d)) (fun t => pbind (model_cnots m ds') (fun l => Ret ((c, t) :: l))))
  end.
(** state_prep.py 339: int(np.ceil(np.log2(n))) bits *)
Definition bv_width (n : nat) : nat := 2 ^ Nat.log2_up n.
(** state_prep.py 330-378.  n <= 1 raises for other reasons (a bit vector without bits, log2(0)). *)
Definition generate_circ_with_bounded_gates (solver : synth_solver) (checks : nd) (max_cnots : Z) (zero_state : bool) : py (option (list gate)) :=
  let n := nd_cols checks in let rows := nd_rows checks in
  if n <=? 1 then Raise RuntimeError else
  if (max_cnots <=? 0)%Z then Raise IndexError (* additions.shape[2] of a one-dimensional array; columns[0, :, :] *) else
  if length rows =? 0 then Raise IndexError else
  let D := Z.to_nat max_cnots in
  match solver (gates_query rows n D) with
  | None => Ret None
  | Some m => pbind (model_cnots m (seq 0 D)) (fun cnots => Ret (Some (build_circuit n cnots (final_rows m rows n D) zero_state)))
  end.

(** state_prep.py 439-459 and 462-482 (with 381-436): the k-th call of the generator asks the solver [s k]; [late] are the time-outs.
    The circuit of the returned StatePrepCircuit and the parameter it was found with. *)
Definition synth_world (gen : synth_solver -> nd -> Z -> bool -> py (option (list gate))) (s : nat -> synth_solver) (late : nat -> Z -> bool) (c : css) (zero_state : bool) : world (list gate) :=
  mkWorld (fun k p => gen (s k) (if zero_state then css_Hx c else css_Hz c) p zero_state) late.
Definition depth_optimal_prep_circuit (fuel : nat) (s : nat -> synth_solver) (late : nat -> Z -> bool) (c : css) (zero_state : bool) (min_depth max_depth min_timeout max_timeout : Z) : outcome (option (list gate) * Z) :=
  optimal_circuit fuel (synth_world generate_circ_with_bounded_depth s late c zero_state) min_depth max_depth min_timeout max_timeout.
Definition gate_optimal_prep_circuit (fuel : nat) (s : nat -> synth_solver) (late : nat -> Z -> bool) (c : css) (zero_state : bool) (min_gates max_gates min_timeout max_timeout : Z) : outcome (option (list gate) * Z) :=
  optimal_circuit fuel (synth_world generate_circ_with_bounded_gates s late c zero_state) min_gates max_gates min_timeout max_timeout.

(** ** contract of z3.Solver used here: variables a model leaves out do not matter *)
Definition completes (m : z3model cv gw) (a : asg cv gw) : Prop :=
  (forall v b, zm_bool m v = Some b -> a_bool a v = b) /\ (forall w k, zm_bv m w = Some k -> a_bv a w = k).
Definition answer_full (width : nat) (fs : list sexpr) (ans : option (z3model cv gw)) : Prop :=
  match ans with
  | Some m => (forall a, completes m a -> (forall w, a_bv a w < width) -> forall f, In f fs -> eval a f = true) /\
              (forall w k, zm_bv m w = Some k -> k < width) /\ (forall v, zm_bool m v <> None -> exists f, In f fs /\ occurs v f)
  | None => forall a, (forall w, a_bv a w < width) -> exists f, In f fs /\ eval a f = false
  end.
Definition synth_solver_ok (width : nat) (solver : synth_solver) : Prop := forall fs, answer_full width fs (solver fs).
