(** * CcSimModel: src/mqt/qecc/cc_decoder/decoder.py simulate_error_rate and cc_decoder/__init__.py code_from_string.
    The sampled errors and the measured times are parameters; floats are rationals (NaN is None), the square root of the error bars is
    not taken. *)
From Coq Require Import List Arith Bool QArith String.
From Verif Require Export ColorModel.
Import ListNotations.
Local Open Scope nat_scope.

(** decoder.py 93-134 with another solver_path: the constraints are printed for an external program whose output is not read *)
Definition solve_external (lights : list bool) : meth (list nat) :=
  let! _ := mopt o_push in
  let! _ := mfor (combine (seq 0 (List.length lights)) lights) (fun '(light, val) =>
      let! self := mget in
      let! idx := mlift (dget (l2s self) light) in
      complete_parity_constraint light idx val) in
  let! _ := mopt o_pop in
  mret [].
(** problem.solve(lights, solver_path); None stands for a path other than "z3" *)
Definition solve_path (path : option solver) (lights : list bool) : meth (list nat) :=
  match path with
  | Some sv => let! r := solve sv lights in mret (fst r)
  | None => solve_external lights
  end.

(** decoder.py 163-169: the loop over the logical operators, left at the first one that the residual flips *)
Fixpoint logical_loop (rows : list vec) (i : nat) (residual : vec) (le : list nat) (mw : list Z) : list nat * list Z :=
  match rows with
  | [] => (le, mw)
  | l :: rows' =>
      if dot l residual then
        let wt := Z.of_nat (weight residual) in
        (set_nth i (S (nth i le 0)) le, if (nth i mw (-1) =? -1)%Z || (wt <? nth i mw (-1))%Z then set_nth i wt mw else mw)
      else logical_loop rows' (S i) residual le mw
  end.
(** decoder.py 149-173: the samples i, i+1, ...; [times i] are the two durations measured for sample i *)
Fixpoint sim_loop (path : option solver) (c : colorcode) (times : nat -> Q * Q) (i : nat) (errors : list vec) (le : list nat) (mw : list Z) (ct st : Q)
    : meth (list nat * list Z * (Q * Q)) :=
  match errors with
  | [] => mret (le, mw, (ct, st))
  | error :: errors' =>
      let! lights := mlift (cc_get_syndrome c error) in
      let! estimate := solve_path path lights in
      let! r := (if 0 <? List.length estimate
                 then if List.length estimate =? List.length error
                      then mret (logical_loop (cc_L c) 0 (vxor error (map Nat.odd estimate)) le mw)
                      else mlift (Raise ValueError)
                 else mret (le, mw)) in
      let i' := inject_Z (Z.of_nat i) in
      sim_loop path c times (S i) errors' (fst r) (snd r) ((ct * i' + fst (times i)) / (i' + 1))%Q ((st * i' + snd (times i)) / (i' + 1))%Q
  end.
(** decoder.py 179-190; the times of the preconstruction are dropped *)
Record simres := mkSim { sr_distance : Z; sr_rates : list (option Q); sr_radicands : list (option Q); sr_constr : Q; sr_solve : Q; sr_total : Q; sr_minwts : list Z }.
(** decoder.py 175: numpy division, 0/0 is nan *)
Definition np_div (a b : nat) : option Q := if b =? 0 then None else Some (inject_Z (Z.of_nat a) / inject_Z (Z.of_nat b))%Q.
(** decoder.py 137-190 *)
Definition simulate_error_rate (path : option solver) (c : colorcode) (times : nat -> Q * Q) (errors : list vec) : py simres :=
  let k := List.length (cc_L c) in
  let nr_sims := List.length errors in
  match preconstruct_z3_instance (LightsOut (lay_f2q (cc_lay c)) (lay_q2f (cc_lay c))) with
  | (_, Raise e) => Raise e
  | (st, Ret _) =>
      match sim_loop path c times 0 errors (repeat 0 k) (repeat (-1)%Z k) 0%Q 0%Q st with
      | (_, Raise e) => Raise e
      | (_, Ret (le, mw, (ct, sol))) =>
          let rates := map (fun x => np_div x nr_sims) le in
          Ret (mkSim (cc_distance c) rates (map (option_map (fun r => (1 - r) * r / inject_Z (Z.of_nat nr_sims))%Q) rates) ct sol (ct + sol)%Q mw)
      end
  end.

(** cc_decoder/__init__.py 9-16; the enumerations of the coordinate sets as in ColorModel *)
Definition code_from_string (L : ldpc) (lattice : string) (distance : Z) (hex so_d so_q so_o : list coord) (hexa : list coord) : py colorcode :=
  if String.eqb lattice "hexagon" then HexagonalColorCode L distance hex hexa
  else if String.eqb lattice "square_octagon" then SquareOctagonColorCode L distance so_d so_q so_o
  else Raise ValueError.
