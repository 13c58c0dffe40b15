(* WrapModel: src/mqt/qecc/ecc_qiskit_wrapper.py, the command line wrapper: the noise model, the printed results and the order of events.
   Qiskit Aer is a library: what it does with a channel is modelled by the action of the channel on the Bloch vector (x, y, z) of a qubit, a
   real vector; that the channels of pauli_error, depolarizing_error and amplitude_damping_error act like this is part of the trusted reading.
   Probabilities outside [0,1] (NoiseError of Aer) are not modelled.  The float quotient of counts is modelled by exact rationals. *)
From Coq Require Import List Arith Bool String Ascii Reals QArith.
Import ListNotations.
Local Open Scope nat_scope.

(* ---- channels of one qubit ---- *)
Definition bloch : Type := (R * R * R)%type.
Definition bscale (a b c : R) (v : bloch) : bloch := let '(x, y, z) := v in (a * x, b * y, c * z)%R.
Definition badd (v w : bloch) : bloch := let '(x, y, z) := v in let '(x', y', z') := w in (x + x', y + y', z + z')%R.
(* conjugation with a Pauli operator, named by its letter *)
Definition conj_by (op : string) (v : bloch) : bloch :=
  if String.eqb op "X" then bscale 1 (-1) (-1) v else if String.eqb op "Y" then bscale (-1) 1 (-1) v else if String.eqb op "Z" then bscale (-1) (-1) 1 v else v.
(* qiskit_aer pauli_error: a mixture *)
Definition pauli_error (l : list (string * R)) (v : bloch) : bloch :=
  fold_right (fun op acc => badd (bscale (snd op) (snd op) (snd op) (conj_by (fst op) v)) acc) (0, 0, 0)%R l.
(* qiskit_aer depolarizing_error(p, 1): with probability p the state is replaced by the completely mixed one *)
Definition depolarizing_error (p : R) (v : bloch) : bloch := bscale (1 - p) (1 - p) (1 - p) v.
(* qiskit_aer amplitude_damping_error(p) *)
Definition amplitude_damping_error (p : R) (v : bloch) : bloch := let '(x, y, z) := v in (sqrt (1 - p) * x, sqrt (1 - p) * y, (1 - p) * z + p)%R.
Definition channel := bloch -> bloch.

(* ecc_qiskit_wrapper.py 26-28 compose_error: error.compose(new_error) is error first, then new_error *)
Definition compose_error (error : option channel) (new_error : channel) : channel := match error with None => new_error | Some e => fun v => new_error (e v) end.
(* 35-54: one character; None: ValueError *)
Definition new_error (c : ascii) (p : R) : option channel :=
  if Ascii.eqb c "B" then Some (pauli_error [("X"%string, p); ("I"%string, (1 - p)%R)])
  else if Ascii.eqb c "D" then Some (depolarizing_error p)
  else if Ascii.eqb c "A" then Some (amplitude_damping_error p)
  else if Ascii.eqb c "P" then Some (pauli_error [("Z"%string, p); ("I"%string, (1 - p)%R)])
  else None.
(* 35-55: the loop; inr: the character of the ValueError *)
Fixpoint noise_loop (s : string) (p : R) (error : option channel) : option channel + ascii :=
  match s with
  | EmptyString => inl error
  | String c r => match new_error c p with Some e => noise_loop r p (Some (compose_error error e)) | None => inr c end
  end.
(* what add_all_qubit_quantum_error records: the errors on the qubits of an instruction, and the instructions *)
Definition noise_model := list (list channel * list string).
Inductive created := Model (nm : noise_model) | ValueError (c : ascii) | AssertionError.
Definition singles : list string := ["u1"; "u2"; "u3"; "h"; "id"; "t"; "tdg"; "sdg"; "rx"; "ry"; "rz"; "s"]%string.
(* 31-66 create_noise_model *)
Definition create_noise_model (n_model : string) (p_error : R) : created :=
  match noise_loop n_model p_error None with
  | inr c => ValueError c
  | inl None => AssertionError
  | inl (Some e) => Model [([e], singles); ([e; e], ["cx"; "swap"]%string); ([e; e; e], ["cswap"]%string)]
  end.
(* the errors that an instruction suffers; none: it is noise-free *)
Fixpoint noise_on (nm : noise_model) (name : string) : list channel :=
  match nm with [] => [] | (es, names) :: r => if existsb (String.eqb name) names then es else noise_on r name end.

(* ---- printed results ---- *)
Definition space : ascii := " "%char.
(* s.split(" ")[-1]: what follows the last space *)
Fixpoint last_part (s : string) : string :=
  match s with
  | EmptyString => EmptyString
  | String c r => if Ascii.eqb c space then last_part r else if existsb (Ascii.eqb space) (list_ascii_of_string r) then last_part r else String c r
  end.
(* dictionaries: in the order of insertion *)
Fixpoint dget (k : string) (d : list (string * nat)) : option nat := match d with [] => None | (k', n) :: r => if String.eqb k k' then Some n else dget k r end.
Fixpoint dadd (k : string) (n : nat) (d : list (string * nat)) : list (string * nat) :=
  match d with [] => [(k, n)] | (k', n') :: r => if String.eqb k k' then (k', n' + n) :: r else (k', n') :: dadd k n r end.
(* 72-78: summarized_counts *)
Definition summarize (counts : list (string * nat)) : list (string * nat) := fold_left (fun d rc => dadd (last_part (fst rc)) (snd rc) d) counts [].
(* sorted(...) of strings *)
Definition sle (a b : string) : bool := match String.compare a b with Gt => false | _ => true end.
Fixpoint ins (x : string) (l : list string) : list string := match l with [] => [x] | y :: r => if sle x y then x :: l else y :: ins x r end.
Definition sorted (l : list string) : list string := fold_right ins [] l.
(* 80-88: the loop; the lines printed: the state and its count, to be divided by n_shots *)
Definition ratio (c n_shots : nat) : Q := (inject_Z (Z.of_nat c) / inject_Z (Z.of_nat n_shots))%Q.
Definition above (c n_shots : nat) (t : Q) : bool := negb (Qle_bool (ratio c n_shots) t).
Fixpoint print_loop (keys : list string) (d : list (string * nat)) (n_shots : nat) (t : Q) (printed : nat) : list (string * nat) :=
  match keys with
  | [] => []
  | k :: r => let c := match dget k d with Some c => c | None => 0 end in
              if above c n_shots t || (printed =? 0) then
                if S printed =? 1000 then [(k, c)] else (k, c) :: print_loop r d n_shots t (S printed)
              else print_loop r d n_shots t printed
  end.
(* 69-88 print_simulation_results; None: ZeroDivisionError *)
Definition print_results (counts : list (string * nat)) (n_shots : nat) (t : Q) : option (list (string * nat)) :=
  let d := summarize counts in
  if (n_shots =? 0) && negb (List.length d =? 0) then None else Some (print_loop (sorted (map fst d)) d n_shots t 0).

(* ---- main ---- *)
Section Main.
Variables (circuit : Type) (has_measure : circuit -> bool) (measure_all : circuit -> circuit) (apply_ecc : circuit -> string -> Z -> option circuit).
(* 96-137: the arguments that matter *)
Record args := { a_m : string; a_p : R; a_positive : bool (* args.p > 0 *); a_circ : circuit (* the loaded file *); a_export : bool; a_ecc : string; a_fq : Z }.
(* str.lower() on ASCII letters *)
Definition lower1 (c : ascii) : ascii := let n := nat_of_ascii c in if (65 <=? n) && (n <=? 90) then ascii_of_nat (n + 32) else c.
Fixpoint lower (s : string) : string := match s with EmptyString => EmptyString | String c r => String (lower1 c) (lower r) end.
Inductive event := WarnNoMeasure | Export (c : circuit) | Simulate (c : circuit) (nm : noise_model).
Inductive outcome := Done (evs : list event) | Fail (evs : list event).
(* 152-199 main, up to the call of the simulator *)
Definition main (a : args) : outcome :=
  match (if a_positive a then create_noise_model (a_m a) (a_p a) else Model []) with
  | Model nm =>
      let w := if has_measure (a_circ a) then [] else [WarnNoMeasure] in
      let circ := if has_measure (a_circ a) then a_circ a else measure_all (a_circ a) in
      match (if String.eqb (lower (a_ecc a)) "none" then Some circ else apply_ecc circ (a_ecc a) (a_fq a)) with
      | Some circ => Done (w ++ [if a_export a then Export circ else Simulate circ nm])
      | None => Fail w
      end
  | _ => Fail []
  end.
End Main.
