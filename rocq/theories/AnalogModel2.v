(* Error generation, analog Tanner graph decoding and the run loops of src/mqt/qecc/analog_information_decoding (paths
   relative to that directory).  Probabilities, random numbers and analog values are rationals: every finite float is
   one; the rounding of float additions, products and quotients is not modelled. *)
From Coq Require Import List Arith Bool Lia QArith.
From Verif Require Import Lin Lin2 AnalogModel.
Import ListNotations.
Local Open Scope nat_scope.

Definition Qltb (a b : Q) : bool := negb (Qle_bool b a).

(* utils/simulation_utils.py:103-120: what the random number [rand] does to one qubit, (flip x part, flip z part) *)
Definition draw (pxi pyi pzi rand : Q) : bool * bool :=
  if Qltb rand pzi then (false, true)
  else if Qle_bool pzi rand && Qltb rand (pzi + pxi)%Q then (true, false)
  else if Qle_bool (pzi + pxi)%Q rand && Qltb rand (pxi + pyi + pzi)%Q then (true, true)
  else (false, false).

(* utils/simulation_utils.py:84-122 generate_err.  error_x/error_z are the residual arrays themselves, updated in place;
   entry i is read before it is written, so the loop is a map over the first nr_qubits entries.  [us]: one random number
   for each of the nr_qubits qubits.  None: an index is out of range (IndexError) *)
Fixpoint generate_err_loop (us pxs pys pzs : list Q) (ex ez : vec) : option (vec * vec) :=
  match us with
  | [] => Some (ex, ez)
  | u :: us' =>
    match pxs, pys, pzs, ex, ez with
    | px :: pxs', py :: pys', pz :: pzs', x :: ex', z :: ez' =>
      match generate_err_loop us' pxs' pys' pzs' ex' ez' with
      | Some (xs, zs) => let (fx, fz) := draw px py pz u in Some ((if fx then negb x else x) :: xs, (if fz then negb z else z) :: zs)
      | None => None
      end
    | _, _, _, _, _ => None
    end
  end.
Definition generate_err (us : list Q) (chan : list Q * list Q * list Q) (residual : vec * vec) : option (vec * vec) :=
  let '(pxs, pys, pzs) := chan in generate_err_loop us pxs pys pzs (fst residual) (snd residual).

(* utils/simulation_utils.py:159-171 generate_syndr_err *)
Definition generate_syndr_err (us probs : list Q) : vec := map (fun up => Qltb (fst up) (snd up)) (combine us probs).

(* utils/simulation_utils.py:193-219 error_channel_setup; a bias entry None is np.inf *)
Definition error_channel_setup (error_rate : Q) (bias : option Q * option Q * option Q) (nr_qubits : nat)
    : list Q * list Q * list Q :=
  let '(px, py, pz) :=
    match bias with
    | (None, _, _) => (error_rate, 0%Q, 0%Q)
    | (_, None, _) => (0%Q, error_rate, 0%Q)
    | (_, _, None) => (0%Q, 0%Q, error_rate)
    | (Some bx, Some by_, Some bz) =>
      let s := (bx + by_ + bz)%Q in (error_rate * bx / s, error_rate * by_ / s, error_rate * bz / s)%Q
    end in
  (repeat px nr_qubits, repeat py nr_qubits, repeat pz nr_qubits).

(* utils/simulation_utils.py:229-235 get_signed_from_binary *)
Definition get_signed_from_binary (s : vec) : list Q := map (fun b : bool => if b then (-(1))%Q else 1%Q) s.
(* utils/simulation_utils.py:238-243 get_binary_from_analog *)
Definition get_binary_from_analog (a : list Q) : vec := map (fun x => Qle_bool x 0) a.
(* utils/simulation_utils.py:174-190 get_noisy_analog_syndrome; [g]: the sampled deviations, all zero when sigma = 0 *)
Definition get_noisy_analog_syndrome (perfect : vec) (g : list Q) : list Q :=
  map (fun p => fst p + snd p)%Q (combine (get_signed_from_binary perfect) g).

(* simulators/analog_tannergraph_decoding.py:30-53: the sigma the constructor accepts; [conv] = get_sigma_from_syndr_er
   (utils/simulation_utils.py:132-139), of which only conv 0 = 0 is used *)
Definition get_sigma_from_syndr_er (erfc_part : Q -> Q) (ser : Q) : Q := if Qeq_bool ser 0 then 0%Q else erfc_part ser.
Definition atd_decoder_sigma (erfc_part : Q -> Q) (sigma : Q) (ser : option Q) : pyres Q :=
  if Qle_bool sigma 0 then
    match ser with None => ValueErr | Some s => Ret (get_sigma_from_syndr_er erfc_part s) end
  else match ser with Some _ => ValueErr | None => Ret sigma end.

(* simulators/analog_tannergraph_decoding.py:120-187 AtdSimulator.__init__, the part that decides whether the two
   decoders can be made; [of_sigma] = get_error_rate_from_sigma (142-149 of simulation_utils.py).  Returns the sigmas *)
Definition atd_simulator (erfc_part of_sigma : Q -> Q) (ser sigma : option Q) (bias : option Q * option Q * option Q) : pyres (Q * Q) :=
  let rate := match sigma, ser with
    | None, None => ValueErr | None, Some s => Ret s | Some _, Some _ => ValueErr | Some g, None => Ret (of_sigma g) end in
  match rate with
  | Ret r =>
    let '(xs, ys, zs) := error_channel_setup r bias 1 in
    let xr := (nth 0 xs 0 + nth 0 ys 0)%Q in
    let zr := (nth 0 zs 0 + nth 0 ys 0)%Q in
    let xsig := get_sigma_from_syndr_er erfc_part xr in
    let zsig := get_sigma_from_syndr_er erfc_part zr in
    match atd_decoder_sigma erfc_part xsig None, atd_decoder_sigma erfc_part zsig None with
    | Ret a, Ret b => Ret (a, b)
    | _, _ => ValueErr
    end
  | _ => ValueErr
  end.

(* one side of AtdSimulator.single_sample, 191-226: [e] the error of this side, [g] the analog deviations, [dec] the
   decoder on the analog check matrix, given the thresholded syndrome (86-89).  Returns (success, residual) *)
Definition atd_side (n : nat) (H L : mat) (dec : list Q -> vec -> vec) (e : vec) (g : list Q) : bool * vec :=
  let noisy := get_noisy_analog_syndrome (mulMV H e) g in
  let decoding := firstn n (dec noisy (get_binary_from_analog noisy)) in
  let residual := vxor e decoding in
  (negb (is_logical_err L residual), residual).

(* simulators/quasi_single_shot_v2.py:278-288 run (and, with one count for each side, simulators/
   analog_tannergraph_decoding.py:228-250): the loop over the samples.  [outs]: the result of each sample, in order, one
   for every requested sample; [conv]: the convergence test on (successes, runs), consulted when
   runs % save_interval == 1.  Returns (successes, runs); no sample: the name run is not bound *)
Fixpoint run_loop (save_interval : nat) (conv : nat -> nat -> bool) (outs : list bool) (succ run : nat) : nat * nat :=
  match outs with
  | [] => (succ, run)
  | o :: rest =>
    let succ' := succ + (if o then 1 else 0) in
    let run' := S run in
    if (run' mod save_interval =? 1) && conv succ' run' then (succ', run')
    else run_loop save_interval conv rest succ' run'
  end.
Definition run_samples (save_interval : nat) (conv : nat -> nat -> bool) (outs : list bool) : pyres (nat * nat) :=
  match outs with
  | [] => UnboundLocal
  | _ => if save_interval =? 0 then ZeroDiv else Ret (run_loop save_interval conv outs 0 0)
  end.
