(* SingleShotModel: src/mqt/qecc/analog_information_decoding/simulators/simulation.py, SingleShotSimulator (line numbers
   without a file name refer to it).  Random draws are arguments; the decoders are arbitrary functions of the number of
   the round, the decoder's name, the channel probabilities it currently has and the syndrome handed to it.  Syndromes
   handed to a decoder are lists of rationals, because the code hands over analog and truncated values as well; a binary
   syndrome is the list [bits s] of 0s and 1s.  Not modelled: timing, BP iteration counts, printing, the text of the
   output file. *)
From Coq Require Import List Arith Bool ZArith QArith.
From Verif Require Import Lin Lin2 AnalogModel AnalogModel2.
Import ListNotations.
Local Open Scope nat_scope.

Inductive ssexc := AttributeError | ValueError | UnboundLocalError | IndexError | ZeroDivisionError | FileNotFoundError | UnsupportedOperation.
Inductive ssres (A : Type) := SRet (a : A) | SRaise (e : ssexc).
Arguments SRet {A}. Arguments SRaise {A}.
Definition sbind {A B} (x : ssres A) (f : A -> ssres B) : ssres B := match x with SRet a => f a | SRaise e => SRaise e end.
Notation "'sdo' x <- a ; b" := (sbind a (fun x => b)) (at level 200, x pattern, a at level 100, b at level 200, right associativity).

(* lines 43-112: the attributes; code_params, seed, cutoff, bp_params and codename do not matter here *)
Record sscfg := mkSS { ss_n : nat; ss_hx : mat; ss_hz : mat; ss_mx : option mat; ss_mz : option mat;
  ss_lx : option mat; ss_lz : option mat; ss_x_meta : bool; ss_z_meta : bool; ss_single_stage : bool;
  ss_analog_info : bool; ss_analog_tg : bool; ss_per : Q; ss_ser : Q; ss_bias : option Q * option Q * option Q }.

(* the eight decoders: x_bpd, z_bpd, ss_x_bpd, ss_z_bpd, x_abpd, z_abpd, mx_bp, mz_bp; X: decodes X errors with Hz *)
Inductive side := SX | SZ.
Inductive dname := Bpd (s : side) | Ssd (s : side) | Abpd (s : side) | Mbp (s : side).

(* the check matrix a side is decoded with, and its meta checks if they are switched on (96-101 and the tests
   "self.x_meta and self.Mx is not None") *)
Definition side_H (c : sscfg) (s : side) : mat := match s with SX => ss_hz c | SZ => ss_hx c end.
Definition side_M (c : sscfg) (s : side) : option mat :=
  match s with SX => if ss_z_meta c then ss_mz c else None | SZ => if ss_x_meta c then ss_mx c else None end.

(* numpy addition of two probability vectors *)
Definition qadd (a b : list Q) : list Q := map (fun p => (fst p + snd p)%Q) (combine a b).
(* 113-122 *)
Definition data_channel (c : sscfg) : list Q * list Q * list Q := error_channel_setup (ss_per c) (ss_bias c) (ss_n c).
Definition x_bit (c : sscfg) := fst (fst (data_channel c)).
Definition y_bit (c : sscfg) := snd (fst (data_channel c)).
Definition z_bit (c : sscfg) := snd (data_channel c).
(* 262-263, 518, 545, 602, 619: x+y and z+y *)
Definition err_channel (c : sscfg) (s : side) : list Q := match s with SX => qadd (x_bit c) (y_bit c) | SZ => qadd (z_bit c) (y_bit c) end.
(* 129-132: the syndrome channels *)
Definition syndr_channel (c : sscfg) (s : side) : list Q :=
  let '(px, py, pz) := error_channel_setup (ss_ser c) (ss_bias c) (length (side_H c s)) in
  match s with SX => qadd px py | SZ => qadd pz py end.

(* 135-137: sigma_x and sigma_z exist only for analog decoding; [sig] = get_sigma_from_syndr_er.  A matrix without rows
   has no entry 0 *)
Definition side_sigma (sig : Q -> Q) (c : sscfg) (s : side) : ssres Q :=
  if ss_analog_info c || ss_analog_tg c then
    match syndr_channel c s with [] => SRaise IndexError | p :: _ => SRet (sig p) end
  else SRaise AttributeError.

(* 151-155 check_input, and the reads of 135-137, in __init__ *)
Definition ss_init (sig : Q -> Q) (c : sscfg) : ssres unit :=
  if ss_analog_tg c && ss_analog_info c then SRaise ValueError
  else if ss_analog_info c || ss_analog_tg c then
    sdo _ <- side_sigma sig c SX; sdo _ <- side_sigma sig c SZ; SRet tt
  else SRet tt.

Definition bits (s : vec) : list Q := map (fun b : bool => if b then 1%Q else 0%Q) s.
(* .astype(np.int32): truncation towards zero *)
Definition qtrunc (q : Q) : Z := Z.quot (Qnum q) (Zpos (Qden q)).

(* the draws of one round: a number for each qubit, and for each check of either side a number and a deviation *)
Record draws := mkDraws { dr_u : list Q; dr_sx : list Q; dr_sz : list Q; dr_gx : list Q; dr_gz : list Q }.
Definition dr_s (d : draws) (s : side) := match s with SX => dr_sx d | SZ => dr_sz d end.
Definition dr_g (d : draws) (s : side) := match s with SX => dr_gx d | SZ => dr_gz d end.

(* 488-635 _single_stage_setup, _two_stage_setup, and 660-665 construct_analog_pcms: the matrix each decoder is made
   with, if it is made *)
Definition pcm_of (c : sscfg) (d : dname) : option mat :=
  match d with
  | Bpd s => Some (side_H c s)
  | Abpd s => if ss_analog_tg c then Some (get_analog_pcm (side_H c s)) else None
  | Ssd s => if ss_single_stage c then
               match side_M c s with Some M => Some (build_single_stage_pcm (ss_n c) (length (side_H c s)) (side_H c s) M) | None => None end
             else None
  | Mbp s => if ss_single_stage c then None else side_M c s
  end.

(* 232-248 _get_noisy_syndrome, one side *)
Definition get_noisy_syndrome (c : sscfg) (s : side) (d : draws) (syndrome : vec) : list Q :=
  if negb (Qeq_bool (ss_ser c) 0) then
    if ss_analog_info c || ss_analog_tg c then get_noisy_analog_syndrome syndrome (dr_g d s)
    else bits (vxor syndrome (generate_syndr_err (dr_s d s) (syndr_channel c s)))
  else bits syndrome.

Section Decoding.
(* get_virtual_check_init_vals (utils/simulation_utils.py:152-161, see VirtualModel), get_sigma_from_syndr_er, the decoders *)
Variable virt : list Q -> Q -> list Q.
Variable sig : Q -> Q.
Variable dec : nat -> dname -> list Q -> list Q -> vec.
Variable c : sscfg.
Variable rnd : nat.

(* 467-486 _analog_tg_decoding *)
Definition analog_tg_decoding (decoder : dname) (analog hard chan : list Q) (sigma : Q) : vec :=
  firstn (ss_n c) (dec rnd decoder (chan ++ virt analog sigma) hard).

(* 300-325 _decode_ss_no_meta *)
Definition decode_ss_no_meta (s : side) (synd : list Q) (sigma : Q) : vec :=
  if ss_analog_tg c then analog_tg_decoding (Abpd s) synd (bits (get_binary_from_analog synd)) (err_channel c s) sigma
  else dec rnd (Bpd s) (err_channel c s) synd.

(* 364-387 _ss_analog_tg_decoding *)
Definition ss_analog_tg_decoding (s : side) (M : mat) (analog : list Q) (chan : list Q) (sigma : Q) : vec :=
  let bin := get_binary_from_analog analog in
  firstn (ss_n c) (dec rnd (Ssd s) (chan ++ virt analog sigma) (bits bin ++ bits (mulMV M bin))).

(* meta_pcm @ syndrome_w_err % 2 for a syndrome of 0s and 1s *)
Definition from_bits (s : list Q) : vec := map (fun q => Qeq_bool q 1) s.

(* 327-362 _decode_ss_with_meta *)
Definition decode_ss_with_meta (s : side) (M : mat) (synd : list Q) (sigma : Q) : vec :=
  if ss_analog_tg c then ss_analog_tg_decoding s M synd (err_channel c s) sigma
  else
    let meta := if ss_analog_info c then get_signed_from_binary (mulMV M (get_binary_from_analog synd))
                else bits (mulMV M (from_bits synd)) in
    firstn (ss_n c) (dec rnd (Ssd s) (err_channel c s ++ syndr_channel c s) (synd ++ meta)).

(* 250-298 _single_stage_decoding, one side: self.sigma_* is read in both branches *)
Definition single_stage_side (s : side) (synd : list Q) : ssres vec :=
  sdo sigma <- side_sigma sig c s;
  match side_M c s with
  | Some M => SRet (decode_ss_with_meta s M synd sigma)
  | None => SRet (decode_ss_no_meta s synd sigma)
  end.

(* 443-465 _meta_code_decoding *)
Definition meta_code_decoding (s : side) (M : mat) (synd : list Q) : vec :=
  let bin := if ss_analog_info c || ss_analog_tg c then get_binary_from_analog synd else from_bits synd in
  vxor bin (dec rnd (Mbp s) (syndr_channel c s) (bits (mulMV M bin))).

(* 388-441 _two_stage_decoding, one side; note the channels of 427 and 434: z+y for X errors and x+y for Z errors *)
Definition two_stage_channel (s : side) : list Q := match s with SX => qadd (z_bit c) (y_bit c) | SZ => qadd (x_bit c) (y_bit c) end.
Definition repaired (s : side) (synd : list Q) : list Q :=
  match side_M c s with
  | Some M => bits (meta_code_decoding s M synd)
  | None => map (fun q => inject_Z (qtrunc q)) synd
  end.
Definition two_stage_side (s : side) (synd : list Q) : ssres vec :=
  if ss_analog_tg c then
    sdo sigma <- side_sigma sig c s;
    SRet (analog_tg_decoding (Abpd s) synd (repaired s synd) (two_stage_channel s) sigma)
  else SRet (dec rnd (Bpd s) (err_channel c s) (repaired s synd)).

Definition decode_side (s : side) (synd : list Q) : ssres vec :=
  if ss_single_stage c then single_stage_side s synd else two_stage_side s synd.
End Decoding.

Section Sample.
Variable virt : list Q -> Q -> list Q.
Variable sig : Q -> Q.
Variable dec : nat -> dname -> list Q -> list Q -> vec.
Variable c : sscfg.

(* 168-194: one noisy round *)
Definition ss_round (rnd : nat) (d : draws) (residual : vec * vec) : ssres (vec * vec) :=
  match generate_err (dr_u d) (data_channel c) residual with
  | None => SRaise IndexError
  | Some (ex, ez) =>
    sdo xd <- decode_side virt sig dec c rnd SX (get_noisy_syndrome c SX d (mulMV (ss_hz c) ex));
    sdo zd <- decode_side virt sig dec c rnd SZ (get_noisy_syndrome c SZ d (mulMV (ss_hx c) ez));
    SRet (vxor ex xd, vxor ez zd)
  end.
Fixpoint ss_rounds (rnd : nat) (ds : list draws) (residual : vec * vec) : ssres (vec * vec) :=
  match ds with
  | [] => SRet residual
  | d :: ds' => sdo r <- ss_round rnd d residual; ss_rounds (S rnd) ds' r
  end.

(* 157-213: errors before the last decoding and the last corrections; ds: the draws of the sus_th_depth noisy rounds,
   u: those of the perfect round *)
Definition ss_final (ds : list draws) (u : list Q) : ssres ((vec * vec) * (vec * vec)) :=
  sdo r <- ss_rounds 0 ds (vzero (ss_n c), vzero (ss_n c));
  match generate_err u (data_channel c) r with
  | None => SRaise IndexError
  | Some (ex, ez) =>
    SRet ((ex, ez), (dec (length ds) (Bpd SX) (err_channel c SX) (bits (mulMV (ss_hz c) ex)),
                     dec (length ds) (Bpd SZ) (err_channel c SZ) (bits (mulMV (ss_hx c) ez))))
  end.

(* 215-230: the two flags *)
Definition ss_sample (ds : list draws) (u : list Q) : ssres (bool * bool) :=
  sdo ((ex, ez), (xd, zd)) <- ss_final ds u;
  let rx := vxor ex xd in
  let rz := vxor ez zd in
  match ss_lx c, ss_lz c with
  | Some lx, Some lz => SRet (is_logical_err lz rx, is_logical_err lx rz)
  | _, _ => SRet (check_logical_err_h (ss_n c) (ss_hz c) ex rx, check_logical_err_h (ss_n c) (ss_hx c) ez rz)
  end.
End Sample.

(* 667-712 save_results: [exists_]: the output file exists; [rates]: what calculate_error_rates and the averages do
   (they may divide by zero).  Path(...).open(encoding=...) opens for reading *)
Definition save_results (exists_ : bool) (rates : ssres unit) : ssres unit :=
  sdo _ <- rates;
  if exists_ then SRaise UnsupportedOperation else SRaise FileNotFoundError.

(* 714-741 run: the loop over the samples; [conv]: is_converged *)
Fixpoint ss_run_loop (exists_ : bool) (rates : nat -> nat -> nat -> ssres unit) (conv : nat -> nat -> nat -> bool)
    (save_interval : nat) (outs : list (ssres (bool * bool))) (xs zs runs : nat) : ssres (nat * nat * nat) :=
  match outs with
  | [] => SRet (xs, zs, runs)
  | o :: rest =>
    sdo (ex, ez) <- o;
    let runs := S runs in
    let xs := xs + (if ex : bool then 0 else 1) in
    let zs := zs + (if ez : bool then 0 else 1) in
    if save_interval =? 0 then SRaise ZeroDivisionError
    else if runs mod save_interval =? 0 then
      sdo _ <- save_results exists_ (rates xs zs runs);
      if conv xs zs runs then SRet (xs, zs, runs) else ss_run_loop exists_ rates conv save_interval rest xs zs runs
    else ss_run_loop exists_ rates conv save_interval rest xs zs runs
  end.
(* 714-769 run, with the code after the loop; outs: the results of the requested samples, in order *)
Definition ss_run (exists_ : bool) (rates : nat -> nat -> nat -> ssres unit) (conv : nat -> nat -> nat -> bool)
    (save_interval : nat) (outs : list (ssres (bool * bool))) : ssres (nat * nat * nat) :=
  match outs with
  | [] => SRaise UnboundLocalError
  | _ =>
    sdo (xs, zs, runs) <- ss_run_loop exists_ rates conv save_interval outs 0 0 0;
    sdo _ <- save_results exists_ (rates xs zs runs);
    SRet (xs, zs, runs)
  end.
