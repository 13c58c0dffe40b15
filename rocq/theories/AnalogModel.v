(* Model of the bit-level parts of src/mqt/qecc/analog_information_decoding (paths below are relative to that
   directory): multi-round and analog check matrices, overlapping-window decoding, the quasi-single-shot sample,
   error generation.  A matrix is a list of rows (Lin.mat); a syndrome matrix "one column per round" is a list of its
   columns.  Entries are bits: arithmetic modulo 2 is xor. *)
From Coq Require Import List Arith Bool Lia.
From Verif Require Import Lin Lin2.
Import ListNotations.

(* numpy/scipy: block_diag([pcm] * k) for an m x n matrix pcm; row i of block r *)
Definition block_diag_rep (n : nat) (H : mat) (k : nat) : mat :=
  concat (map (fun r => map (fun row => vzero (r * n) ++ row ++ vzero ((k - 1 - r) * n)) H) (seq 0 k)).

(* scipy: eye(N, k=-d): row i has a one at column i - d if i >= d *)
Definition eye_sub (N d : nat) : mat :=
  map (fun i => if d <=? i then unitv N (i - d) else vzero N) (seq 0 N).

(* entry-wise sum of two 0/1 matrices, modulo 2 *)
Fixpoint madd (A B : mat) : mat :=
  match A, B with a :: A', b :: B' => vxor a b :: madd A' B' | _, _ => [] end.

(* hstack of two matrices with the same number of rows *)
Fixpoint hstack (A B : mat) : mat :=
  match A, B with a :: A', b :: B' => (a ++ b) :: hstack A' B' | _, _ => [] end.

(* simulators/memory_experiment_v2.py:19-44 build_multiround_pcm.  n = pcm.shape[1].  The two identity parts are added
   as integers in the code; they are modelled modulo 2 (they never overlap when pcm has a row). *)
Definition build_multiround_pcm (n : nat) (H : mat) (repetitions : nat) : mat :=
  let m := length H in
  let k := repetitions + 1 in
  let h_3dpcm := block_diag_rep n H k in
  let h_3did_diag := block_diag_rep m (identity m) k in
  let h_3did_offdiag := eye_sub (m * k) m in
  hstack h_3dpcm (madd h_3did_diag h_3did_offdiag).

(* simulators/memory_experiment_v2.py:47-56 move_syndrome, on the list of columns, of even length (59 of
   quasi_single_shot_v2.py demands it); column height m *)
Definition move_syndrome (m : nat) (synd : list vec) : list vec :=
  let T := length synd / 2 in
  firstn T (skipn T synd) ++ repeat (vzero m) (length synd - T).

(* simulators/memory_experiment_v2.py:99-100: difference syndrome, column 0 is kept *)
Fixpoint diff_from (prev : vec) (cols : list vec) : list vec :=
  match cols with [] => [] | c :: r => vxor c prev :: diff_from c r end.
Definition diff_syndrome (synd : list vec) : list vec :=
  match synd with [] => [] | c :: r => c :: diff_from c r end.

(* a[..].reshape((R, k)).T, column r *)
Definition block (k r : nat) (x : vec) : vec := firstn k (skipn (r * k) x).
Definition blocks (k R : nat) (x : vec) : list vec := map (fun r => block k r x) (seq 0 R).

(* sum modulo 2 of vectors of length n *)
Definition vsum (n : nat) (l : list vec) : vec := fold_right vxor (vzero n) l.

(* replace entry i of a list *)
Fixpoint set_nth {A} (i : nat) (a : A) (l : list A) : list A :=
  match l, i with [], _ => [] | _ :: r, 0 => a :: r | x :: r, S j => x :: set_nth j a r end.

(* simulators/memory_experiment_v2.py:80-161 decode_multiround.  [dec] is decoder.decode applied to the flattened
   difference syndrome (flatten("F") = concatenation of the columns).  The channel probabilities (104-124) only select
   the decoder and are not modelled; bp_iter is not modelled; repetitions >= 2, so that region_size - 1 >= 0.
   Returns the correction and the updated syndrome. *)
Definition decode_multiround (n : nat) (H : mat) (repetitions : nat) (last_round : bool) (dec : vec -> vec)
    (synd : list vec) : vec * list vec :=
  let m := length H in
  let T := repetitions / 2 in
  let decoded := dec (concat (diff_syndrome synd)) in
  let space := blocks n repetitions (firstn (n * repetitions) decoded) in
  if last_round then (vsum n space, synd)
  else
    let time := blocks m repetitions (skipn (n * repetitions) decoded) ++ [vzero m] in
    let corr := vsum n (firstn T space) in
    let corr_syndrome := mulMV H corr in
    let synd1 := firstn T synd ++ map (fun c => vxor c corr_syndrome) (skipn T synd) in
    let synd2 := set_nth T (vxor (nth T synd1 []) (nth (T - 1) time [])) synd1 in
    (corr, synd2).

(* what a Python call may raise *)
Inductive pyres (A : Type) := Ret (a : A) | UnboundLocal | IndexErr | ValueErr | TypeErr | ZeroDiv.
Arguments Ret {A} _. Arguments UnboundLocal {A}. Arguments IndexErr {A}. Arguments ValueErr {A}. Arguments TypeErr {A}.
Arguments ZeroDiv {A}.

(* simulators/quasi_single_shot_v2.py:193-262: the variables of _single_sample; q_win counts the calls to the decoder *)
Record qss := { q_err : vec; q_synd : list vec; q_cnt : nat; q_win : nat }.

(* utils/simulation_utils.py:72-78 is_logical_err *)
Definition is_logical_err (logicals : mat) (residual_err : vec) : bool := existsb (fun b => b) (mulMV logicals residual_err).

(* one pass of the loop 204-261.  [fe]: the part of the fresh error this side sees (C54: generate_err xors it onto the
   residual error); [me]: the flips of the measured syndrome (ignored in the last round, 221-223); [dec]: answers of the
   decoder, arbitrary in every call; [last]: rnd = rounds - 1; [analog]: analog_tg.  With analog_tg False the name
   analog_syndr_mat is not bound when it is passed on in lines 239 and 256. *)
Definition qss_round (n : nat) (H : mat) (repetitions : nat) (analog : bool) (dec : nat -> bool -> vec -> vec)
    (last : bool) (fe me : vec) (st : qss) : pyres qss :=
  let err := vxor (q_err st) fe in
  let noiseless := mulMV H err in
  let syndrome := if last then noiseless else vxor noiseless me in
  if q_cnt st <? repetitions then
    let synd := set_nth (q_cnt st) (vxor (nth (q_cnt st) (q_synd st) []) syndrome) (q_synd st) in
    let cnt := q_cnt st + 1 in
    if cnt =? repetitions then
      if analog then
        let (corr, synd') := decode_multiround n H repetitions last (dec (q_win st) last) synd in
        if last then Ret {| q_err := vxor err corr; q_synd := synd'; q_cnt := cnt; q_win := q_win st + 1 |}
        else Ret {| q_err := vxor err corr; q_synd := move_syndrome (length H) synd'; q_cnt := repetitions / 2;
                    q_win := q_win st + 1 |}
      else UnboundLocal
    else Ret {| q_err := err; q_synd := synd; q_cnt := cnt; q_win := q_win st |}
  else IndexErr.

(* the loop over the rounds; [ws]: (fresh error, measurement flips) of each round still to come; [more]: rounds that
   follow these (so that a prefix of the run can be inspected) *)
Fixpoint qss_rounds (n : nat) (H : mat) (repetitions : nat) (analog : bool) (dec : nat -> bool -> vec -> vec)
    (more : nat) (ws : list (vec * vec)) (st : qss) : pyres qss :=
  match ws with
  | [] => Ret st
  | (fe, me) :: rest =>
    match qss_round n H repetitions analog dec (length rest + more =? 0) fe me st with
    | Ret st' => qss_rounds n H repetitions analog dec more rest st'
    | UnboundLocal => UnboundLocal | IndexErr => IndexErr | ValueErr => ValueErr | TypeErr => TypeErr | ZeroDiv => ZeroDiv
    end
  end.

Definition qss_init (n : nat) (H : mat) (repetitions : nat) : qss :=
  {| q_err := vzero n; q_synd := repeat (vzero (length H)) repetitions; q_cnt := 0; q_win := 0 |}.

(* 193-262: 1 for success *)
Definition single_sample (n : nat) (H L : mat) (repetitions : nat) (analog : bool) (dec : nat -> bool -> vec -> vec)
    (ws : list (vec * vec)) : pyres nat :=
  match qss_rounds n H repetitions analog dec 0 ws (qss_init n H repetitions) with
  | Ret st => Ret (if is_logical_err L (q_err st) then 0 else 1)
  | UnboundLocal => UnboundLocal | IndexErr => IndexErr | ValueErr => ValueErr | TypeErr => TypeErr | ZeroDiv => ZeroDiv
  end.

(* simulators/analog_tannergraph_decoding.py:313-315 get_analog_pcm: [H | I] *)
Definition get_analog_pcm (H : mat) : mat := hstack H (identity (length H)).

(* utils/simulation_utils.py:222-226 build_single_stage_pcm; n = pcm.shape[1], k = meta.shape[1] (np.block demands
   k = pcm.shape[0]) *)
Definition build_single_stage_pcm (n k : nat) (pcm meta : mat) : mat :=
  hstack pcm (identity k) ++ map (fun row => vzero n ++ row) meta.

(* utils/simulation_utils.py:45-64 check_logical_err_h; [rank] of ldpc.mod2 is the GF(2) rank (contract), here computed
   by Lin2.rk.  n = check_matrix.shape[1] *)
Definition check_logical_err_h (n : nat) (check_matrix : mat) (original_err decoded_estimate : vec) : bool :=
  let residual := firstn n (vxor original_err decoded_estimate) in
  let ht := transpose n check_matrix in
  let htr := hstack ht (map (fun b => [b]) residual) in
  rk n check_matrix <? rk (length check_matrix + 1) htr.
