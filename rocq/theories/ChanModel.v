(* ChanModel: the channel probabilities that the decoders of src/mqt/qecc/analog_information_decoding/simulators work with:
   memory_experiment_v2.py (decode_multiround), quasi_single_shot_v2.py (QssSimulator) and analog_tannergraph_decoding.py
   (AnalogTannergraphDecoder).  [v sigma y]: one entry of get_virtual_check_init_vals (utils/simulation_utils.py:152-161, see
   VirtualModel), which works entry by entry.  A decoder object is the channel probabilities it currently has; its answers are a
   function of these and the syndrome.  Columns of a matrix are listed in order, so flatten("F") is concat. *)
From Coq Require Import List Arith Bool QArith ZArith.
From Verif Require Import Lin AnalogModel AnalogModel2.
Import ListNotations.
Local Open Scope nat_scope.

Section Chan.
Variable v : Q -> Q -> Q.
Definition virt (l : list Q) (sigma : Q) : list Q := map (v sigma) l.

(* ---- AnalogTannergraphDecoder ---- *)
(* analog_tannergraph_decoding.py 55-68: the object after the constructor: its decoder's channel *)
Definition atd_new (m : nat) (error_channel : list Q) : list Q := error_channel ++ repeat 0%Q m.
(* 78-88 _set_analog_syndrome *)
Definition set_analog_syndrome (n : nat) (sigma : Q) (probs analog : list Q) : list Q := firstn n probs ++ virt analog sigma.
(* 90-93 decode: the new state and what the decoder is given *)
Definition atd_decode (n : nat) (sigma : Q) (probs analog : list Q) : list Q * (list Q * vec) :=
  let probs := set_analog_syndrome n sigma probs analog in (probs, (probs, get_binary_from_analog analog)).
(* any number of calls, one after the other *)
Fixpoint atd_calls (n : nat) (sigma : Q) (probs : list Q) (hist : list (list Q)) : list Q :=
  match hist with [] => probs | y :: r => atd_calls n sigma (fst (atd_decode n sigma probs y)) r end.

(* ---- decode_multiround ---- *)
Inductive dmethod := Bposd | Match.
Definition tiny : Q := 1 # 1000000000000000.
(* memory_experiment_v2.py 115, 121: new_channel[-m:] = 1e-15; for m = 0 the slice is the whole array *)
Definition set_last (m : nat) (l : list Q) : list Q :=
  if m =? 0 then map (fun _ => tiny) l else firstn (length l - m) l ++ repeat tiny (length l - (length l - m)).
(* 104-124 with get_updated_decoder 59-77: the channel used in this call, and the channel the caller's decoder object is left with: update_channel_probs changes that object, a Matching is a new one *)
Definition window_channel (method : dmethod) (m check_block_size : nat) (sigma : Q) (channel_probs : list Q) (analog : option (list (list Q))) (last : bool) (own : list Q) : list Q * list Q :=
  let update (new_channel : list Q) := (new_channel, match method with Bposd => new_channel | Match => own end) in
  match analog with
  | Some cols => let new_channel := firstn check_block_size channel_probs ++ virt (concat cols) sigma in
                 update (if last then set_last m new_channel else new_channel)
  | None => if last then update (set_last m channel_probs) else (own, own)
  end.
(* any number of calls with the same decoder object; each call with or without analog syndrome, last round or not *)
Fixpoint own_after (method : dmethod) (m cbs : nat) (sigma : Q) (channel_probs : list Q) (hist : list (option (list (list Q)) * bool)) (own : list Q) : list Q :=
  match hist with [] => own | (a, last) :: r => own_after method m cbs sigma channel_probs r (snd (window_channel method m cbs sigma channel_probs a last own)) end.

(* ---- QssSimulator ---- *)
(* quasi_single_shot_v2.py 141-150: the channel of the constructor *)
Definition qss_channel (repetitions : nat) (data syndr : list Q) : list Q := concat (repeat data repetitions) ++ concat (repeat syndr repetitions).
(* the analog record and the counter during a sample, and the channels used so far *)
Record chan := { ch_mat : list (list Q); ch_cnt : nat; ch_own : list Q; ch_log : list (list Q) }.
Definition qplus (a b : list Q) : list Q := map (fun p => (fst p + snd p)%Q) (combine a b).
(* memory_experiment_v2.py 47-56 move_syndrome on the analog record *)
Definition move_analog (m : nat) (cols : list (list Q)) : list (list Q) :=
  let T := length cols / 2 in firstn T (skipn T cols) ++ repeat (repeat 0%Q m) (length cols - T).
(* quasi_single_shot_v2.py 226-261, analog_tg set: one round; [y]: its analog syndrome; too many rounds in a window are an IndexError (C52: this does not happen) *)
Definition chan_round (method : dmethod) (n m repetitions : nat) (sigma : Q) (channel_probs : list Q) (last : bool) (y : list Q) (st : chan) : option chan :=
  if ch_cnt st <? repetitions then
    let mat := set_nth (ch_cnt st) (qplus (nth (ch_cnt st) (ch_mat st) []) y) (ch_mat st) in
    let cnt := ch_cnt st + 1 in
    if cnt =? repetitions then
      let '(used, own) := window_channel method m (n * repetitions) sigma channel_probs (Some mat) last (ch_own st) in
      Some {| ch_mat := if last then mat else move_analog m mat; ch_cnt := if last then cnt else repetitions / 2; ch_own := own; ch_log := ch_log st ++ [used] |}
    else Some {| ch_mat := mat; ch_cnt := cnt; ch_own := ch_own st; ch_log := ch_log st |}
  else None.
Fixpoint chan_rounds (method : dmethod) (n m repetitions : nat) (sigma : Q) (channel_probs : list Q) (more : nat) (ys : list (list Q)) (st : chan) : option chan :=
  match ys with
  | [] => Some st
  | y :: rest => match chan_round method n m repetitions sigma channel_probs (length rest + more =? 0) y st with
                 | Some st' => chan_rounds method n m repetitions sigma channel_probs more rest st'
                 | None => None
                 end
  end.
(* 193-202: a sample starts with an empty record; the decoder object is that of the simulator, as earlier samples left it *)
Definition chan_init (m repetitions : nat) (own : list Q) : chan := {| ch_mat := repeat (repeat 0%Q m) repetitions; ch_cnt := 0; ch_own := own; ch_log := [] |}.
End Chan.
