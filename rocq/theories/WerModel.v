(** * WerModel: src/DecodingSimulator.cpp, the two simulation drivers of the union-find decoders.
    Error rates are rationals instead of doubles (sums of rates are exact); what is random or external is a parameter: the
    errors that are drawn, the choices of the decoders, the decoding times, the printed form of numbers and records. *)
From Coq Require Import List Arith Bool String Ascii QArith Lia.
From Verif Require Export UfModel UfhModel.
Import ListNotations.
Local Open Scope nat_scope.

(** include/DecodingSimulator.hpp:13-16 *)
Inductive decoderType := UfHeuristic | UfDecoder.
(** the random choices of one decoding *)
Record draws := mkDraws { d_r1 : nat -> nat; d_r2 : nat -> nat; d_c1 : choices; d_c2 : choices }.
(** a fresh decoder object (growth = AllComponents, include/Decoder.hpp:72) decodes; src/DecodingSimulator.cpp:63-74 and 143-156 *)
Definition decodeWith (t : decoderType) (fuel : nat) (r : draws) (dc : code) (s : vec) : run (list nat * vec) :=
  match t with
  | UfDecoder => ufDecode fuel AllComponents (d_r1 r) (d_r2 r) dc s
  | UfHeuristic => ufhDecode fuel AllComponents (d_c1 r) (d_c2 r) dc s
  end.

(** include/DecodingRunInformation.hpp:59-64, without the decoding time *)
Record info := mkInfo { i_per : Q; i_size : nat; i_error : vec; i_syndrome : vec; i_failed : bool; i_result : list nat * vec }.

(** include/DecodingRunInformation.hpp:57 and src/DecodingSimulator.cpp:71-88: one run.  Only result and status of the record are set. *)
Definition werRun (dec : code -> vec -> run (list nat * vec)) (c : code) (error : vec) : run info :=
  let dc := decoderSetCode c in
  match getXSyndrome dc error with
  | Err e => Threw e
  | Ok syndrome =>
      match dec dc syndrome with
      | Running => Running | Threw e => Threw e
      | Finished (idx, est) =>
          match (let* residual := computeResidualErr error est in isXStabilizer dc residual) with
          | Err e => Threw e
          | Ok success => Finished (mkInfo 0%Q 0 [] [] (negb success) (idx, est))
          end
      end
  end.

(** src/DecodingSimulator.cpp:62-95: the runs j, j+1, ..., j+todo-1 of one rate; failures and what goes to the statistics file *)
Fixpoint werRuns (dump : info -> string) (dec : nat -> code -> vec -> run (list nat * vec)) (errs : nat -> vec) (c : code) (nruns j todo : nat) : run (nat * string) :=
  match todo with
  | O => Finished (0, EmptyString)
  | S todo' =>
      match werRun (dec j) c (errs j) with
      | Running => Running | Threw e => Threw e
      | Finished inf =>
          match werRuns dump dec errs c nruns (S j) todo' with
          | Running => Running | Threw e => Threw e
          | Finished (failed, txt) =>
              Finished ((if i_failed inf then 1 else 0) + failed, (dump inf ++ (if (j =? nruns - 1)%nat then "" else ", ") ++ txt)%string)
          end
      end
  end.

(** a double as far as it matters here: src/DecodingSimulator.cpp:97-98, failed / runs / k *)
Inductive rate := RFin (q : Q) | RInf | RNaN.
Definition wordErrRate (failed runs k : nat) : rate :=
  if runs =? 0 then RNaN
  else if k =? 0 then (if failed =? 0 then RNaN else RInf)
  else RFin (inject_Z (Z.of_nat failed) / inject_Z (Z.of_nat runs) / inject_Z (Z.of_nat k)).

(** std::map::try_emplace: an existing entry stays *)
Definition tryEmplace {V} (key : string) (v : V) (m : list (string * V)) : list (string * V) :=
  if existsb (fun p => String.eqb key (fst p)) m then m else m ++ [(key, v)].
Fixpoint lookup {V} (key : string) (m : list (string * V)) : option V :=
  match m with [] => None | (k, v) :: m' => if String.eqb key k then Some v else lookup key m' end.

(** src/DecodingSimulator.cpp:59-102: the loop over the rates; one unit of fuel per rate *)
Fixpoint werLoop (fuel : nat) (show : Q -> string) (dump : info -> string) (dec : nat -> nat -> code -> vec -> run (list nat * vec)) (errs : nat -> nat -> vec)
    (maxPer step : Q) (nruns : nat) (c : code) (k : nat) (i : nat) (currPer : Q) (m : list (string * rate)) (txt : string) : run (list (string * rate) * string) :=
  if negb (Qle_bool maxPer currPer) then
    match fuel with
    | O => Running
    | S fuel' =>
        match werRuns dump (dec i) (errs i) c nruns 0 nruns with
        | Running => Running | Threw e => Threw e
        | Finished (failed, t) =>
            werLoop fuel' show dump dec errs maxPer step nruns c k (S i) (currPer + step)%Q
              (tryEmplace (show currPer) (wordErrRate failed nruns k) m) (txt ++ t)%string
        end
    end
  else Finished (m, txt).

(** a quotation mark *)
Definition q1 : string := String (ascii_of_nat 34) EmptyString.
(** src/DecodingSimulator.cpp:55-56 *)
Definition statsHeader (show : Q -> string) (minPer : Q) : string :=
  ("{ " ++ q1 ++ "runs" ++ q1 ++ " : [ { " ++ q1 ++ "run" ++ q1 ++ ": { " ++ q1 ++ "physicalErrRate" ++ q1 ++ ":" ++ show minPer ++ ", " ++ q1 ++ "data" ++ q1 ++ ": [ ")%string.
(** src/DecodingSimulator.cpp:33-109: the content of the two output files (the map is dumped to the raw-data file);
    [show] prints rates as map keys, [showH] as in the header; [k] is code.getK() *)
Definition simulateWER (fuel : nat) (show showH : Q -> string) (dump : info -> string) (dec : nat -> nat -> code -> vec -> run (list nat * vec)) (errs : nat -> nat -> vec)
    (minPer maxPer : Q) (nruns : nat) (c : code) (k : nat) (step : Q) : run (list (string * rate) * string) :=
  match werLoop fuel show dump dec errs maxPer step nruns c k 0 minPer [] (statsHeader showH minPer) with
  | Finished (m, txt) => Finished (m, (txt ++ "}")%string)
  | Running => Running | Threw e => Threw e
  end.
(** include/Code.hpp:115 and 148-180: no constructor of Code computes or sets k *)
Definition constructedK : nat := 0.

(** ** simulateAverageRuntime *)
(** what happens: the file is written, the program does not return, or it is killed by an integer division by zero *)
Inductive outcome := Written (tbl : list (string * list (nat * nat))) | NoReturn | Killed.
(** one sample, src/DecodingSimulator.cpp:153-171: error, syndrome, decoding *)
Definition avgSample (dec : code -> vec -> run (list nat * vec)) (c : code) (error : vec) : run unit :=
  match getXSyndrome c error with
  | Err e => Threw e
  | Ok s => match dec (decoderSetCode c) s with Running => Running | Threw e => Threw e | Finished _ => Finished tt end
  end.
(** src/DecodingSimulator.cpp:143-171: the samples of one run; the accumulated time comes from outside the loop *)
Fixpoint avgSamples (dec : nat -> code -> vec -> run (list nat * vec)) (errs : nat -> vec) (time : nat -> nat) (c : code) (i todo acc : nat) : run nat :=
  match todo with
  | O => Finished acc
  | S todo' =>
      match avgSample (dec i) c (errs i) with
      | Running => Running | Threw e => Threw e
      | Finished _ => avgSamples dec errs time c (S i) todo' (acc + time i)
      end
  end.
(** the result of one code: None for the division by zero of src/DecodingSimulator.cpp:172 *)
Fixpoint avgRuns (dec : nat -> nat -> code -> vec -> run (list nat * vec)) (errs : nat -> nat -> vec) (time : nat -> nat -> nat) (c : code) (nsamples j todo acc : nat) (tbl : list (nat * nat)) : option (run (list (nat * nat))) :=
  match todo with
  | O => Some (Finished tbl)
  | S todo' =>
      match avgSamples (dec j) (errs j) (time j) c 0 nsamples acc with
      | Running => Some Running | Threw e => Some (Threw e)
      | Finished acc' =>
          if nsamples =? 0 then None
          else avgRuns dec errs time c nsamples (S j) todo' acc' (tbl ++ [(j, acc' / nsamples)])
      end
  end.
(** src/DecodingSimulator.cpp:137-188: the files of the directory in the order of the iterator, each with what Code(path) gives;
    an exception ends the loop over the files, the table so far is written.  The keys j are printed with std::to_string *)
Fixpoint avgCodes (dec : nat -> nat -> nat -> code -> vec -> run (list nat * vec)) (errs : nat -> nat -> nat -> vec) (time : nat -> nat -> nat -> nat)
    (nruns nsamples : nat) (p : nat) (files : list (string * result code)) (tbl : list (string * list (nat * nat))) : outcome :=
  match files with
  | [] => Written tbl
  | (path, Err _) :: _ => Written tbl
  | (path, Ok c) :: files' =>
      match avgRuns (dec p) (errs p) (time p) c nsamples 0 nruns 0 [] with
      | None => Killed
      | Some Running => NoReturn
      | Some (Threw _) => Written tbl
      | Some (Finished t) => avgCodes dec errs time nruns nsamples (S p) files' (tryEmplace path t tbl)
      end
  end.
Definition simulateAverageRuntime dec errs time (nruns nsamples : nat) (files : list (string * result code)) : outcome :=
  avgCodes dec errs time nruns nsamples 0 files [].
