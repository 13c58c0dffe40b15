(* Model of the statistics of src/mqt/qecc/analog_information_decoding/utils/data_utils.py: error rates, convergence,
   merging of result dictionaries.  Numbers that the code computes in floating point are real numbers here. *)
From Coq Require Import List String Reals ZArith.
Import ListNotations.
Open Scope R_scope.

(* x ** y for x >= 0: Rpower is only meaningful for x > 0; 0.0 ** y = 0 for y > 0 and 1 for y = 0 *)
Definition pypow (x y : R) : R :=
  if Req_EM_T x 0 then (if Req_EM_T y 0 then 1 else 0) else Rpower x y.

(* data_utils.py:72-87 calculate_error_rates and 200-211 _update_error_rates (the same text); k is code_params["k"].
   Division by zero (runs = 0 or k = 0) raises and is excluded where these are used. *)
Definition ler (success runs : R) : R := 1 - success / runs.
Definition ler_eb (success runs : R) : R := sqrt ((1 - ler success runs) * ler success runs / runs).
Definition wer (success runs k : R) : R := 1 - pypow (1 - ler success runs) (1 / k).
Definition wer_eb (success runs k : R) : R :=
  ler_eb success runs * pypow (1 - ler_eb success runs) (1 / k - 1) / k.

(* data_utils.py:97-105 _check_convergence: True, None or False.  Its ler, ler_eb are the word error rate and error bar *)
Definition check_convergence (success runs k cutoff : R) : option bool :=
  if Req_EM_T (wer_eb success runs k) 0 then Some false
  else if Rlt_dec (wer_eb success runs k / wer success runs k) cutoff then Some true else None.

Definition pyeq (a b : option bool) : bool :=
  match a, b with Some x, Some y => Bool.eqb x y | None, None => true | _, _ => false end.
Definition is_true (a : option bool) : bool := match a with Some true => true | _ => false end.

(* data_utils.py:90-94 is_converged: "x_cond == z_cond is True" is "(x_cond == z_cond) and (z_cond is True)" *)
Definition is_converged (x_success z_success runs k precision : R) : bool :=
  let x_cond := check_convergence x_success runs k precision in
  let z_cond := check_convergence z_success runs k precision in
  (pyeq x_cond z_cond && is_true z_cond)%bool.

(* ---- dictionaries ---- *)
Inductive val := VZ (z : Z) | VR (r : R) | VO (tag : nat).
Definition dict := list (string * val).
Fixpoint get (k : string) (d : dict) : option val :=
  match d with [] => None | (k', v) :: r => if String.eqb k k' then Some v else get k r end.
Fixpoint set (k : string) (v : val) (d : dict) : dict :=
  match d with [] => [(k, v)] | (k', v') :: r => if String.eqb k k' then (k, v) :: r else (k', v') :: set k v r end.
(* dict.pop *)
Definition pop (k : string) (d : dict) : dict := filter (fun kv => negb (String.eqb k (fst kv))) d.
(* dict.update *)
Definition update (d e : dict) : dict := fold_left (fun acc kv => set (fst kv) (snd kv) acc) e d.

Inductive mres := MOk (d : dict) | MKeyErr | MTypeErr | MZeroDiv.
Definition mbind (x : mres) (f : dict -> mres) : mres := match x with MOk d => f d | e => e end.

(* merged[k] += data.get(k, 0); counts are integers (anything else: TypeError, not modelled further) *)
Definition add_key (k : string) (data merged : dict) : mres :=
  match get k merged with
  | None => MKeyErr
  | Some (VZ a) => match get k data with None => MOk (set k (VZ (a + 0)) merged) | Some (VZ b) => MOk (set k (VZ (a + b)) merged) | _ => MTypeErr end
  | Some _ => MTypeErr
  end.
Fixpoint add_keys (ks : list string) (data merged : dict) : mres :=
  match ks with [] => MOk merged | k :: r => mbind (add_key k data merged) (add_keys r data) end.
Fixpoint add_all (ks : list string) (datas : list dict) (merged : dict) : mres :=
  match datas with [] => MOk merged | d :: r => mbind (add_keys ks d merged) (add_all ks r) end.

(* the five entries written back for one side, e.g. 245-250; side is "x" or "z" *)
Definition rates (side : string) (success runs k : Z) : dict :=
  [(side ++ "_ler", VR (ler (IZR success) (IZR runs))); (side ++ "_ler_eb", VR (ler_eb (IZR success) (IZR runs)));
   (side ++ "_wer", VR (wer (IZR success) (IZR runs) (IZR k))); (side ++ "_wer_eb", VR (wer_eb (IZR success) (IZR runs) (IZR k)));
   (side ++ "_success_cnt", VZ success)]%string.
Definition side_rates (side : string) (merged : dict) : option dict :=
  match get "nr_runs" merged, get (side ++ "_success_cnt") merged, get "code_K" merged with
  | Some (VZ runs), Some (VZ s), Some (VZ k) => Some (rates side s runs k)
  | _, _, _ => None
  end.
Definition zero_runs (merged : dict) : bool :=
  match get "nr_runs" merged, get "code_K" merged with
  | Some (VZ runs), Some (VZ k) => ((runs =? 0) || (k =? 0))%Z%bool | _, _ => false end.

(* data_utils.py:214-258 merge_datasets *)
Definition merge_datasets (datasets : list dict) : mres :=
  match datasets with
  | [] => MOk []
  | d :: rest =>
    mbind (add_all ["nr_runs"; "x_success_cnt"; "z_success_cnt"]%string rest d) (fun merged =>
      match side_rates "x" merged, side_rates "z" merged with
      | Some rx, Some rz => if zero_runs merged then MZeroDiv else MOk (update merged (rx ++ rz))
      | _, _ => MKeyErr
      end)
  end.

Definition has (k : string) (d : dict) : bool := match get k d with Some _ => true | None => false end.

(* data_utils.py:261-305 _merge_datasets_x and 308-352 _merge_datasets_z: the same with side "x" or "z".  After the
   filter in the first line the loop that looks for the first dictionary with the key takes the first one *)
Definition merge_datasets_side (side : string) (datasets : list dict) : mres :=
  match filter (has (side ++ "_success_cnt")) datasets with
  | [] => MOk []
  | d :: rest =>
    mbind (add_all ["nr_runs"; side ++ "_success_cnt"]%string rest d) (fun merged =>
      match side_rates side merged with
      | Some r => if zero_runs merged then MZeroDiv else MOk (update merged r)
      | None => MKeyErr
      end)
  end.

(* x["x_runs"] = x.pop("nr_runs") *)
Definition rename_runs (new : string) (d : dict) : mres :=
  match get "nr_runs" d with Some v => MOk (set new v (pop "nr_runs" d)) | None => MKeyErr end.

(* data_utils.py:515-534 _combine_xz_data; an empty dictionary counts as false *)
Definition combine_xz_data (xdata zdata : dict) : mres :=
  match xdata, zdata with
  | _ :: _, _ :: _ => mbind (rename_runs "x_runs" xdata) (fun x => mbind (rename_runs "z_runs" zdata) (fun z => MOk (update x z)))
  | _ :: _, [] => rename_runs "x_runs" xdata
  | [], _ :: _ => rename_runs "z_runs" zdata
  | [], [] => MOk []
  end.

(* data_utils.py:466-512 merge_json_files_xz, the part for one folder *)
Definition merge_xz (datasets : list dict) : mres :=
  mbind (merge_datasets_side "x" datasets) (fun x => mbind (merge_datasets_side "z" datasets) (fun z => combine_xz_data x z)).
