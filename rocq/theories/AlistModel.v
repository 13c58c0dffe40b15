(* AlistModel: alist2numpy of src/mqt/qecc/analog_information_decoding/utils/simulation_utils.py (25-40).  A file is the list of its
   lines, a line the list of its blank-separated words: numbers (digits only) or anything else.  Not modelled: commas and
   comments ('#'), numbers beyond int32, the signs that int() but not isdigit() accepts (they count as other words). *)
From Coq Require Import List Arith Bool.
From Verif Require Import Lin AnalogModel.
Import ListNotations.

Inductive word := Num (k : nat) | Other.
(* 27: np.loadtxt(fname, delimiter=",", dtype=str) skips lines without words; a file of fewer than two such lines cannot be
   indexed, which is an IndexError as well *)
Definition loadtxt (file : list (list word)) : list (list word) := filter (fun l => match l with [] => false | _ => true end) file.
(* int(word): 29, 30 *)
Definition int_of (w : option word) : pyres nat := match w with Some (Num k) => Ret k | Some Other => ValueErr | None => IndexErr end.
(* 35: the words of a line that are numbers *)
Definition digits (l : list word) : list nat := flat_map (fun w => match w with Num k => [k] | Other => [] end) l.
(* 37-38: zero-based index into a row of n entries; -1 is the last entry *)
Definition col_index (n c : nat) : option nat :=
  match c with 0 => if n =? 0 then None else Some (n - 1) | S j => if j <? n then Some j else None end.
Fixpoint put (n : nat) (cols : list nat) (row : vec) : pyres vec :=
  match cols with
  | [] => Ret row
  | c :: r => match col_index n c with Some j => put n r (set_nth j true row) | None => IndexErr end
  end.
(* 34-38: rows i, i+1, ..., i+m-1 *)
Fixpoint read_rows (lines : list (list word)) (n i m : nat) : pyres mat :=
  match m with
  | 0 => Ret []
  | S m' =>
    match nth_error lines (i + 4) with
    | None => IndexErr
    | Some l => match put n (digits l) (vzero n) with
                | Ret row => match read_rows lines n (S i) m' with Ret M => Ret (row :: M) | e => e end
                | UnboundLocal => UnboundLocal | IndexErr => IndexErr | ValueErr => ValueErr | TypeErr => TypeErr | ZeroDiv => ZeroDiv
                end
    end
  end.
(* 25-40 *)
Definition alist2numpy (file : list (list word)) : pyres mat :=
  let lines := loadtxt file in
  match lines with
  | first :: _ :: _ =>
    match int_of (nth_error first 0), int_of (nth_error first 1) with
    | Ret m, Ret n => read_rows lines n 0 m
    | Ret _, e => match e with Ret _ => IndexErr | IndexErr => IndexErr | _ => ValueErr end
    | IndexErr, _ => IndexErr
    | _, _ => ValueErr
    end
  | _ => IndexErr
  end.
