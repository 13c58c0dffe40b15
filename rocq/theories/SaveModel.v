(** * SaveModel: the text files of a constructed code (analog_information_decoding/code_construction/code_constructor.py and
    sparse_code_constructor.py): np.savetxt of the matrices, and the distances read from what the GAP script printed.

    A text is the list of its characters; only '\n' ends a line (open() in text mode translates others before). *)
From Coq Require Import List Arith Bool Ascii String ZArith Lia.
From Verif Require Export TextModel PyModel Lin Lin2.
Import ListNotations.
Local Open Scope nat_scope.
Local Open Scope py_scope.

(** "%i" % z *)
Definition showInt (z : Z) : text := if (z <? 0)%Z then "-"%char :: showNat (Z.to_nat (- z)) else showNat (Z.to_nat z).
(** numpy: the entries of a row with the delimiter " " between them *)
Fixpoint savetxtRow (r : list Z) : text :=
  match r with [] => [] | [z] => showInt z | z :: r' => showInt z ++ [" "%char] ++ savetxtRow r' end.
(** np.savetxt(file, mat, fmt="%i"): a newline after every row; code_constructor.py:129, sparse_code_constructor.py:135-137,
    scripts/constructHGPcodes.py:20-21 *)
Definition savetxt (M : list (list Z)) : text := concat (map (fun r => savetxtRow r ++ [nl]) M).

(** code_constructor.py:114-134, the .txt files: [None]: no such matrix; zip stops at the shorter list *)
Definition save_code (path : string) (hx hz mx mz : list (list Z)) (lxz : option (list (list Z) * list (list Z))) (fs : filesystem) : filesystem :=
  let ms := match lxz with Some (lx, lz) => [hx; hz; mx; mz; lx; lz] | None => [hx; hz; mx; mz] end in
  fold_left (fun fs m => fun p => if (p =? path ++ snd m ++ ".txt")%string then Some (savetxt (fst m)) else fs p)
    (combine ms ["hx"; "hz"; "mx"; "mz"; "lx"; "lz"]%string) fs.

(** ** info.txt *)

(** for line in f: the lines with their newlines *)
Fixpoint pylines (s : text) : list text :=
  match s with
  | [] => []
  | c :: s' =>
      if Ascii.eqb c nl then [c] :: pylines s'
      else match pylines s' with [] => [[c]] | l :: ls => (c :: l) :: ls end
  end.
Definition hash : ascii := "#"%char.
Definition startswith_hash (s : text) : bool := match s with c :: _ => Ascii.eqb c hash | [] => false end.
(** line.strip() is not empty *)
Definition nonblank (s : text) : bool := existsb (fun c => negb (isspace c)) s.
(** line[: line.rfind("#")]: what is before the last '#'; without one rfind is -1, and the last character is cut off *)
Fixpoint before_last (s : text) : option text :=
  match s with
  | [] => None
  | c :: s' => match before_last s' with Some p => Some (c :: p) | None => if Ascii.eqb c hash then Some [] else None end
  end.
Definition cut (s : text) : text := match before_last s with Some p => p | None => removelast s end.
(** .split(" = ") *)
Fixpoint split_eq (s : text) : list text :=
  match s with
  | [] => [[]]
  | c :: s' =>
      match s' with
      | d :: e :: r => if Ascii.eqb c " " && Ascii.eqb d "=" && Ascii.eqb e " " then [] :: split_eq r
                       else match split_eq s' with p :: ps => (c :: p) :: ps | [] => [] end
      | _ => match split_eq s' with p :: ps => (c :: p) :: ps | [] => [] end
      end
  end.

(** the values in code_dict *)
Inductive value := VStr (t : text) | VInt (z : Z).
Definition pydict := list (text * value).
Definition dget (d : pydict) (k : text) : option value := option_map snd (find (fun m => text_eqb (fst m) k) d).
(** d[k] = v *)
Fixpoint dset (d : pydict) (k : text) (v : value) : pydict :=
  match d with [] => [(k, v)] | (k', v') :: d' => if text_eqb k' k then (k, v) :: d' else (k', v') :: dset d' k v end.

(** code_constructor.py:148-151, sparse_code_constructor.py:156-159: dict(..) raises ValueError when an element has not two parts *)
Definition read_info (s : text) : py pydict :=
  fold_left (fun (d : py pydict) line => do d <- d;
      match split_eq (cut line) with [k; v] => Ret (dset d k (VStr v)) | _ => Raise ValueError end)
    (filter (fun line => negb (startswith_hash line) && nonblank line) (pylines s)) (Ret []).

(** int(s) of a string: blanks around, a sign, digits.  Simplified: underscores between digits, which Python allows, are no numbers here *)
Definition pyint (s : text) : option Z :=
  let s1 := skipws s in
  let '(neg, s2) := match s1 with
                    | c :: r => if Ascii.eqb c "-" then (true, r) else if Ascii.eqb c "+" then (false, r) else (false, s1)
                    | [] => (false, s1)
                    end in
  let '(d, r) := spanDigits s2 in
  match d with
  | [] => None
  | _ => if nonblank r then None else Some (if neg then (- decimal d)%Z else decimal d)
  end.
(** d[k] = int(d[k]) *)
Definition int_entry (k : string) (d : pydict) : py pydict :=
  let k := list_ascii_of_string k in
  match dget d k with
  | None => Raise KeyError
  | Some (VInt z) => Ret (dset d k (VInt z))
  | Some (VStr t) => match pyint t with Some z => Ret (dset d k (VInt z)) | None => Raise ValueError end
  end.

(** code_constructor.py:143-161 _compute_distances, what is written to code_params.txt; [info] is what the script printed, hx and hz have
    [n] columns *)
Definition compute_distances (n : nat) (hx hz : list vec) (info : text) : py pydict :=
  do d <- read_info info;
  let d := dset d (list_ascii_of_string "n") (VInt (Z.of_nat n)) in
  let d := dset d (list_ascii_of_string "k") (VInt (Z.of_nat n - Z.of_nat (rk n hx) - Z.of_nat (rk n hz))) in
  do d <- int_entry "dX" d; do d <- int_entry "dZ" d; do d <- int_entry "dMX" d; int_entry "dMZ" d.
(** sparse_code_constructor.py:152-167 *)
Definition compute_distances_3d (n : nat) (hx hz : list vec) (info : text) : py pydict :=
  do d <- read_info info;
  let d := dset d (list_ascii_of_string "n") (VInt (Z.of_nat n)) in
  let d := dset d (list_ascii_of_string "k") (VInt (Z.of_nat n - Z.of_nat (rk n hx) - Z.of_nat (rk n hz))) in
  do d <- int_entry "dX" d; int_entry "dZ" d.
(** what compute_distances_3D.sh (and the start of compute_distances.sh) prints *)
Definition info3 (dz dx : text) : text :=
  list_ascii_of_string "dZ = " ++ dz ++ [nl] ++ list_ascii_of_string "dX = " ++ dx ++ [nl].
(** and compute_distances.sh *)
Definition info4 (dz dx dmx dmz : text) : text :=
  info3 dz dx ++ list_ascii_of_string "dMx = " ++ dmx ++ [nl] ++ list_ascii_of_string "dMz = " ++ dmz ++ [nl].
