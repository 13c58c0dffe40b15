(** * LutModel: class LutDecoder of src/mqt/qecc/ft_stateprep/simulation.py (335-411)

    The two dictionaries are association lists in insertion order.  A numpy array is its item size together with
    its 0/1 entries; [tobytes] is its memory (little endian).  The bytes of an int8 array are its entries. *)
From Verif Require Export CssModel.

Record ndarr := mkArr { itemsize : nat; entries : vec }.
Definition tobytes (a : ndarr) : list nat :=
  flat_map (fun b : bool => (if b then 1 else 0) :: repeat 0 (itemsize a - 1)) (entries a).
Definition key := list nat.
Definition key_eqb (a b : key) : bool := if list_eq_dec Nat.eq_dec a b then true else false.

Fixpoint kfind {A} (k : key) (d : list (key * A)) : option A :=
  match d with [] => None | (k', v) :: d' => if key_eqb k k' then Some v else kfind k d' end.
(** defaultdict(list): d[k].append(x) *)
Fixpoint kappend (k : key) (x : vec) (d : list (key * list vec)) : list (key * list vec) :=
  match d with
  | [] => [(k, [x])]
  | (k', l) :: d' => if key_eqb k k' then (k', l ++ [x]) :: d' else (k', l) :: kappend k x d'
  end.
(** simulation.py 402: np.binary_repr(i).zfill(n): the n binary digits of i, most significant first *)
Definition binary_digits (n i : nat) : vec := map (fun j => Nat.testbit i (n - 1 - j)) (seq 0 n).
(** min(v, key=np.sum): the first of the entries with the least sum (np.sum of an int8 array is a wide integer) *)
Fixpoint min_sum (best : vec) (l : list vec) : vec :=
  match l with [] => best | v :: l' => min_sum (if weight v <? weight best then v else best) l' end.

Definition lut := list (key * vec).
(** simulation.py 392-411; the case of no columns ('0'.zfill(0) has one digit: shape mismatch) is not modelled:
    constructed codes have n >= 1 *)
Definition generate_lut (checks : nd) : lut :=
  let n := nd_cols checks in
  let syndromes := fold_left (fun d i =>
      let state := binary_digits n i in
      kappend (tobytes (mkArr 1 (mulMV (nd_rows checks) state))) state d) (seq 0 (2 ^ n)) [] in
  map (fun '(k, v) => (k, match v with [] => [] | s :: v' => min_sum s v' end)) syndromes.

Record lutdec := mkLut { ld_code : css; x_lut : lut; z_lut : lut }.
(** simulation.py 372-380 *)
Definition generate_x_lut (s : lutdec) : lutdec :=
  if negb (length (x_lut s) =? 0) then s else
  let x := generate_lut (css_Hz (ld_code s)) in
  if is_self_dual (ld_code s) then mkLut (ld_code s) x x else mkLut (ld_code s) x (z_lut s).
(** simulation.py 382-390 *)
Definition generate_z_lut (s : lutdec) : lutdec :=
  if negb (length (z_lut s) =? 0) then s else
  let z := generate_lut (css_Hx (ld_code s)) in
  if is_self_dual (ld_code s) then mkLut (ld_code s) (x_lut s) (x_lut s) else mkLut (ld_code s) (x_lut s) z.
(** simulation.py 338-350 *)
Definition LutDecoder (c : css) (init_luts : bool) : lutdec :=
  let s := mkLut c [] [] in if init_luts then generate_z_lut (generate_x_lut s) else s.
(** simulation.py 360-364 and 366-370 *)
Definition decode_x (syn : ndarr) (s : lutdec) : lutdec * py vec :=
  let s := if length (x_lut s) =? 0 then generate_x_lut s else s in
  (s, match kfind (tobytes syn) (x_lut s) with Some e => Ret e | None => Raise KeyError end).
Definition decode_z (syn : ndarr) (s : lutdec) : lutdec * py vec :=
  let s := if length (z_lut s) =? 0 then generate_z_lut s else s in
  (s, match kfind (tobytes syn) (z_lut s) with Some e => Ret e | None => Raise KeyError end).
(** simulation.py 352-358: np.apply_along_axis over the rows, which refuses an empty batch *)
Fixpoint batch (f : ndarr -> lutdec -> lutdec * py vec) (rows : list vec) (w : nat) (s : lutdec) : lutdec * py (list vec) :=
  match rows with
  | [] => (s, Ret [])
  | r :: rows' => let '(s, o) := f (mkArr w r) s in
      match o with
      | Raise e => (s, Raise e)
      | Ret v => let '(s, o) := batch f rows' w s in (s, match o with Ret vs => Ret (v :: vs) | Raise e => Raise e end)
      end
  end.
Definition batch_decode f (rows : list vec) (w : nat) (s : lutdec) : lutdec * py (list vec) :=
  match rows with [] => (s, Raise ValueError) | _ => batch f rows w s end.

(** the public calls, in any order *)
Inductive lut_op := OpGenX | OpGenZ | OpDecX (syn : ndarr) | OpDecZ (syn : ndarr).
Definition lut_step (s : lutdec) (o : lut_op) : lutdec :=
  match o with OpGenX => generate_x_lut s | OpGenZ => generate_z_lut s
             | OpDecX syn => fst (decode_x syn s) | OpDecZ syn => fst (decode_z syn s) end.
Definition lut_run (s : lutdec) (os : list lut_op) : lutdec := fold_left lut_step os s.
