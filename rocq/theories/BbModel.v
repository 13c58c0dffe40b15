(** * BbModel: src/mqt/qecc/codes/bb_codes.py *)
From Verif Require Export ArrModel CssModel.
Local Open Scope py_scope.

(** bb_codes.py:42-46 *)
Definition shift_matrix (l : nat) : arr := mkArr l l (fun i j => if j =? (i + 1) mod l then 1%Z else 0%Z).
(** bb_codes.py:49-54 *)
Definition x_matrix (l m : nat) : arr := kron (shift_matrix l) (eye m).
Definition y_matrix (l m : nat) : arr := kron (eye l) (shift_matrix m).
(** bb_codes.py:57-66 (exponents are naturals: negative powers are not modelled) *)
Definition cyclic_matrix_sum (x_terms y_terms : list nat) (l m : nat) : arr :=
  let x := x_matrix l m in let y := y_matrix l m in
  let a := zerosA (a_rows x) (a_cols x) in
  let a := fold_left (fun a power => addA a (matpow x power)) x_terms a in
  fold_left (fun a power => addA a (matpow y power)) y_terms a.
(** bb_codes.py:69-74 *)
Definition cyclic_code_check_matrix (m l : nat) (a_terms b_terms : list nat * list nat) : py (arr * arr) :=
  let a := mod2A (cyclic_matrix_sum (fst a_terms) (snd a_terms) l m) in
  let b := mod2A (cyclic_matrix_sum (fst b_terms) (snd b_terms) l m) in
  do hx <- hstackA a b; do hz <- hstackA (trA b) (trA a); Ret (hx, hz).

(** a 0/1 array seen as a check matrix *)
Definition to_nd (A : arr) : nd := mkNd (a_cols A) (map (fun i => map (fun j => Z.odd (a_at A i j)) (seq 0 (a_cols A))) (seq 0 (a_rows A))).

(** bb_codes.py:15-39 *)
Definition construct_bb_code (L : ldpc) (n : Z) : py css :=
  let build m l a b d := do xz <- cyclic_code_check_matrix m l a b; CSSCode L d (Some (to_nd (fst xz))) (Some (to_nd (snd xz))) None None in
  if (n =? 72)%Z then build 6 6 ([3], [1; 2]) ([1; 2], [3]) 6%Z
  else if (n =? 90)%Z then build 15 3 ([9], [1; 2]) ([2; 7], [0]) 10%Z
  else if (n =? 108)%Z then build 9 6 ([3], [1; 2]) ([1; 2], [3]) 10%Z
  else if (n =? 144)%Z then build 12 6 ([3], [1; 2]) ([1; 2], [3]) 12%Z
  else if (n =? 288)%Z then build 12 12 ([3], [2; 7]) ([1; 2], [3]) 18%Z
  else Raise InvalidCSSCodeError.
