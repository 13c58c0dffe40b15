(** * ProductModel: analog_information_decoding/code_construction/code_constructor.py and
    sparse_code_constructor.py (the sparse functions have the same array semantics). *)
From Verif Require Export ArrModel.
Local Open Scope py_scope.

(** code_constructor.py:27-42; sparse_code_constructor.py:34-38 *)
Definition run_checks_scipy (d1 d2 d3 d4 : arr) : py unit :=
  do p12 <- matmul d1 d2; do p23 <- matmul d2 d3; do p34 <- matmul d3 d4;
  if even_everywhere p12 && even_everywhere p23 && even_everywhere p34 then Ret tt else Raise RuntimeError.

(** the stacked middle map [a_hi x I_r | I x p ; 0 | a_lo x I_c], code_constructor.py:59-63 and 65-69, 93-97 *)
Definition middle_map (a_lo a_hi p : arr) : py arr :=
  let id_r := eye (a_rows p) in let id_c := eye (a_cols p) in
  do x <- hstackA (kron a_hi id_r) (kron (eye (a_rows a_hi)) p);
  let y := kron a_lo id_c in
  if a_cols x <? a_cols y then Raise ValueError (* negative dimension *) else
  do z <- hstackA (zerosA (a_rows y) (a_cols x - a_cols y)) y;
  vstackA x z.

(** code_constructor.py:79-104; sparse_code_constructor.py:81-107 *)
Definition generate_3d_product_code (a1 a2 p : arr) : py (arr * arr * arr) :=
  let id_r := eye (a_rows p) in let id_c := eye (a_cols p) in
  do d1 <- hstackA (kron a1 id_r) (kron (eye (a_rows a1)) p);
  do d2 <- middle_map a1 a2 p;
  do d3 <- vstackA (kron (eye (a_cols a2)) p) (kron a2 id_c);
  do p12 <- matmul d1 d2; do p23 <- matmul d2 d3;
  if even_everywhere p12 && even_everywhere p23 then Ret (d1, d2, d3) else Raise RuntimeError.

(** code_constructor.py:45-76; sparse_code_constructor.py:41-78 *)
Definition generate_4d_product_code (a1 a2 a3 p : arr) (checks : bool) : py (arr * arr * arr * arr) :=
  let id_r := eye (a_rows p) in let id_c := eye (a_cols p) in
  do d1 <- hstackA (kron a1 id_r) (kron (eye (a_rows a1)) p);
  do d2 <- middle_map a1 a2 p;
  do d3 <- middle_map a2 a3 p;
  do d4 <- vstackA (kron (eye (a_cols a3)) p) (kron a3 id_c);
  if checks then do u <- run_checks_scipy d1 d2 d3 d4; Ret (d1, d2, d3, d4) else Ret (d1, d2, d3, d4).

(** the part of create_code that builds and checks the arrays, code_constructor.py:183-208; the files written
    are not modelled.  hgp is the external package bposd: the pair (hx, hz) of its result is an argument. *)
Definition create_code_arrays (hx hz seed2 seed3 : arr) (checks : bool) : py (arr * arr * arr * arr) :=
  do res <- generate_3d_product_code hx (trA hz) seed2;
  let '(d1, d2, d3) := res in
  do res4 <- generate_4d_product_code d1 d2 d3 seed3 checks;
  let '(mx, hx', hzt, mzt) := res4 in
  do q1 <- matmul hzt mzt; do q2 <- matmul hx' hzt; do q3 <- matmul mx hx';
  if negb (even_everywhere q1) || negb (even_everywhere q2) || negb (even_everywhere q3) then Raise RuntimeError
  else Ret (mx, hx', trA hzt, trA mzt).

(** sparse_code_constructor.py:188-209 (create_code, array part) *)
Definition create_code_arrays_3d (hx hz seed2 : arr) : py (arr * arr * arr) :=
  do res <- generate_3d_product_code hx (trA hz) seed2;
  let '(hx', hzt, mzt) := res in Ret (hx', trA hzt, trA mzt).
