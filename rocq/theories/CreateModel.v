(** * CreateModel: create_code of code_construction/code_constructor.py (4D) and sparse_code_constructor.py (3D), with the files that are
    written.  bposd's hgp is a parameter; the distances, computed by an external script, are not modelled (compute_distance=False). *)
From Coq Require Import String.
From Verif Require Export ProductModel BbModel CssModel.
Local Open Scope py_scope.

(** the matrices saved, code_constructor.py:114-134, sparse_code_constructor.py:118-143; [None]: no such file is written *)
Record saved := mkSaved { s_hx : arr; s_hz : arr; s_mx : option arr; s_mz : arr; s_lx : option (list vec); s_lz : option (list vec) }.
(** what is on disk afterwards, the content of code_params.txt (n, k), and how the call ends *)
Record created := mkCreated { files : option saved; params : option (nat * Z); ending : py unit }.
Definition fails (e : pyexn) : created := mkCreated None None (Raise e).

(** code_constructor.py:164-180 *)
Definition compute_lz (L : ldpc) (hx hz : arr) : list vec := compute_logical L (a_cols hx) (nd_rows (to_nd hx)) (nd_rows (to_nd hz)).
Definition compute_logicals_ (L : ldpc) (hx hz : arr) : list vec * list vec := (compute_lz L hz hx, compute_lz L hx hz).

(** seed_codes[i] *)
Definition seed (seeds : list arr) (i : nat) : py arr := match nth_error seeds i with Some a => Ret a | None => Raise IndexError end.
(** code_constructor.py:183-226; the arrays come from code.hx, code.hz *)
Definition create_code (L : ldpc) (hgp : arr -> arr -> arr * arr) (constructor : string) (seeds : list arr) (compute_logicals checks : bool) : created :=
  match (if String.eqb constructor "hgp" then do s0 <- seed seeds 0; do s1 <- seed seeds 1; Ret (hgp s0 s1) else Raise ValueError) with
  | Raise e => fails e
  | Ret (hx0, hz0) =>
      match (do s2 <- seed seeds 2; do res <- generate_3d_product_code hx0 (trA hz0) s2; do s3 <- seed seeds 3;
             create_code_arrays hx0 hz0 s2 s3 checks) with
      | Raise e => fails e
      | Ret (mx, hx, hz, mz) =>
          let '(lx, lz) := compute_logicals_ L hx hz in
          mkCreated (Some (mkSaved hx hz (Some mx) mz (if compute_logicals then Some lx else None) (if compute_logicals then Some lz else None))) None (Ret tt)
      end
  end.

(** sparse_code_constructor.py:170-179: the arguments are already dense, todense() is not an attribute of them *)
Definition store_code_params_of_dense : py unit := Raise AttributeError.
(** the same with sparse arguments, as the function is annotated *)
Definition store_code_params (hx hz : arr) : nat * Z :=
  (a_cols hx, (Z.of_nat (a_cols hx) - Z.of_nat (rk (a_cols hx) (nd_rows (to_nd hx))) - Z.of_nat (rk (a_cols hz) (nd_rows (to_nd hz))))%Z).
(** sparse_code_constructor.py:182-216 with compute_distance=False *)
Definition create_code_3d (L : ldpc) (hgp : arr -> arr -> arr * arr) (constructor : string) (seeds : list arr) (compute_logicals : bool) : created :=
  match (if String.eqb constructor "hgp" then do s0 <- seed seeds 0; do s1 <- seed seeds 1; Ret (hgp s0 s1) else Raise ValueError) with
  | Raise e => fails e
  | Ret (hx0, hz0) =>
      match (do s2 <- seed seeds 2; create_code_arrays_3d hx0 hz0 s2) with
      | Raise e => fails e
      | Ret (hx, hz, mz) =>
          let '(lx, lz) := compute_logicals_ L hx hz in
          mkCreated (if compute_logicals then Some (mkSaved hx hz None mz (Some lx) (Some lz)) else None) None store_code_params_of_dense
      end
  end.

(** the hypergraph product as bposd.hgp documents it: hx = [h1 (x) I | I (x) h2^T], hz = [I (x) h2 | h1^T (x) I] *)
Definition hypergraph_product (h1 h2 : arr) : arr * arr :=
  (hcat (kron h1 (eye (a_cols h2))) (kron (eye (a_rows h1)) (trA h2)), trA (vcat (kron (eye (a_cols h1)) (trA h2)) (kron h1 (eye (a_rows h2))))).
