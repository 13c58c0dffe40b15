(** * ArrModel: two-dimensional numpy integer arrays (shape and entries) and the numpy/scipy operations used by
    codes/bb_codes.py and analog_information_decoding/code_construction.  Entries are unbounded integers:
    all the arrays of these files are sums of at most a few 0/1 entries or are only used modulo 2, which a
    fixed-width wrap-around preserves.  Dense and sparse (csr) arrays are the same object here. *)
From Verif Require Export PyModel.
From Coq Require Export ZArith List Lia Bool Arith.
Export ListNotations.

Record arr := mkArr { a_rows : nat; a_cols : nat; a_at : nat -> nat -> Z }.

Fixpoint sumZ (n : nat) (f : nat -> Z) : Z := match n with 0 => 0%Z | S k => (sumZ k f + f k)%Z end.

(** np.identity / np.eye / np.zeros *)
Definition eye (n : nat) : arr := mkArr n n (fun i j => if i =? j then 1%Z else 0%Z).
Definition zerosA (r c : nat) : arr := mkArr r c (fun _ _ => 0%Z).
(** A @ B *)
Definition mmul (A B : arr) : arr := mkArr (a_rows A) (a_cols B) (fun i j => sumZ (a_cols A) (fun k => a_at A i k * a_at B k j)%Z).
Definition matmul (A B : arr) : py arr := if a_cols A =? a_rows B then Ret (mmul A B) else Raise ValueError.
(** np.kron: entry (i, j) is A[i // p, j // q] * B[i % p, j % q] for B of shape (p, q) *)
Definition kron (A B : arr) : arr := mkArr (a_rows A * a_rows B) (a_cols A * a_cols B)
  (fun i j => a_at A (i / a_rows B) (j / a_cols B) * a_at B (i mod a_rows B) (j mod a_cols B))%Z.
(** np.hstack / np.vstack of two arrays *)
Definition hcat (A B : arr) : arr := mkArr (a_rows A) (a_cols A + a_cols B) (fun i j => if j <? a_cols A then a_at A i j else a_at B i (j - a_cols A)).
Definition vcat (A B : arr) : arr := mkArr (a_rows A + a_rows B) (a_cols A) (fun i j => if i <? a_rows A then a_at A i j else a_at B (i - a_rows A) j).
Definition hstackA (A B : arr) : py arr := if a_rows A =? a_rows B then Ret (hcat A B) else Raise ValueError.
Definition vstackA (A B : arr) : py arr := if a_cols A =? a_cols B then Ret (vcat A B) else Raise ValueError.
(** A.T, A + B, A % 2 *)
Definition trA (A : arr) : arr := mkArr (a_cols A) (a_rows A) (fun i j => a_at A j i).
Definition addA (A B : arr) : arr := mkArr (a_rows A) (a_cols A) (fun i j => a_at A i j + a_at B i j)%Z.
Definition mod2A (A : arr) : arr := mkArr (a_rows A) (a_cols A) (fun i j => a_at A i j mod 2)%Z.
(** np.linalg.matrix_power(A, k), k >= 0 *)
Fixpoint matpow (A : arr) (k : nat) : arr := match k with 0 => eye (a_rows A) | S k' => mmul (matpow A k') A end.
(** not np.any(A % 2) *)
Definition even_everywhere (A : arr) : bool := forallb (fun i => forallb (fun j => Z.even (a_at A i j)) (seq 0 (a_cols A))) (seq 0 (a_rows A)).
