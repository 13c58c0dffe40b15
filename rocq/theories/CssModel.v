(** * CssModel: src/mqt/qecc/codes/css_code.py
    A check matrix of shape (r, c) is the number of columns together with the list of its rows (so that
    a matrix without rows still has a width).  Integer products modulo 2 are XORs of ANDs: the possible
    int8 wrap-around keeps parities (StabProofs.idot_odd). *)
From Verif Require Export StabModel.

Record nd := mkNd { nd_cols : nat; nd_rows : list vec }.
(** the rows of an array all have the declared width *)
Definition nd_ok (H : nd) : Prop := wf (nd_cols H) (nd_rows H).

(** The functions of the external package ldpc.mod2 used by the class, as parameters. *)
Record ldpc := mkLdpc {
  l_nullspace : nat -> mat -> mat;      (* basis of the kernel *)
  l_row_basis : nat -> mat -> mat;      (* basis of the row space *)
  l_pivots_T  : nat -> mat -> list nat  (* row_echelon(M.T)[3]: pivot columns of the transpose of M *) }.

Record css := mkCss {
  css_stab : stabcode; css_Hx : nd; css_Hz : nd;
  css_distance : Z; css_xdist : Z; css_zdist : Z; css_Lx : list vec; css_Lz : list vec }.

(** css_code.py:145-158 *)
Definition check_valid_check_matrices (Hx Hz : option nd) : py unit :=
  match Hx, Hz with
  | None, None => Raise InvalidCSSCodeError
  | Some hx, Some hz =>
      if negb (Nat.eqb (nd_cols hx) (nd_cols hz)) then Raise InvalidCSSCodeError else
      if existsb (existsb (fun b => b)) (mulABt (nd_rows hx) (nd_rows hz)) then Raise InvalidCSSCodeError else Ret tt
  | _, _ => Ret tt
  end.

(** css_code.py:79-87 *)
Definition compute_logical (L : ldpc) (n : nat) (m1 m2 : mat) : mat :=
  let ker_m1 := l_nullspace L n m1 in
  let im := l_row_basis L n m2 in
  let stack := im ++ ker_m1 in
  let pivots := l_pivots_T L n stack in
  map (fun i => nth i stack []) (filter (fun i => existsb (Nat.eqb i) pivots) (seq (length im) (length stack - length im))).

(** css_code.py:43-49: [Hx 0 0; 0 Hz 0] *)
Definition css_generators (hx hz : nd) : list vec :=
  map (fun r => r ++ vzero (nd_cols hx) ++ [false]) (nd_rows hx) ++
  map (fun r => vzero (nd_cols hz) ++ r ++ [false]) (nd_rows hz).

(** css_code.py:20-61 *)
Definition CSSCode (L : ldpc) (distance : Z) (Hx Hz : option nd) (xd zd : option Z) : py css :=
  do u <- check_valid_check_matrices Hx Hz;
  let hx := match Hx, Hz with Some h, _ => h | None, Some h => mkNd (nd_cols h) [] | None, None => mkNd 0 [] end in
  let hz := match Hz with Some h => h | None => mkNd (nd_cols hx) [] end in
  do st <- StabilizerCode 8 (Bins (css_generators hx hz)) (Some distance) None None;
  let xdist := match xd with Some x => x | None => distance end in
  let zdist := match zd with Some x => x | None => distance end in
  if ((xdist <? distance) || (zdist <? distance))%Z then Raise InvalidCSSCodeError else
  let n := nd_cols hx in
  Ret (mkCss st hx hz distance xdist zdist
        (compute_logical L n (nd_rows hz) (nd_rows hx)) (compute_logical L n (nd_rows hx) (nd_rows hz))).

(** css_code.py:63-77 *)
Definition checks_as_strings (c : ascii) (rows : list vec) : list pystr :=
  map (map (fun b : bool => if b then c else "I"%char)) rows.
Definition x_checks_as_pauli_strings (c : css) := checks_as_strings "X" (nd_rows (css_Hx c)).
Definition z_checks_as_pauli_strings (c : css) := checks_as_strings "Z" (nd_rows (css_Hz c)).
Definition x_logicals_as_pauli_strings (c : css) := checks_as_strings "X" (css_Lx c).
Definition z_logicals_as_pauli_strings (c : css) := checks_as_strings "Z" (css_Lz c).

(** css_code.py:89-99 (the matrices of a constructed object are never None); a length mismatch raises ValueError *)
Definition matvec (H : nd) (e : vec) : py vec :=
  if Nat.eqb (nd_cols H) (length e) then Ret (mulMV (nd_rows H) e) else Raise ValueError.
Definition get_x_syndrome (c : css) (e : vec) : py vec := matvec (css_Hx c) e.
Definition get_z_syndrome (c : css) (e : vec) : py vec := matvec (css_Hz c) e.

(** css_code.py:101-103 and 110-112 *)
Definition check_if_logical_x_error (c : css) (residual : vec) : py bool :=
  do s <- matvec (mkNd (nd_cols (css_Hx c)) (css_Lz c)) residual; Ret (existsb (fun b => b) s).
Definition check_if_logical_z_error (c : css) (residual : vec) : py bool :=
  do s <- matvec (mkNd (nd_cols (css_Hx c)) (css_Lx c)) residual; Ret (existsb (fun b => b) s).

(** np.vstack((H, v1, ..)): width mismatch raises ValueError *)
Definition vstackv (H : nd) (vs : list vec) : py mat :=
  if forallb (fun v => Nat.eqb (length v) (nd_cols H)) vs then Ret (nd_rows H ++ vs) else Raise ValueError.
(** css_code.py:105-108 and 114-117 *)
Definition check_if_stabilizer (H : nd) (pauli : vec) : py bool :=
  do s <- vstackv H [pauli]; Ret (Nat.eqb (rk (nd_cols H) s) (rk (nd_cols H) (nd_rows H))).
Definition check_if_x_stabilizer (c : css) := check_if_stabilizer (css_Hx c).
Definition check_if_z_stabilizer (c : css) := check_if_stabilizer (css_Hz c).

(** css_code.py:119-126 and 128-135 *)
Definition stabilizer_eq_error (H : nd) (e1 e2 : vec) : py bool :=
  do m1 <- vstackv H [e1]; do m2 <- vstackv H [e2]; do m3 <- vstackv H [e1; e2];
  Ret (Nat.eqb (rk (nd_cols H) m1) (rk (nd_cols H) m2) && Nat.eqb (rk (nd_cols H) m2) (rk (nd_cols H) m3)).
Definition stabilizer_eq_x_error (c : css) := stabilizer_eq_error (css_Hx c).
Definition stabilizer_eq_z_error (c : css) := stabilizer_eq_error (css_Hz c).

(** css_code.py:137-143 *)
Definition is_self_dual (c : css) : bool :=
  let hx := css_Hx c in let hz := css_Hz c in
  Nat.eqb (length (nd_rows hx)) (length (nd_rows hz)) &&
  Nat.eqb (rk (nd_cols hx) (nd_rows hx)) (rk (nd_cols hx) (nd_rows hx ++ nd_rows hz)).
