(** * Properties C01-C05, C31: GF(2) linear algebra and the C++ code object. *)
From Verif Require Import Lin2 UtilsModel PluProofs PluProofs2 UtilsProofs CodeProofs.

(** C01: the rank reported by the decomposition is the dimension of the column space and of the row
    space of the matrix whose column supports were given. *)
Theorem C01_plu_rank : forall m csc, csc_ok m csc ->
  has_rank m (csc_cols m csc) (matrixRank (pluDecompose m (length csc) csc)) /\
  has_rank (length csc) (transpose m (csc_cols m csc)) (matrixRank (pluDecompose m (length csc) csc)).
Proof. exact (fun m csc H => conj (plu_rank m csc H) (plu_rank_rows m csc H)). Qed.
Print Assumptions C01_plu_rank.

(** C01: the recorded pivot columns are distinct existing columns and form a basis of the column space. *)
Theorem C01_pivot_columns_basis : forall m csc, csc_ok m csc ->
  let st := pluDecompose m (length csc) csc in
  basis_of m (map (fun j => supp_vec m (nth j csc [])) (pivotCols st)) (csc_cols m csc) /\
  length (map (fun j => supp_vec m (nth j csc [])) (pivotCols st)) = matrixRank st /\
  Forall (fun j => j < length csc) (pivotCols st) /\ NoDup (pivotCols st).
Proof. exact pivot_basis. Qed.
Print Assumptions C01_pivot_columns_basis.

Example C01_nonvacuous : csc_ok 3 [[0;1];[1;2];[0;2];[2]] /\
  matrixRank (pluDecompose 3 4 [[0;1];[1;2];[0;2];[2]]) = 3 /\ pivotCols (pluDecompose 3 4 [[0;1];[1;2];[0;2];[2]]) = [0;1;3].
Proof. split; [repeat constructor | split; reflexivity]. Qed.

(** C02: luSolve solves every consistent system M x = y. *)
Theorem C02_luSolve_consistent : forall m n csc M y,
  csc_ok m csc -> length csc = n -> wf n M -> length M = m -> csc_cols m csc = transpose n M ->
  length y = m -> (exists x0, length x0 = n /\ mulMV M x0 = y) ->
  exists x, luSolve m n (pluDecompose m n csc) y = Some x /\ length x = n /\ mulMV M x = y.
Proof. exact lusolve_mulMV. Qed.
Print Assumptions C02_luSolve_consistent.

(** C02: exactly the right-hand sides of the wrong length are rejected. *)
Theorem C02_luSolve_rejects : forall m csc y, csc_ok m csc ->
  (luSolve m (length csc) (pluDecompose m (length csc) csc) y = None <-> length y <> m).
Proof. exact (fun m csc y H => conj (fun E Hy => lusolve_some m csc y H Hy E) (lusolve_len m _ _ y)). Qed.
Print Assumptions C02_luSolve_rejects.

(** C02: an inconsistent system is silently answered with a vector that does not solve it. *)
Theorem C02_luSolve_inconsistent_refuted :
  exists csc y x, csc_ok 2 csc /\ luSolve 2 (length csc) (pluDecompose 2 (length csc) csc) y = Some x /\
    mulMV (transpose 2 (csc_cols 2 csc)) x <> y.
Proof. exists [[0;1]], [true;false], [true]. split; [repeat constructor|]. split; [reflexivity | discriminate]. Qed.
Print Assumptions C02_luSolve_inconsistent_refuted.

Example C02_nonvacuous : let csc := [[0;1];[1;2];[0;2];[2]] in
  exists x, luSolve 3 4 (pluDecompose 3 4 csc) [true;true;true] = Some x /\ lincomb 3 x (csc_cols 3 csc) = [true;true;true].
Proof. eexists; split; reflexivity. Qed.

(** C03: row-space membership is decided exactly. *)
Theorem C03_rowspace_exact : forall n M v, wf n M -> M <> [] -> 0 < n -> length v = n ->
  exists b, isVectorInRowspace M v = Ok b /\ (b = true <-> span n M v).
Proof. exact rowspace_ok. Qed.
Print Assumptions C03_rowspace_exact.

(** C03: a nonzero vector of the wrong length is rejected; the zero vector is accepted whatever its length. *)
Theorem C03_rowspace_dimension : forall n M v, wf n M -> M <> [] -> 0 < n -> length v <> n -> v <> vzero (length v) ->
  isVectorInRowspace M v = Err QeccException.
Proof. exact rowspace_dim. Qed.
Print Assumptions C03_rowspace_dimension.

Theorem C03_rowspace_zero_any_length : forall n M k, wf n M -> M <> [] -> 0 < n -> 0 < k ->
  isVectorInRowspace M (vzero k) = Ok true.
Proof. exact rowspace_zero. Qed.
Print Assumptions C03_rowspace_zero_any_length.

Example C03_nonvacuous :
  isVectorInRowspace [[true;true;false];[false;true;true]] [true;false;true] = Ok true /\
  isVectorInRowspace [[true;true;false];[false;true;true]] [true;false;false] = Ok false.
Proof. split; reflexivity. Qed.

(** C04: transposition swaps indices and is an involution. *)
Theorem C04_transpose : forall n M, wf n M -> M <> [] -> 0 < n ->
  exists T, getTranspose M = Ok T /\ length T = n /\
    (forall i j, i < length M -> j < n -> nth i (nth j T []) false = nth j (nth i M []) false) /\
    getTranspose T = Ok M.
Proof. exact transpose_prop. Qed.
Print Assumptions C04_transpose.

Theorem C04_transpose_rejects_empty : forall M, M = [] \/ hd [] M = [] -> getTranspose M = Err QeccException.
Proof. exact getTranspose_empty. Qed.
Print Assumptions C04_transpose_rejects_empty.

(** C04: the product is XORed into the caller's vector; a wrong length throws. *)
Theorem C04_multiply : forall n M v cap res,
  wf n M -> M <> [] -> 0 < n -> length res = length M -> length M <= cap -> v <> [] ->
  rectMatrixMultiply M v cap res = if length v =? n then Ok (vxor res (mulMV M v)) else Err QeccException.
Proof. exact rectMul_prop. Qed.
Print Assumptions C04_multiply.

Theorem C04_residual : forall n e r, length e = n -> length r = n ->
  computeResidualErr e r = Ok (vxor e r) /\ (computeResidualErr e r = Ok (vzero n) <-> e = r).
Proof. exact residual_prop. Qed.
Print Assumptions C04_residual.

Theorem C04_residual_short_error_throws : forall e r, length e < length r -> computeResidualErr e r = Err OutOfRange.
Proof. exact residual_err. Qed.
Print Assumptions C04_residual_short_error_throws.

Example C04_nonvacuous : rectMatrixMultiply [[true;true;false];[false;true;true]] [true;true;true] 2 [false;false] = Ok [false;false]
  /\ rectMatrixMultiply [[true;true;false];[false;true;true]] [true;false;true] 2 [false;false] = Ok [true;true]
  /\ getTranspose [[true;true;false];[false;true;true]] = Ok [[true;false];[true;true];[false;true]].
Proof. repeat split; reflexivity. Qed.

(** C05: the X-stabilizer test accepts exactly the products of X checks. *)
Theorem C05_isXStabilizer_exact : forall n hx hz e, code2 n hx hz -> length e = n ->
  exists b, isXStabilizer (codeXZ hx hz) e = Ok b /\ (b = true <-> span n hx e).
Proof. exact xstab_ok. Qed.
Print Assumptions C05_isXStabilizer_exact.

Theorem C05_isStabilizer_two_sided : forall n hx hz ex ez, code2 n hx hz -> length ex = n -> length ez = n ->
  exists b, isStabilizer1 (codeXZ hx hz) (ex ++ ez) = Ok b /\ (b = true <-> span n hx ex /\ span n hz ez).
Proof. exact stab2_ok. Qed.
Print Assumptions C05_isStabilizer_two_sided.

Theorem C05_syndrome_linear : forall n hx hz a b, code2 n hx hz -> length a = n -> length b = n ->
  exists sa sb, getXSyndrome (codeXZ hx hz) a = Ok sa /\ getXSyndrome (codeXZ hx hz) b = Ok sb /\
                getXSyndrome (codeXZ hx hz) (vxor a b) = Ok (vxor sa sb).
Proof. exact xsyn_linear. Qed.
Print Assumptions C05_syndrome_linear.

Theorem C05_syndrome_is_Hz_product : forall n hx hz e, code2 n hx hz -> length e = n ->
  getXSyndrome (codeXZ hx hz) e = Ok (mulMV hz e).
Proof. exact xsyn_ok. Qed.
Print Assumptions C05_syndrome_is_Hz_product.

Theorem C05_syndrome_two_sided : forall n hx hz ex ez, code2 n hx hz -> length ex = n -> length ez = n ->
  getXSyndrome (codeXZ hx hz) (ex ++ ez) = Ok (mulMV hz ex ++ mulMV hx ez).
Proof. exact syn2_ok. Qed.
Print Assumptions C05_syndrome_two_sided.

Theorem C05_stabilizers_have_zero_syndrome : forall n hx hz e, code2 n hx hz -> length e = n -> orthogonal hx hz ->
  isXStabilizer (codeXZ hx hz) e = Ok true -> getXSyndrome (codeXZ hx hz) e = Ok (vzero (length hz)).
Proof. exact stab_zero_syndrome. Qed.
Print Assumptions C05_stabilizers_have_zero_syndrome.

(** C05: the success verdict on the residual does not depend on which stabilizer-equivalent estimate was returned. *)
Theorem C05_verdict_degenerate : forall n hx hz e est s r1 r2,
  code2 n hx hz -> length e = n -> length est = n -> span n hx s ->
  computeResidualErr e est = Ok r1 -> computeResidualErr e (vxor est s) = Ok r2 ->
  isXStabilizer (codeXZ hx hz) r1 = isXStabilizer (codeXZ hx hz) r2.
Proof. exact residual_verdict. Qed.
Print Assumptions C05_verdict_degenerate.

Example C05_nonvacuous : let h := [[true;true;true;true]] in
  code2 4 h h /\ orthogonal h h /\ isXStabilizer (codeXZ h h) [true;true;true;true] = Ok true /\
  isXStabilizer (codeXZ h h) [true;true;false;false] = Ok false.
Proof. repeat split; try discriminate; try reflexivity; try lia; try (repeat constructor).
  intros a b [<-|[]] [<-|[]]; reflexivity. Qed.

(** C31: neighbours of a bit are exactly the checks containing it, neighbours of a check exactly its bits. *)
Theorem C31_bit_neighbours : forall n M i, wf n M -> M <> [] -> i < n ->
  exists l, nbrsUncached M i = Ok l /\ NoDup l /\
  forall k, In k l <-> exists c, c < length M /\ k = n + c /\ nth i (nth c M []) false = true.
Proof. exact nbrs_bit. Qed.
Print Assumptions C31_bit_neighbours.

Theorem C31_check_neighbours : forall n M c, wf n M -> M <> [] -> 0 < n -> c < length M ->
  exists l, nbrsUncached M (n + c) = Ok l /\ NoDup l /\
  forall i, In i l <-> i < n /\ nth i (nth c M []) false = true.
Proof. exact nbrs_check. Qed.
Print Assumptions C31_check_neighbours.

Theorem C31_unknown_node_rejected : forall n M i, wf n M -> M <> [] -> 0 < n -> n + length M <= i ->
  nbrsUncached M i = Err OutOfRange.
Proof. exact nbrs_out. Qed.
Print Assumptions C31_unknown_node_rejected.

Theorem C31_symmetric : forall n M i c, wf n M -> M <> [] -> i < n -> c < length M ->
  exists li lc, nbrsUncached M i = Ok li /\ nbrsUncached M (n + c) = Ok lc /\ (In (n + c) li <-> In i lc).
Proof. exact nbrs_symmetric. Qed.
Print Assumptions C31_symmetric.

(** C31: whatever was asked before, the cached lookup answers like an uncached one. *)
Theorem C31_cache_transparent : forall pcm qs, runQueries pcm [] qs = map (nbrsUncached pcm) qs.
Proof. exact queries_prop. Qed.
Print Assumptions C31_cache_transparent.

Example C31_nonvacuous : runQueries [[true;true;false];[false;true;true]] [] [1; 3; 1; 7] =
  [Ok [3;4]; Ok [0;1]; Ok [3;4]; Err OutOfRange].
Proof. reflexivity. Qed.
