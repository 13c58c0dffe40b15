(** * PluModel: executable model of the PLU decomposition over GF(2). *)
From Verif Require Export Lin ListX.

(** Fields of class PluDecomposition, include/GF2.hpp:17-45.
    cscMat, rowCount and colCount are passed as arguments (never modified). *)
Record plu := mkPlu {
  lower : list (list nat);
  upper : list (list nat);
  matrixRank : nat;
  prows : list nat;
  swapRows : list nat;
  eliminationRows : list (list nat);
  pivotCols : list nat }.

(** src/GF2.cpp:32-36: dense copy of a sparse column. *)
Definition denseCol (rowCount : nat) (supp : list nat) : vec :=
  fold_left (fun c i => set_nth i true c) supp (repeat false rowCount).

(** src/GF2.cpp:42-45: rrCol[rowIdx] = !rrCol[rowIdx] for every recorded row. *)
Definition flipRows (rs : list nat) (c : vec) : vec :=
  fold_left (fun c i => set_nth i (negb (nth i c false)) c) rs c.

(** src/GF2.cpp:38-46: one replayed step (swap, then eliminate when the element is one). *)
Definition replayStep (swp : list nat) (elim : list (list nat)) (c : vec) (i : nat) : vec :=
  let c := swap_nth false i (nth i swp 0) c in
  if nth i c false then flipRows (nth i elim []) c else c.

(** src/GF2.cpp:38-47: apply all previous operations to the current column. *)
Definition replay (st : plu) (c : vec) : vec :=
  fold_left (replayStep (swapRows st) (eliminationRows st)) (seq 0 (matrixRank st)) c.

(** src/GF2.cpp:49-56: first i in [matrixRank, rowCount) with rrCol[i]. *)
Definition findPivot (rank rowCount : nat) (c : vec) : option nat :=
  find (fun i => nth i c false) (seq rank (rowCount - rank)).

(** push_back onto the k-th inner list *)
Definition pushAt (k x : nat) (l : list (list nat)) : list (list nat) :=
  set_nth k (nth k l [] ++ [x]) l.

(** src/GF2.cpp:31-86 eliminateColumn.  The boolean return value is never used by the caller. *)
Definition eliminateColumn (rowCount : nat) (csc : list (list nat)) (st : plu) (colIdx : nat) : plu :=
  let rr := replay st (denseCol rowCount (nth colIdx csc [])) in
  let r := matrixRank st in
  match findPivot r rowCount rr with
  | None => st                                         (* lines 58-61 *)
  | Some p =>
      let rr := swap_nth false r p rr in               (* line 63 *)
      let rows' := swap_nth 0 r p (prows st) in         (* line 64 *)
      let lower1 := pushAt r r (swap_nth [] r p (lower st)) in   (* lines 67-68 *)
      let below := filter (fun i => nth i rr false) (seq (S r) (rowCount - S r)) in
      let lower2 := fold_left (fun l i => pushAt i r l) below lower1 in     (* lines 70-75 *)
      let upper1 := upper st ++ [[]] in                 (* line 77 *)
      let upper2 := fold_left (fun u i => if nth i rr false then pushAt i colIdx u else u)
                              (seq 0 (S r)) upper1 in    (* lines 78-82 *)
      {| lower := lower2; upper := upper2; matrixRank := S r; prows := rows';
         swapRows := swapRows st ++ [p];
         eliminationRows := eliminationRows st ++ [below];
         pivotCols := pivotCols st ++ [colIdx] |}
  end.

(** src/GF2.cpp:13-29: initial state of rref: rows = identity, lower = rowCount empty rows. *)
Definition pluInit (rowCount : nat) : plu :=
  {| lower := repeat [] rowCount; upper := []; matrixRank := 0; prows := seq 0 rowCount;
     swapRows := []; eliminationRows := []; pivotCols := [] |}.

(** src/GF2.cpp:22-27: loop over columns with the early exit. *)
Fixpoint rrefLoop (rowCount maxRank : nat) (csc : list (list nat)) (cols : list nat) (st : plu) : plu :=
  match cols with
  | [] => st
  | c :: cs =>
      let st' := eliminateColumn rowCount csc st c in
      if matrixRank st' =? maxRank then st' else rrefLoop rowCount maxRank csc cs st'
  end.

(** include/GF2.hpp:48-53 constructor + src/GF2.cpp:13-29 rref. *)
Definition pluDecompose (rowCount colCount : nat) (csc : list (list nat)) : plu :=
  rrefLoop rowCount (Nat.min rowCount colCount) csc (seq 0 colCount) (pluInit rowCount).

(** XOR of selected entries. *)
Definition xorSum (b : vec) (idx : list nat) : bool :=
  fold_left (fun s i => xorb s (nth i b false)) idx false.

(** src/GF2.cpp:104-112: forward substitution.  The entries of y are modelled as bits (the C++
    code stores them in uint64_t and only XORs them). *)
Definition forwardSubst (st : plu) (y : vec) : vec :=
  fold_left (fun b i => set_nth i (xorb (xorSum b (nth i (lower st) [])) (nth (nth i (prows st) 0) y false)) b)
            (seq 0 (matrixRank st)) (repeat false (matrixRank st)).

(** src/GF2.cpp:113-120: backward substitution. *)
Definition backwardSubst (colCount : nat) (st : plu) (b : vec) : vec :=
  fold_left (fun x i => set_nth (nth i (pivotCols st) 0)
                          (xorb (xorSum x (nth i (upper st) [])) (nth i b false)) x)
            (rev (seq 0 (matrixRank st))) (repeat false colCount).

(** src/GF2.cpp:88-122 luSolve; None models std::invalid_argument. *)
Definition luSolve (rowCount colCount : nat) (st : plu) (y : vec) : option vec :=
  if length y =? rowCount then Some (backwardSubst colCount st (forwardSubst st y)) else None.
