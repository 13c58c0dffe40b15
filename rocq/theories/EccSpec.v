(** * EccSpec: what it means for a code to correct errors (specification of C48) *)
From Coq Require Import NArith ZArith.
From Verif Require Export EccSem.
Local Open Scope amp_scope.

(** a product of one-qubit gates, given as (gate, number in the block); [d] says where the qubits of the block are *)
Definition stabilizer := list (gt * nat).
Definition gatesOf (d : nat -> nat) (l : stabilizer) : list op := map (fun p => Gate (fst p) [] (d (snd p))) l.
(** every logical qubit is encoded: each stabilizer fixes the state, on each of the [n] blocks; qubit j of block i is qubit i + j n of the circuit *)
Definition encoded (n : nat) (stabs : list stabilizer) (f : state) : Prop :=
  forall i l, i < n -> In l stabs -> after (gatesOf (fun j => i + j * n)%nat l) f == f.
(** the error: an operator on at most one qubit of each block, given by its matrix (any matrix: coherent errors, damping, a reset, ...) *)
Definition matrix := (amp * amp * amp * amp)%type.
Definition noise (n : nat) (E : nat -> option (matrix * nat)) (f : state) : state :=
  fold_right (fun i g => match E i with Some (m, j) => u2 m (i + j * n)%nat g | None => g end) f (seq 0 n).
(** the same, the operators being gates *)
Definition faults (n : nat) (E : nat -> option (gt * nat)) (f : state) : state :=
  noise n (fun i => match E i with Some (g, j) => Some (mat g, j) | None => None end) f.
(** the circuit of one round, the ancillas *)
Definition roundOf (e : ecc) (n ncb : nat) : list op := snd (e_mc e n ncb (mkFl false true)).
Definition ancillas (e : ecc) (n : nat) : list nat := map (fun j => n * e_red e + j)%nat (seq 0 (e_cor e)).
Definition resets (e : ecc) (n : nat) : list op := map Reset (ancillas e n).
(** error, round, reset of the ancillas: proportional to what the reset of the ancillas alone gives, whatever the measurements say *)
Definition corrects (e : ecc) (stabs : list stabilizer) (kind : matrix -> Prop) : Prop :=
  forall n ncb E f, (forall i m j, E i = Some (m, j) -> kind m /\ j < e_red e) -> encoded n stabs f ->
  forall cr rec, exists c k, c <> azero /\
    scale c (st (run (roundOf e n ncb ++ resets e n) (mkConf cr rec (noise n E f)))) == scale k (st (run (resets e n) (mkConf cr rec f))).
(** and if the errors are gates, whatever the ancillas are before ([r]) there are outcomes for which the factor is not 0 *)
Definition correctsLive (e : ecc) (stabs : list stabilizer) (gates : list gt) : Prop :=
  forall n ncb E f, (forall i g j, E i = Some (g, j) -> In g gates /\ j < e_red e) -> encoded n stabs f ->
  forall r, length r = e_cor e -> exists t, forall cr, exists k, k <> azero /\
    st (run (roundOf e n ncb ++ resets e n) (mkConf cr (r ++ t) (faults n E f))) == scale k (st (run (resets e n) (mkConf cr (r ++ t) f))).
(** the combinations of identity and X *)
Definition xKind (m : matrix) : Prop := let '(m00, m01, m10, m11) := m in m00 = m11 /\ m01 = m10.

(** ** Specification: the stabilizers of the codes, qubits numbered within a block *)
Definition Zs (l : list nat) : stabilizer := map (fun j => (GZ, j)) l.
Definition Xs (l : list nat) : stabilizer := map (fun j => (GX, j)) l.
Definition q3stabs : list stabilizer := [Zs [0; 1]; Zs [1; 2]].
Definition s9stabs : list stabilizer := [Zs [0; 1]; Zs [1; 2]; Zs [3; 4]; Zs [4; 5]; Zs [6; 7]; Zs [7; 8]; Xs [0; 1; 2; 3; 4; 5]; Xs [3; 4; 5; 6; 7; 8]].
(** XZZXI and its cyclic shifts *)
Definition l5stabs : list stabilizer :=
  [[(GX, 0); (GZ, 1); (GZ, 2); (GX, 3)]; [(GX, 1); (GZ, 2); (GZ, 3); (GX, 4)]; [(GX, 0); (GX, 2); (GZ, 3); (GZ, 4)]; [(GZ, 0); (GX, 1); (GX, 3); (GZ, 4)]].
(** the checks of the Hamming code, as X and as Z *)
Definition hamming : list (list nat) := [[0; 2; 4; 6]; [1; 2; 5; 6]; [3; 4; 5; 6]].
Definition s7stabs : list stabilizer := map Xs hamming ++ map Zs hamming.
Definition f9stabs : list stabilizer :=
  [Xs [1; 2]; Xs [0; 1; 3; 4]; Xs [4; 5; 7; 8]; Xs [6; 7]; Zs [0; 3]; Zs [1; 2; 4; 5]; Zs [3; 4; 6; 7]; Zs [5; 8]].


(** ** Logical operations (specification of C57) *)
(** the operators that act as X and Z on the encoded qubit *)
Record logicals := mkL { LX : stabilizer; LZ : stabilizer }.
Definition q3log := mkL (Xs [0; 1; 2]) (Zs [0]).
Definition s9log := mkL (Zs [0; 3; 6]) (Xs [0; 1; 2]).
Definition l5log := mkL (Xs (seq 0 5)) (Zs (seq 0 5)).
Definition s7log := mkL (Xs (seq 0 7)) (Zs (seq 0 7)).
Definition f9log := mkL (Xs [2; 4; 6]) (Zs [0; 4; 8]).
Definition onBlock (n i : nat) (l : stabilizer) (f : state) : state := after (gatesOf (fun j => i + j * n)%nat l) f.
(** twice the operator with matrix [[m00, m01], [m10, m11]] on the encoded qubit i, written with I, X, X Z and Z *)
Definition logical (n : nat) (L : logicals) (m : matrix) (i : nat) (f : state) : state :=
  let '(m00, m01, m10, m11) := m in fun x =>
  (m00 + m11) * f x + (m01 + m10) * onBlock n i (LX L) f x + (m10 - m01) * onBlock n i (LX L) (onBlock n i (LZ L) f) x + (m00 - m11) * onBlock n i (LZ L) f x.
(** four times the same, controlled by the encoded qubit c *)
Definition logicalC (n : nat) (L : logicals) (m : matrix) (c i : nat) (f : state) : state :=
  fun x => (aone + aone) * (f x + onBlock n c (LZ L) f x) + (logical n L m i f x - onBlock n c (LZ L) (logical n L m i f) x).
(** they obey the rules of the Pauli operators and stay in the code *)
Definition goodLogicals (stabs : list stabilizer) (L : logicals) : Prop :=
  forall n i f, i < n -> encoded n stabs f ->
    encoded n stabs (onBlock n i (LX L) f) /\ encoded n stabs (onBlock n i (LZ L) f) /\
    onBlock n i (LX L) (onBlock n i (LX L) f) == f /\ onBlock n i (LZ L) (onBlock n i (LZ L) f) == f /\
    onBlock n i (LX L) (onBlock n i (LZ L) f) == scale (- aone) (onBlock n i (LZ L) (onBlock n i (LX L) f)).
(** the circuit for the gate [g] acts as the matrix [m] on the encoded qubit, up to a factor *)
Definition acts (e : ecc) (stabs : list stabilizer) (L : logicals) (g : gt) (m : matrix) : Prop :=
  exists c k, c <> azero /\ k <> azero /\ forall n ncb i f, i < n -> encoded n stabs f ->
  exists circ, e_map e n ncb (mkFl false true) (IGate g [] [i]) = Ok (mkFl false true, circ) /\
    scale c (after circ f) == scale k (logical n L m i f).
Definition actsC (e : ecc) (stabs : list stabilizer) (L : logicals) (g : gt) (m : matrix) : Prop :=
  exists c k, c <> azero /\ k <> azero /\ forall n ncb b i f, i < n -> b < n -> b <> i -> encoded n stabs f ->
  exists circ, e_map e n ncb (mkFl false true) (IGate g [(b, true)] [i]) = Ok (mkFl false true, circ) /\
    scale c (after circ f) == scale k (logicalC n L m b i f).
Definition implements (e : ecc) (stabs : list stabilizer) (L : logicals) (g : gt) : Prop := acts e stabs L g (mat g).
Definition implementsC (e : ecc) (stabs : list stabilizer) (L : logicals) (g : gt) : Prop := actsC e stabs L g (mat g).

(** ** Encoding and decoding (specification of C49) *)
(** the qubits of the blocks from the [a]-th of the block on are 0 *)
Definition zeros (n a nd : nat) (f : state) : Prop := forall i j, i < n -> a <= j -> j < nd -> gate GZ [] (i + j * n)%nat f == f.
Definition cleanAncillas (e : ecc) (n : nat) (f : state) : Prop := forall q, In q (ancillas e n) -> gate GZ [] q f == f.
Definition encodeOf (e : ecc) (n ncb : nat) (fl : flags) : list op := snd (e_enc e n ncb fl).
Definition decodeOf (e : ecc) (n ncb : nat) : list op := snd (e_dec e n ncb (mkFl false true)).
(** the encoding of any state (qubit i of the circuit is the first of block i) is encoded, and X and Z of qubit i become the logical X and Z *)
Definition encodes (e : ecc) (stabs : list stabilizer) (L : logicals) : Prop :=
  forall n ncb f, zeros n 1 (e_red e) f -> let enc := after (encodeOf e n ncb (mkFl true true)) in
    encoded n stabs (enc f) /\ forall i, i < n -> onBlock n i (LX L) (enc f) == enc (gate GX [] i f) /\ onBlock n i (LZ L) (enc f) == enc (gate GZ [] i f).
(** decoding turns an encoded state into one in which only the first qubits of the blocks are used, and the logical X and Z into X and Z of qubit i *)
Definition decodes (e : ecc) (stabs : list stabilizer) (L : logicals) : Prop :=
  forall n ncb f, encoded n stabs f -> let dec := after (decodeOf e n ncb) in
    zeros n 1 (e_red e) (dec f) /\ forall i, i < n -> gate GX [] i (dec f) == dec (onBlock n i (LX L) f) /\ gate GZ [] i (dec f) == dec (onBlock n i (LZ L) f).
(** decoding by measurement: for all outcomes, the logical Z becomes Z of qubit i, so that measuring qubit i is measuring the logical qubit *)
Definition decodesZ (e : ecc) (stabs : list stabilizer) (L : logicals) : Prop :=
  forall n ncb f, encoded n stabs f -> forall cr rec i, i < n ->
    let dec g := st (run (decodeOf e n ncb) (mkConf cr rec g)) in gate GZ [] i (dec f) == dec (onBlock n i (LZ L) f).
(** from qubits that are all 0, for all outcomes, the first encoding gives logical 0 on all blocks *)
Definition encodesZero (e : ecc) (stabs : list stabilizer) (L : logicals) (n : nat) : Prop :=
  forall ncb f, zeros n 0 (e_red e) f -> cleanAncillas e n f -> forall cr rec,
    let f' := st (run (encodeOf e n ncb (mkFl true false)) (mkConf cr rec f)) in
    encoded n stabs f' /\ forall i, i < n -> onBlock n i (LZ L) f' == f'.
(** a round puts every block into the code, whatever the state and the outcomes *)
Definition roundEncodes (e : ecc) (stabs : list stabilizer) : Prop :=
  forall n ncb f cr rec, encoded n stabs (st (run (roundOf e n ncb) (mkConf cr rec f))).
