(** * ColorModel: src/mqt/qecc/codes/color_code.py, hexagonal_color_code.py, square_octagon_color_code.py

    Python sets of coordinates are lists without repetition; where the code iterates over a set, the model takes
    the enumeration as an argument (any permutation of the set, see [enumerates]): the iteration order of a Python
    set is unspecified. *)
From Coq Require Export ZArith Permutation.
From Verif Require Export LightsModel CssModel.

Definition coord : Type := (Z * Z)%type.
Definition ceqb (p q : coord) : bool := Z.eqb (fst p) (fst q) && Z.eqb (snd p) (snd q).
Definition cmem (p : coord) (l : list coord) : bool := existsb (ceqb p) l.
(** set.add *)
Definition sadd (p : coord) (l : list coord) : list coord := if cmem p l then l else l ++ [p].

(** ** hexagonal_color_code.py *)
(** the two sets built by add_qubits *)
Definition hexsets : Type := (list coord * list coord)%type.   (* data_qubits, ancilla_qubits *)

(** hexagonal_color_code.py 36-48, 50-60, 62-73: the loop of a row; [isdata] is the test on i % 3 *)
Fixpoint hex_row_loop (isdata : nat -> bool) (todo i : nat) (x y : Z) (s : hexsets) : hexsets :=
  match todo with
  | O => s
  | S k => hex_row_loop isdata k (S i) (x + 2)%Z y
             (if isdata (i mod 3) then (sadd (x, y) (fst s), snd s) else (fst s, sadd (x, y) (snd s)))
  end.
Definition red_row (x_max : nat) (y : Z) := hex_row_loop (fun r => (r =? 0) || (r =? 2)) x_max 0 y y.
Definition blue_row (x_max : nat) (y : Z) := hex_row_loop (fun r => (r =? 0) || (r =? 1)) x_max 0 y y.
Definition green_row (x_max : nat) (y : Z) := hex_row_loop (fun r => (r =? 1) || (r =? 2)) x_max 0 y y.

(** hexagonal_color_code.py 19-34: the while loop (x_max decreases by one in every round) *)
Fixpoint hex_add_loop (x_max : nat) (y : nat) (s : hexsets) : hexsets :=
  match x_max with
  | O => s
  | S k =>
      let yz := Z.of_nat y in
      hex_add_loop k (S y)
        (match y mod 3 with 0 => red_row x_max yz s | 1 => blue_row x_max yz s | _ => green_row x_max yz s end)
  end.
Definition hex_add_qubits (distance : Z) : hexsets := hex_add_loop (Z.to_nat (distance + distance / 2)) 0 ([], []).

(** ** the adjacency lists and the matrix, shared by both construct_layout methods *)
Record layout := mkLayout { lay_q2f : list (nat * list nat); lay_f2q : list (nat * list nat); lay_H : list vec }.

(** coords_to_idx[q] = idx for idx, q in enumerate(data_qubits): index of a coordinate, if any *)
Fixpoint index_from (i : nat) (p : coord) (l : list coord) : option nat :=
  match l with [] => None | q :: l' => if ceqb p q then Some i else index_from (S i) p l' end.
Definition coords_to_idx (data : list coord) (p : coord) : option nat := index_from 0 p data.

(** d[k].append(x) *)
Fixpoint dappend (k x : nat) (d : list (nat * list nat)) : list (nat * list nat) :=
  match d with
  | [] => []
  | (k', l) :: d' => if k =? k' then (k', l ++ [x]) :: d' else (k', l) :: dappend k x d'
  end.

(** hexagonal_color_code.py 85-97, square_octagon_color_code.py 129-141 and 148-163: one face *)
Fixpoint face_coords (data : list coord) (idx : nat) (cs : list coord) (qbts : list nat) (q2f : list (nat * list nat))
  : list nat * list (nat * list nat) :=
  match cs with
  | [] => (qbts, q2f)
  | c :: cs' => match coords_to_idx data c with
                | Some q => face_coords data idx cs' (qbts ++ [q]) (dappend q idx q2f)
                | None => face_coords data idx cs' qbts q2f
                end
  end.
Definition add_face (data : list coord) (nb : coord -> list coord) (idx : nat) (c : coord) (l : layout) : layout :=
  let '(qbts, q2f) := face_coords data idx (nb c) [] (lay_q2f l) in
  mkLayout q2f (lay_f2q l ++ [(idx, qbts)])
    (set_nth idx (fold_left (fun row qb => set_nth qb true row) qbts (nth idx (lay_H l) [])) (lay_H l)).
Fixpoint add_faces (data : list coord) (nb : coord -> list coord) (idx : nat) (cs : list coord) (l : layout) : layout :=
  match cs with [] => l | c :: cs' => add_faces data nb (S idx) cs' (add_face data nb idx c l) end.
(** color_code.py 36: H starts as the zero matrix; hexagonal 80-82 / square-octagon 124-126: qubits_to_faces[idx] = [] *)
Definition layout0 (n_anc : nat) (data : list coord) : layout :=
  mkLayout (map (fun i => (i, [])) (seq 0 (length data))) [] (repeat (vzero (length data)) n_anc).

(** hexagonal_color_code.py 86-93 *)
Definition hex_nb (c : coord) : list coord :=
  let (x, y) := c in [(x - 1, y + 1); (x - 2, y); (x - 1, y - 1); (x + 1, y - 1); (x + 2, y); (x + 1, y + 1)]%Z.
(** hexagonal_color_code.py 75-100 *)
Definition hex_layout (data anc : list coord) : layout := add_faces data hex_nb 0 anc (layout0 (length anc) data).

(** ** square_octagon_color_code.py *)
(** data_qubits, square_ancilla_qubits, octagon_ancilla_qubits *)
Record sosets := mkSo { so_data : list coord; so_sq : list coord; so_oct : list coord }.
Definition so_add_data p s := mkSo (sadd p (so_data s)) (so_sq s) (so_oct s).
Definition so_add_sq p s := mkSo (so_data s) (sadd p (so_sq s)) (so_oct s).
Definition so_add_oct p s := mkSo (so_data s) (so_sq s) (sadd p (so_oct s)).

(** square_octagon_color_code.py 82-96 and 98-112: alternating steps 2 and 4; [todo] = x_max - n_qubits *)
Fixpoint so_data_loop (todo : nat) (first : bool) (x y : Z) (s : sosets) : sosets :=
  match todo with
  | O => s
  | S k => so_data_loop k (negb first) (x + (if first then 2 else 4))%Z y (so_add_data (x, y) s)
  end.
Definition even_data_qubit_row (x_max : Z) (y : Z) := so_data_loop (Z.to_nat x_max) true (y - 1)%Z y.
Definition odd_data_qubit_row (x_max : Z) (y : Z) := so_data_loop (Z.to_nat x_max) true (y + 1)%Z y.
(** square_octagon_color_code.py 50-64 and 66-80: alternately a square and an octagon, step 3 *)
Fixpoint so_anc_loop (todo : nat) (square : bool) (x y : Z) (s : sosets) : sosets :=
  match todo with
  | O => s
  | S k => so_anc_loop k (negb square) (x + 3)%Z y (if square then so_add_sq (x, y) s else so_add_oct (x, y) s)
  end.
Definition even_ancilla_qubit_row (x_max : Z) (y : Z) := so_anc_loop (Z.to_nat x_max) true (y + 1)%Z y.
Definition odd_ancilla_qubit_row (x_max : Z) (y : Z) := so_anc_loop (Z.to_nat x_max) false (y - 2)%Z y.

(** square_octagon_color_code.py 114-117: range(4, distance // 2 * 6, 6) *)
Definition bottom_row_ancillas (distance : Z) (s : sosets) : sosets :=
  fold_left (fun s x => so_add_oct (x, 0%Z) s)
    (map (fun j => (4 + 6 * Z.of_nat j)%Z) (seq 0 (Z.to_nat ((distance / 2 * 6 - 4 + 5) / 6)))) s.

(** square_octagon_color_code.py 30-47: the while loop; fuel = an upper bound for the number of rounds *)
Fixpoint so_add_loop (fuel : nat) (y_max y x_max : Z) (s : sosets) : sosets :=
  match fuel with
  | O => s
  | S f =>
      if (y <=? y_max)%Z then
        let s := even_data_qubit_row x_max y s in
        let x_max := if (y =? 1)%Z then (x_max - 1)%Z else (x_max - 2)%Z in
        let y := (y + 1)%Z in
        let '(s, y) := if (y <=? y_max)%Z then (odd_data_qubit_row x_max y s, (y + 1)%Z) else (s, y) in
        let '(s, y) := if (y <=? y_max)%Z
                       then ((if (y mod 2 =? 0)%Z then even_ancilla_qubit_row x_max y s else odd_ancilla_qubit_row x_max y s), (y + 1)%Z)
                       else (s, y) in
        so_add_loop f y_max y x_max s
      else s
  end.
Definition so_add_qubits (distance : Z) : sosets :=
  let y_max := (distance + distance / 2)%Z in
  so_add_loop (Z.to_nat y_max) y_max 1 distance (bottom_row_ancillas distance (mkSo [] [] [])).

(** square_octagon_color_code.py 131-136 and 151-160 *)
Definition sq_nb (c : coord) : list coord :=
  let (x, y) := c in [(x - 1, y - 1); (x + 1, y - 1); (x + 1, y + 1); (x - 1, y + 1)]%Z.
Definition oct_nb (c : coord) : list coord :=
  let (x, y) := c in [(x - 2, y - 1); (x - 1, y - 2); (x + 1, y - 2); (x + 2, y - 1); (x + 2, y + 1); (x + 1, y + 2); (x - 1, y + 2); (x - 2, y + 1)]%Z.
(** square_octagon_color_code.py 118-164; the first argument is len(ancilla_qubits), i.e. the number of rows of H *)
Definition so_layout (n_anc : nat) (data sq oct : list coord) : layout :=
  add_faces data oct_nb (length sq) oct (add_faces data sq_nb 0 sq (layout0 n_anc data)).

(** ** color_code.py *)
Record colorcode := mkCC { cc_css : css; cc_H : nd; cc_lay : layout; cc_L : list vec; cc_distance : Z }.
(** color_code.py 25-39: the matrix is used for both kinds of checks and the recorded distance is the requested one *)
Definition ColorCode (L : ldpc) (distance : Z) (n : nat) (lay : layout) : py colorcode :=
  let H := mkNd n (lay_H lay) in
  do c <- CSSCode L distance (Some H) (Some H) None None;
  Ret (mkCC c H lay (css_Lz c) distance).
(** hexagonal_color_code.py 15-17, with the enumerations of the two sets *)
Definition HexagonalColorCode (L : ldpc) (distance : Z) (data anc : list coord) : py colorcode :=
  ColorCode L distance (length data) (hex_layout data anc).
(** square_octagon_color_code.py 12-25 *)
Definition SquareOctagonColorCode (L : ldpc) (distance : Z) (data sq oct : list coord) : py colorcode :=
  ColorCode L distance (length data) (so_layout (length (fold_left (fun l p => sadd p l) oct sq)) data sq oct).
(** color_code.py 60-62 *)
Definition cc_get_syndrome (c : colorcode) (e : vec) : py vec := matvec (cc_H c) e.
(** color_code.py 64-66: [(L @ residual % 2).any()] is a numpy.bool_ object and never the object [True] *)
Inductive pyobj := PyTrue | PyFalse | NpBool (b : bool).
Definition is_True (o : pyobj) : bool := match o with PyTrue => true | _ => false end.
Definition cc_check_if_logical_error (c : colorcode) (residual : vec) : py bool :=
  do s <- matvec (mkNd (nd_cols (cc_H c)) (cc_L c)) residual;
  Ret (is_True (NpBool (existsb (fun b => b) s))).
(** color_code.py 45-49 *)
Definition cc_eq (a b : colorcode) : bool :=
  (nd_cols (cc_H a) =? nd_cols (cc_H b)) && (if list_eq_dec vec_eq_dec (nd_rows (cc_H a)) (nd_rows (cc_H b)) then true else false).

(** an enumeration of a set *)
Definition enumerates (l s : list coord) : Prop := Permutation l s.
