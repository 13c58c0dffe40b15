(** * StabModel: src/mqt/qecc/codes/stabilizer_code.py
    Strings are lists of characters.  A numpy 2-d array is the list of its rows; [ldpc.mod2.rank]
    is the verified executable rank [rk] of Lin2 (an external library, see DESIGN.md). *)
From Coq Require Export Ascii String ZArith.
From Verif Require Export Lin2 PyModel.
Open Scope list_scope.
Open Scope py_scope.

Definition pystr := list ascii.
Definition str (s : string) : pystr := list_ascii_of_string s.

Definition isSign (c : ascii) : bool := (c =? "+")%char || (c =? "-")%char.
Definition isLetter (c : ascii) : bool := (c =? "I")%char || (c =? "X")%char || (c =? "Y")%char || (c =? "Z")%char.

(** stabilizer_code.py:165-180 (string branch): p[0] on the empty string raises IndexError; any
    character that is not X, Y or Z counts as identity. *)
Definition pauli_to_binary (p : pystr) : py vec :=
  match p with
  | [] => Raise IndexError
  | c :: rest =>
      let phase := if isSign c then negb (c =? "+")%char else false in
      let p' := if isSign c then rest else p in
      let x_part := map (fun c => (c =? "X")%char) p' in
      let z_part := map (fun c => (c =? "Z")%char) p' in
      let y_part := map (fun c => (c =? "Y")%char) p' in
      (* the integer additions in lines 178-179 never exceed 1: a character is not both X and Y *)
      Ret (map (fun ab => orb (fst ab) (snd ab)) (combine x_part y_part) ++
           map (fun ab => orb (fst ab) (snd ab)) (combine z_part y_part) ++ [phase])
  end.

(** numpy array of rows: rows of unequal length raise ValueError (numpy >= 1.24); lines 183-185 *)
Definition npRect (rows : list vec) : py (list vec) :=
  if forallb (fun r => Nat.eqb (length r) (length (hd [] rows))) rows then Ret rows else Raise ValueError.
Fixpoint pmapM {A B} (f : A -> py B) (l : list A) : py (list B) :=
  match l with [] => Ret [] | a :: l' => do b <- f a; do bs <- pmapM f l'; Ret (b :: bs) end.

(** a list of Paulis handed to the constructor: list[str] or a 2-d array of binary rows *)
Inductive paulis := Strs (ps : list pystr) | Bins (rows : list vec).

(** stabilizer_code.py:183-185 *)
Definition paulis_to_binary (ps : paulis) : py (list vec) :=
  match ps with
  | Strs l => do rows <- pmapM pauli_to_binary l; npRect rows
  | Bins rows => npRect rows
  end.

(** stabilizer_code.py:188-195; b[-1] of an empty array raises IndexError *)
Definition letterOf (xz : bool * bool) : ascii :=
  if fst xz && negb (snd xz) then "X"%char else if snd xz && negb (fst xz) then "Z"%char
  else if fst xz && snd xz then "Y"%char else "I"%char.
Definition binary_to_pauli_string (b : vec) : py pystr :=
  match b with
  | [] => Raise IndexError
  | _ =>
    let h := Nat.div (length b) 2 in
    let x_part := firstn h b in
    let z_part := firstn (length b - 1 - h) (skipn h b) in
    let phase := nth (length b - 1) b false in
    Ret ((if phase then ["-"%char] else []) ++ map letterOf (combine x_part z_part))
  end.

(** stabilizer_code.py:198-200 *)
Definition is_pauli_string (p : pystr) : bool :=
  match p with
  | [] => false
  | c :: rest => forallb isLetter rest && (isSign c || isLetter c)
  end.

(** stabilizer_code.py:203-209 *)
Definition n_qubits_str (p : pystr) : py nat :=
  match p with [] => Raise IndexError | c :: rest => Ret (if isSign c then length rest else length p) end.
Definition n_qubits_bin (b : vec) : nat := Nat.div (length b) 2.

(** *** integer arithmetic of numpy: dot products in a w-bit signed type that wraps around *)
Definition wrap (w z : Z) : Z := ((z + 2 ^ (w - 1)) mod 2 ^ w - 2 ^ (w - 1))%Z.
Fixpoint idot (w : Z) (a b : vec) : Z :=
  match a, b with
  | x :: a', y :: b' => wrap w (Z.b2z x * Z.b2z y + idot w a' b')
  | _, _ => 0%Z
  end.

(** stabilizer_code.py:227-230; [@] of vectors of different lengths raises ValueError.
    w is the integer width of the array's dtype. *)
Definition symplectic_inner_product (w : Z) (p1 p2 : vec) : py Z :=
  let n := Nat.div (length p1) 2 in
  if Nat.eqb (length (firstn n p1)) (length (skipn n p2)) && Nat.eqb (length (skipn n p1)) (length (firstn n p2))
  then Ret (wrap w (idot w (firstn n p1) (skipn n p2) + idot w (skipn n p1) (firstn n p2)) mod 2)%Z
  else Raise ValueError.
(** stabilizer_code.py:212-214 and 217-219 *)
Definition commute (w : Z) (p1 p2 : vec) : py bool := do z <- symplectic_inner_product w p1 p2; Ret (z =? 0)%Z.
Definition anti_commute (w : Z) (p1 p2 : vec) : py bool := do b <- commute w p1 p2; Ret (negb b).

(** stabilizer_code.py:233-236, on nonempty rectangular arrays (shape[1] is the length of the first row) *)
Definition symplectic_matrix_product (w : Z) (m1 m2 : list vec) : py (list (list Z)) :=
  let w1 := length (hd [] m1) in let w2 := length (hd [] m2) in
  let n := Nat.div w1 2 in
  if Nat.eqb (Nat.min n w1) (w2 - n) && Nat.eqb (w1 - n) (Nat.min n w2)
  then Ret (map (fun r => map (fun s =>
         (wrap w (idot w (firstn n r) (skipn n s) + idot w (skipn n r) (firstn n s)) mod 2)%Z) m2) m1)
  else Raise ValueError.

(** stabilizer_code.py:222-224 *)
Definition all_commute (w : Z) (m1 m2 : list vec) : py bool :=
  do p <- symplectic_matrix_product w m1 m2; Ret (forallb (forallb (fun z => (z =? 0)%Z)) p).

(** stabilizer_code.py:239-242 *)
Definition symplectic_matrix_mul (w : Z) (m : list vec) (v : vec) : py (list Z) :=
  let w1 := length (hd [] m) in let n := Nat.div w1 2 in
  if Nat.eqb (Nat.min n w1) (length v - n) && Nat.eqb (w1 - n) (Nat.min n (length v))
  then Ret (map (fun r => (wrap w (idot w (firstn n r) (skipn n v) + idot w (skipn n r) (firstn n v)) mod 2)%Z) m)
  else Raise ValueError.

(** stabilizer_code.py:245-247: x[:-1] *)
Definition pauli_to_symplectic_vec (p : pystr) : py vec := do b <- pauli_to_binary p; Ret (removelast b).

(** ** the class *)
Record stabcode := mkStab {
  sc_n : nat; sc_gens : list vec; sc_sym : list vec; sc_k : Z; sc_distance : Z;
  sc_Lz : option (list vec); sc_Lx : option (list vec) }.

Definition npWidth (m : list vec) : nat := length (hd [] m).
(** x[:, :-1]: a 1-d (empty) array raises IndexError *)
Definition dropPhase (m : list vec) : py (list vec) :=
  match m with [] => Raise IndexError | _ => Ret (map (@removelast bool) m) end.

(** stabilizer_code.py:107-121 *)
Definition check_stabilizer_generators (gens : paulis) : py unit :=
  match gens with
  | Strs [] | Bins [] => Raise InvalidStabilizerCodeError
  | Strs ((g0 :: _) as gs) =>
      if negb (forallb (fun g => Nat.eqb (length g0) (length g)) gs) then Raise InvalidStabilizerCodeError
      else if negb (forallb is_pauli_string gs) then Raise InvalidStabilizerCodeError else Ret tt
  | Bins ((g0 :: _) as gs) =>
      if negb (forallb (fun g => Nat.eqb (length g0) (length g)) gs) then Raise InvalidStabilizerCodeError else Ret tt
  end.

(** np.sum(commutations, axis=1) == 1 for every row (line 160) *)
Definition rowSumsOne (p : list (list Z)) : bool := forallb (fun r => (fold_right Z.add 0 r =? 1)%Z) p.

(** stabilizer_code.py:123-162 *)
Definition check_code_correct (w : Z) (n : nat) (k : Z) (sym : list vec) (Lz Lx : option (list vec)) : py unit :=
  match Lz, Lx with
  | None, None => Ret tt
  | None, Some _ | Some _, None => Raise InvalidStabilizerCodeError
  | Some lz, Some lx =>
      if negb (Nat.eqb (n_qubits_bin (hd [] lz)) n) then Raise InvalidStabilizerCodeError else
      if (k <? Z.of_nat (length lz))%Z then Raise InvalidStabilizerCodeError else
      if negb (Nat.eqb (n_qubits_bin (hd [] lx)) n) then Raise InvalidStabilizerCodeError else
      if (k <? Z.of_nat (length lx))%Z then Raise InvalidStabilizerCodeError else
      do b <- all_commute w (map (@removelast bool) lz) sym;
      if negb b then Raise InvalidStabilizerCodeError else
      do b <- all_commute w (map (@removelast bool) lx) sym;
      if negb b then Raise InvalidStabilizerCodeError else
      do c <- symplectic_matrix_product w (map (@removelast bool) lz) (map (@removelast bool) lx);
      if negb (rowSumsOne c) then Raise InvalidStabilizerCodeError else Ret tt
  end.

Definition optLogicals (L : option paulis) : py (option (list vec)) :=
  match L with
  | None => Ret None
  | Some ps => do b <- paulis_to_binary ps; do s <- dropPhase b; Ret (Some b)
  end.

(** stabilizer_code.py:31-73 *)
Definition StabilizerCode (w : Z) (gens : paulis) (distance : option Z) (Lz Lx : option paulis) : py stabcode :=
  do u <- check_stabilizer_generators gens;
  do n <- match gens with
          | Strs gs => n_qubits_str (hd [] gs)
          | Bins gs => Ret (n_qubits_bin (hd [] gs)) end;
  do g <- paulis_to_binary gens;
  do sym <- dropPhase g;
  let k := (Z.of_nat n - Z.of_nat (rk (npWidth g) g))%Z in
  if match distance with Some d => (d <=? 0)%Z | None => false end then Raise InvalidStabilizerCodeError else
  let dist := match distance with Some d => d | None => 1%Z end in
  do lz <- optLogicals Lz;
  do lx <- optLogicals Lx;
  do v <- check_code_correct w n k sym lz lx;
  Ret (mkStab n g sym k dist lz lx).

(** stabilizer_code.py:79-86; np.vstack of arrays of different widths raises ValueError.  The
    conjunction is short-circuit: the stack is only built when the ranks agree. *)
Definition vstack (a b : list vec) : py (list vec) :=
  if Nat.eqb (npWidth a) (npWidth b) then Ret (a ++ b) else Raise ValueError.
Definition code_eq (c1 c2 : stabcode) : py bool :=
  let g1 := sc_gens c1 in let g2 := sc_gens c2 in
  let rnk := rk (npWidth g1) g1 in
  if Nat.eqb rnk (rk (npWidth g2) g2) then
    do s <- vstack g1 g2; Ret (Nat.eqb rnk (rk (npWidth s) s))
  else Ret false.

(** stabilizer_code.py:88-94 *)
Definition get_syndrome (w : Z) (c : stabcode) (error : pystr) : py (list Z) :=
  do v <- pauli_to_symplectic_vec error; symplectic_matrix_mul w (sc_sym c) v.

(** stabilizer_code.py:96-98 *)
Definition stabs_as_pauli_strings (c : stabcode) : py (list pystr) := pmapM binary_to_pauli_string (sc_gens c).

(** stabilizer_code.py:100-104 *)
Definition stabilizer_equivalent (c : stabcode) (p1 p2 : pystr) : py bool :=
  do v1 <- pauli_to_binary p1;
  do v2 <- pauli_to_binary p2;
  do a <- vstack (sc_gens c) [v1]; do a2 <- vstack a [v2];
  do b <- vstack (sc_gens c) [v1];
  Ret (Nat.eqb (rk (npWidth a2) a2) (rk (npWidth b) b)).
