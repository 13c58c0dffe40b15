(** * EccModel: the error-correcting-code framework (include/ecc, src/ecc)

    A circuit is the list of its operations.  A gate of the input circuit has a type, controls (qubit, polarity) and targets.  The names of the
    classical registers are left out: a classical bit is its number in the mapped circuit, in which the bits of the input circuit come first
    (src/ecc/Ecc.cpp:9-19), so that the bits of the code start at [ncb].  Qubit numbers are unbounded (static_cast<Qubit> is a 32-bit
    truncation in the code). *)
From Coq Require Export List Arith Bool Lia.
From Verif Require Export UtilsModel.
Export ListNotations.

Inductive gt := GX | GY | GZ | GH | GS | GSdg | GT | GTdg.
(** qc::StandardOperation, swap, reset, measure and classicControlled(type, target, {first bit, number of bits}, value) *)
Inductive op :=
| Gate (g : gt) (ctl : list (nat * bool)) (t : nat)
| Swap (a b : nat)
| Reset (q : nat)
| Meas (q c : nat)
| If (g : gt) (t lo w v : nat).
Definition x_ (q : nat) : op := Gate GX [] q.
Definition z_ (q : nat) : op := Gate GZ [] q.
Definition h_ (q : nat) : op := Gate GH [] q.
Definition cx (c t : nat) : op := Gate GX [(c, true)] t.
Definition cz (c t : nat) : op := Gate GZ [(c, true)] t.
Definition mcx (c d t : nat) : op := Gate GX [(c, true); (d, true)] t.

(** an operation of the input circuit; [IOther]: a type that no code supports *)
Inductive iop := IGate (g : gt) (ctl : list (nat * bool)) (ts : list nat) | IMeas (qs cs : list nat) | INone | IOther.
(** include/ecc/Ecc.hpp:79-80 *)
Record flags := mkFl { isDecoded : bool; gatesWritten : bool }.
(** a code: include/ecc/Ecc.hpp:32-41 and the virtual functions 85-113; each takes the number of qubits and of classical bits of the input
    circuit and the flags *)
Record ecc := mkEcc {
  e_red : nat;
  e_cor : nat;
  e_enc : nat -> nat -> flags -> flags * list op;
  e_mc : nat -> nat -> flags -> flags * list op;
  e_dec : nat -> nat -> flags -> flags * list op;
  e_map : nat -> nat -> flags -> iop -> result (flags * list op) }.
(** include/ecc/Ecc.hpp:64-66, 68-73 *)
Definition getNOutputQubits (e : ecc) (n : nat) : nat := n * e_red e + e_cor e.
Definition getDataQubits (e : ecc) (n : nat) : list nat := seq 0 (n * e_red e).
(** include/ecc/Ecc.hpp:115-120: a qc::QFRException *)
Definition unavailable {A} : result A := Err QeccException.
(** src/ecc/Ecc.cpp:26-33; [k] is nInputGates *)
Fixpoint applyGates (e : ecc) (freq n ncb k : nat) (fl : flags) (gates : list iop) : result (flags * list op) :=
  match gates with
  | [] => Ok (fl, [])
  | g :: gates' =>
      let* (fl, c1) := e_map e n ncb fl g in
      let '(fl, c2) := if (0 <? freq) && (S k mod freq =? 0) then e_mc e n ncb fl else (fl, []) in
      let* (fl, c3) := applyGates e freq n ncb (S k) fl gates' in
      Ok (fl, c1 ++ c2 ++ c3)
  end.
(** src/ecc/Ecc.cpp:21-44 on a freshly constructed object *)
Definition apply (e : ecc) (freq n ncb : nat) (gates : list iop) : result (list op) :=
  let '(fl, c1) := e_enc e n ncb (mkFl true false) in
  let* (fl, c2) := applyGates e freq n ncb 0 (mkFl false (gatesWritten fl)) gates in
  if isDecoded fl then Ok (c1 ++ c2)
  else let '(fl, c3) := e_mc e n ncb fl in
       let '(_, c4) := e_dec e n ncb fl in
       Ok (c1 ++ c2 ++ c3 ++ c4).

Definition loop (n : nat) (f : nat -> list op) : list op := flat_map f (seq 0 n).
(** the measurements of a measure operation *)
Definition measAll (qs cs : list nat) : list op := map (fun p => Meas (fst p) (snd p)) (combine qs cs).
(** measure in mapGate: src/ecc/Q3Shor.cpp:126-140 and alike; [qs cs]: what is measured into what *)
Definition mapMeas (mc dc : flags -> flags * list op) (fl : flags) (qs cs : list nat) : result (flags * list op) :=
  let '(fl, c) := if isDecoded fl then (fl, []) else let '(fl, c1) := mc fl in let '(fl, c2) := dc fl in (fl, c1 ++ c2) in
  Ok (fl, c ++ measAll qs cs).
(** the copy of a gate on the j-th qubits *)
Definition shift (n j : nat) (ctl : list (nat * bool)) : list (nat * bool) := map (fun p => (fst p + j * n, snd p)) ctl.

(** ** Id, include/ecc/Id.hpp *)
Definition copyGate (g : iop) : list op :=
  match g with IGate t ctl ts => map (Gate t ctl) ts | IMeas qs cs => measAll qs cs | _ => [] end.
Definition idEcc : ecc := mkEcc 1 0 (fun _ _ fl => (fl, [])) (fun _ _ fl => (fl, [])) (fun _ _ fl => (fl, [])) (fun _ _ fl g => Ok (fl, copyGate g)).

(** ** Q3Shor, src/ecc/Q3Shor.cpp.  [d j]: the j-th qubit of the block, [a j]: the j-th ancilla, [cl]: the first bit of the code *)
Definition q3encBlock (d : nat -> nat) : list op := [cx (d 0) (d 1); cx (d 0) (d 2)].
(** lines 15-28 *)
Definition q3enc (n ncb : nat) (fl : flags) : flags * list op :=
  if negb (isDecoded fl) || negb (gatesWritten fl) then (mkFl (isDecoded fl) true, [])
  else (mkFl false true, loop n (fun i => q3encBlock (fun j => i + j * n))).
(** lines 40-58 *)
Definition q3Block (d a : nat -> nat) (cl : nat) : list op :=
  [Reset (a 0); Reset (a 1); cx (d 0) (a 0); cx (d 1) (a 0); cx (d 1) (a 1); cx (d 2) (a 1); Meas (a 0) cl; Meas (a 1) (cl + 1);
   If GX (d 0) cl 2 1; If GX (d 2) cl 2 2; If GX (d 1) cl 2 3].
(** lines 30-60 *)
Definition q3mc (n ncb : nat) (fl : flags) : flags * list op :=
  if isDecoded fl || negb (gatesWritten fl) then (fl, []) else (fl, loop n (fun i => q3Block (fun j => i + j * n) (fun j => n * 3 + j) ncb)).
Definition q3decBlock (d : nat -> nat) : list op := [cx (d 0) (d 1); cx (d 0) (d 2); mcx (d 1) (d 2) (d 0)].
(** lines 62-76 *)
Definition q3dec (n ncb : nat) (fl : flags) : flags * list op :=
  if isDecoded fl then (fl, []) else (mkFl true (gatesWritten fl), loop n (fun i => q3decBlock (fun j => i + j * n))).
(** lines 78-107: for each target the gate, then its copies *)
Definition transversal (k n : nat) (g : gt) (ctl : list (nat * bool)) (ts : list nat) : list op :=
  flat_map (fun t => map (fun j => Gate g (shift n j ctl) (t + j * n)) (seq 0 k)) ts.
(** lines 109-145 *)
Definition q3map (n ncb : nat) (fl : flags) (g : iop) : result (flags * list op) :=
  let isM := match g with IMeas _ _ => true | IGate GH _ _ => true | _ => false end in
  let '(fl, c) := if isDecoded fl && negb isM then q3enc n ncb fl else (fl, []) in
  match g with
  | INone => Ok (fl, c)
  | IGate GH _ _ => unavailable
  | IGate t ctl ts => Ok (fl, c ++ transversal 3 n t ctl ts)
  | IMeas qs cs => mapMeas (q3mc n ncb) (q3dec n ncb) fl qs cs
  | IOther => unavailable
  end.
Definition q3Shor : ecc := mkEcc 3 2 q3enc q3mc q3dec q3map.

(** ** Q9Shor, src/ecc/Q9Shor.cpp *)
(** lines 22-37 *)
Definition s9encBlock (d : nat -> nat) : list op :=
  [cx (d 0) (d 3); cx (d 0) (d 6)] ++ flat_map (fun j => [h_ (d (3 * j)); cx (d (3 * j)) (d (3 * j + 1)); cx (d (3 * j)) (d (3 * j + 2))]) [0; 1; 2].
(** lines 15-39 *)
Definition s9enc (n ncb : nat) (fl : flags) : flags * list op :=
  if isDecoded fl then (mkFl false true, loop n (fun i => s9encBlock (fun j => i + j * n))) else (fl, []).
(** lines 47-114 *)
Definition s9prep (d a : nat -> nat) : list op :=
  map (fun j => h_ (a j)) (seq 0 8) ++
  flat_map (fun j => [cz (a (2 * j)) (d (3 * j)); cz (a (2 * j)) (d (3 * j + 1)); cz (a (2 * j + 1)) (d (3 * j + 1)); cz (a (2 * j + 1)) (d (3 * j + 2))]) [0; 1; 2] ++
  flat_map (fun j => [cx (a 6) (d j); cx (a 7) (d (3 + j))]) (seq 0 6).
Definition s9Block (d a : nat -> nat) (cl : nat) : list op :=
  map (fun j => Reset (a j)) (seq 0 8) ++ s9prep d a ++ map (fun j => h_ (a j)) (seq 0 8) ++ map (fun j => Meas (a j) (cl + j)) (seq 0 8) ++
  flat_map (fun j => [If GX (d (3 * j)) (cl + 2 * j) 2 1; If GX (d (3 * j + 2)) (cl + 2 * j) 2 2; If GX (d (3 * j + 1)) (cl + 2 * j) 2 3]) [0; 1; 2] ++
  [If GZ (d 0) (cl + 6) 2 1; If GZ (d 6) (cl + 6) 2 2; If GZ (d 3) (cl + 6) 2 3].
(** lines 41-116 *)
Definition s9mc (n ncb : nat) (fl : flags) : flags * list op :=
  if isDecoded fl then (fl, []) else (fl, loop n (fun i => s9Block (fun j => i + j * n) (fun j => 9 * n + j) ncb)).
(** lines 124-143 *)
Definition s9decBlock (d : nat -> nat) : list op :=
  flat_map (fun j => [cx (d (3 * j)) (d (3 * j + 1)); cx (d (3 * j)) (d (3 * j + 2)); mcx (d (3 * j + 1)) (d (3 * j + 2)) (d (3 * j)); h_ (d (3 * j))]) [0; 1; 2] ++
  [cx (d 0) (d 3); cx (d 0) (d 6); mcx (d 3) (d 6) (d 0)].
(** lines 118-146 *)
Definition s9dec (n ncb : nat) (fl : flags) : flags * list op :=
  if isDecoded fl then (fl, []) else (mkFl true (gatesWritten fl), loop n (fun i => s9decBlock (fun j => i + j * n))).
(** lines 187-211 *)
Definition s9gate (n : nat) (g : gt) (ctl : list (nat * bool)) (ts : list nat) : list op :=
  flat_map (fun t => match ctl with
    | [] => map (fun j => Gate g [] (t + j * n)) (seq 0 9)
    | _ => flat_map (fun j => map (fun p => h_ (fst p)) (shift n j ctl) ++ [Gate g (shift n j ctl) (t + j * n)] ++ map (fun p => h_ (fst p)) (shift n j ctl)) (seq 0 9)
    end) ts.
(** lines 148-212; an I gate is not left out: it is copied as identity gates, of which there is no trace here *)
Definition s9map (n ncb : nat) (fl : flags) (g : iop) : result (flags * list op) :=
  let isM := match g with IMeas _ _ => true | IGate GH _ _ => true | _ => false end in
  let '(fl, c) := if isDecoded fl && negb isM then s9enc n ncb fl else (fl, []) in
  match g with
  | INone => Ok (fl, c)
  | IGate GX ctl ts => Ok (fl, c ++ s9gate n GZ ctl ts)
  | IGate GY ctl ts => Ok (fl, c ++ s9gate n GY ctl ts)
  | IGate GZ ctl ts => Ok (fl, c ++ s9gate n GX ctl ts)
  | IMeas qs cs => mapMeas (s9mc n ncb) (s9dec n ncb) fl qs cs
  | _ => unavailable
  end.
Definition q9Shor : ecc := mkEcc 9 8 s9enc s9mc s9dec s9map.

(** ** Q5Laflamme, src/ecc/Q5Laflamme.cpp, include/ecc/Q5Laflamme.hpp *)
(** include/ecc/Q5Laflamme.hpp:35-41: Some false: X, Some true: Z, None: I *)
Definition l5stab : list (list (option bool)) :=
  let X := Some false in let Z := Some true in let I := None in
  [[X; Z; Z; X; I]; [I; X; Z; Z; X]; [X; I; X; Z; Z]; [Z; X; I; X; Z]].
Definition l5at (c q : nat) : option bool := nth q (nth c l5stab []) None.
(** lines 92-101: the value for the correction [g] of qubit q *)
Definition l5value (g : gt) (q : nat) : nat :=
  fold_right Nat.add 0 (map (fun c => match l5at c q, g with
                                      | None, _ | Some false, GX | Some true, GZ => 0
                                      | Some _, _ => 2 ^ c
                                      end) (seq 0 4)).
(** lines 57-86 *)
Definition l5prep (d a : nat -> nat) : list op :=
  flat_map (fun c => flat_map (fun q => match l5at c q with Some false => [cx (a c) (d q)] | Some true => [cz (a c) (d q)] | None => [] end) (seq 0 5)) (seq 0 4).
Definition l5Block (d a : nat -> nat) (cl : nat) : list op :=
  flat_map (fun j => [Reset (a j); h_ (a j)]) (seq 0 4) ++ l5prep d a ++ flat_map (fun j => [h_ (a j); Meas (a j) (cl + j)]) (seq 0 4) ++
  flat_map (fun q => map (fun g => If g (d q) cl 4 (l5value g q)) [GX; GY; GZ]) (seq 0 5).
(** lines 43-104 *)
Definition l5mc (n ncb : nat) (fl : flags) : flags * list op :=
  if isDecoded fl then (fl, []) else (fl, loop n (fun i => l5Block (fun j => i + j * n) (fun j => n * 5 + j) ncb)).
(** lines 28-39 *)
Definition l5encBlock (d : nat -> nat) (a cl : nat) : list op :=
  [h_ a] ++ map (fun j => cz a (d j)) (seq 0 5) ++ [h_ a; Meas a cl] ++ map (fun j => If GX (d j) cl 1 1) (seq 0 5).
(** lines 15-41 with include/ecc/Ecc.hpp:89-95 *)
Definition l5enc (n ncb : nat) (fl : flags) : flags * list op :=
  let '(fl, c) := if isDecoded fl then l5mc n ncb (mkFl false (gatesWritten fl)) else (fl, []) in
  (mkFl (isDecoded fl) true, c ++ loop n (fun _ => [Reset (n * 5)]) ++ loop n (fun i => l5encBlock (fun j => i + j * n) (n * 5) (ncb + 4))).
(** lines 113-129 *)
Definition l5decBlock (d : nat -> nat) (cl : nat) : list op :=
  map (fun j => Meas (d j) (cl + j - 1)) (seq 1 4) ++ map (fun v => If GX (d 0) cl 4 v) [1; 2; 4; 7; 8; 11; 13; 14].
Definition l5dec (n ncb : nat) (fl : flags) : flags * list op :=
  if isDecoded fl then (fl, []) else (mkFl true (gatesWritten fl), loop n (fun i => l5decBlock (fun j => i + j * n) ncb)).
(** lines 132-175; the arguments of measure are exchanged (line 164) *)
Definition l5map (n ncb : nat) (fl : flags) (g : iop) : result (flags * list op) :=
  let isM := match g with IMeas _ _ => true | IGate GH _ _ => true | _ => false end in
  let '(fl, c) := if isDecoded fl && negb isM then l5enc n ncb fl else (fl, []) in
  match g with
  | INone => Ok (fl, c)
  | IGate ((GX | GY | GZ) as t) ctl ts => match ctl, ts with _ :: _, _ :: _ => unavailable | _, _ => Ok (fl, c ++ transversal 5 n t [] ts) end
  | IMeas qs cs => mapMeas (l5mc n ncb) (l5dec n ncb) fl cs qs
  | _ => unavailable
  end.
Definition q5Laflamme : ecc := mkEcc 5 4 l5enc l5mc l5dec l5map.

(** ** Q7Steane, src/ecc/Q7Steane.cpp *)
(** lines 62-75: the pairs (ancilla, qubit) *)
Definition s7checks : list (nat * nat) :=
  flat_map (fun c => map (fun q => (c, q)) (filter (fun q => Nat.testbit (q + 1) c) (seq 0 7))) (seq 0 3).
Definition s7prep (x : bool) (d a : nat -> nat) : list op := map (fun p => if x then cx (a (fst p)) (d (snd p)) else cz (a (fst p)) (d (snd p))) s7checks.
(** lines 49-88 for one qubit; [rst]: gatesWritten *)
Definition s7Block (x rst : bool) (d a : nat -> nat) (cl : nat) : list op :=
  (if rst then map (fun j => Reset (a j)) (seq 0 3) else []) ++ map (fun j => h_ (a j)) (seq 0 3) ++ s7prep x d a ++
  flat_map (fun j => [h_ (a j); Meas (a j) (cl + j)]) (seq 0 3) ++ map (fun j => If (if x then GZ else GX) (d j) cl 3 (j + 1)) (seq 0 7).
(** lines 41-91 *)
Definition s7single (x : bool) (n ncb : nat) (wr : bool) : list op :=
  loop n (fun i => s7Block x (wr || (0 <? i)) (fun j => i + j * n) (fun j => n * 7 + j) ncb).
(** lines 15-31 *)
Definition s7enc (n ncb : nat) (fl : flags) : flags * list op :=
  if isDecoded fl then
    (mkFl false (gatesWritten fl || (0 <? n)),
     (if gatesWritten fl then loop n (fun i => map (fun j => Reset (i + j * n)) (seq 1 6)) else []) ++ s7single true n ncb (gatesWritten fl))
  else (fl, []).
(** lines 33-39 *)
Definition s7mc (n ncb : nat) (fl : flags) : flags * list op :=
  if isDecoded fl then (fl, [])
  else let wr := gatesWritten fl || (0 <? n) in (mkFl false wr, s7single true n ncb (gatesWritten fl) ++ s7single false n ncb wr).
(** lines 104-122 *)
Definition s7decBlock (d : nat -> nat) (cl : nat) : list op :=
  [Meas (d 1) cl; Meas (d 2) (cl + 1); Meas (d 3) (cl + 2)] ++ map (fun v => If GX (d 0) cl 3 v) [1; 2; 4; 7] ++
  [Meas (d 4) cl; Meas (d 5) (cl + 1); Meas (d 6) (cl + 2)] ++ map (fun v => If GX (d 0) cl 3 v) [1; 2; 4; 7].
Definition s7dec (n ncb : nat) (fl : flags) : flags * list op :=
  if isDecoded fl then (fl, []) else (mkFl true (gatesWritten fl), loop n (fun i => s7decBlock (fun j => i + j * n) ncb)).
(** lines 126-160: three times the gate on each copy *)
Definition s7S (n : nat) (g : gt) (ctl : list (nat * bool)) (ts : list nat) : list op :=
  flat_map (fun t => flat_map (fun j => repeat (Gate g (shift n j ctl) (t + j * n)) 3) (seq 0 7)) ts.
(** lines 225-241 *)
Definition s7T (g : gt) (d : nat -> nat) : list op := [cx (d 6) (d 5); cx (d 5) (d 0); Gate g [] (d 0); cx (d 5) (d 0); cx (d 6) (d 5)].
(** lines 162-250; the arguments of measure are exchanged (lines 206-215) *)
Definition s7map (n ncb : nat) (fl : flags) (g : iop) : result (flags * list op) :=
  let isM := match g with IMeas _ _ => true | _ => false end in
  let '(fl, c) := if isDecoded fl && negb isM then s7enc n ncb fl else (fl, []) in
  match g with
  | INone => Ok (fl, c)
  | IGate ((GX | GH | GY | GZ) as t) ctl ts => Ok (fl, c ++ transversal 7 n t ctl ts)
  | IGate ((GS | GSdg) as t) ctl ts => Ok (fl, c ++ s7S n t ctl ts)
  | IGate ((GT | GTdg) as t) ctl ts =>
      match ctl, ts with _ :: _, _ :: _ => unavailable | _, _ => Ok (fl, c ++ flat_map (fun i => s7T t (fun j => i + j * n)) ts) end
  | IMeas qs cs => mapMeas (s7mc n ncb) (s7dec n ncb) fl cs qs
  | IOther => unavailable
  end.
Definition q7Steane : ecc := mkEcc 7 3 s7enc s7mc s7dec s7map.

(** ** Q9Surface, src/ecc/Q9Surface.cpp, include/ecc/Q9Surface.hpp:36-52 *)
Definition f9X : list (list nat) := [[1]; [3]; [3]; [1; 4]; [3; 4]; [3; 6]; [4]; [4]; [6]].
Definition f9Z : list (list nat) := [[2]; [0; 2]; [0]; [2]; [2; 5]; [5]; [7]; [5; 7]; [5]].
Definition f9Xanc : list nat := [1; 3; 4; 6].
Definition f9Zanc : list nat := [0; 2; 5; 7].
Definition pairs (t : list (list nat)) : list (nat * nat) := flat_map (fun q => map (fun c => (q, c)) (nth q t [])) (seq 0 (length t)).
(** lines 72-77, 85-91 *)
Definition mask (anc cs : list nat) : nat := fold_right Nat.add 0 (map (fun j => if existsb (Nat.eqb (nth j anc 0)) cs then 2 ^ j else 0) (seq 0 (length anc))).
(** lines 44-63 *)
Definition f9prep (d a : nat -> nat) : list op :=
  map (fun q => h_ (a q)) f9Zanc ++ map (fun p => cx (a (snd p)) (d (fst p))) (pairs f9Z) ++ map (fun p => cx (d (fst p)) (a (snd p))) (pairs f9X).
(** lines 20-96 for one qubit *)
Definition f9Block (rst : bool) (d a : nat -> nat) (cl : nat) : list op :=
  (if rst then map (fun j => Reset (a j)) (seq 0 8) else []) ++ f9prep d a ++
  flat_map (fun j => [h_ (a (nth j f9Zanc 0)); Meas (a (nth j f9Zanc 0)) (cl + j); Meas (a (nth j f9Xanc 0)) (cl + 4 + j)]) (seq 0 4) ++
  map (fun q => If GZ (d q) cl 4 (mask f9Zanc (nth q f9Z []))) (filter (fun q => negb (existsb (Nat.eqb q) [0; 8])) (seq 0 9)) ++
  map (fun q => If GX (d q) (cl + 4) 4 (mask f9Xanc (nth q f9X []))) (filter (fun q => negb (existsb (Nat.eqb q) [2; 6])) (seq 0 9)).
(** lines 14-98 *)
Definition f9mc (n ncb : nat) (fl : flags) : flags * list op :=
  if isDecoded fl then (fl, [])
  else (mkFl false (gatesWritten fl || (0 <? n)), loop n (fun i => f9Block (gatesWritten fl || (0 <? i)) (fun j => i + j * n) (fun j => n * 9 + j) ncb)).
(** include/ecc/Ecc.hpp:89-95 *)
Definition defaultEnc (mc : flags -> flags * list op) (fl : flags) : flags * list op :=
  if isDecoded fl then mc (mkFl false (gatesWritten fl)) else (fl, []).
(** lines 106-113 *)
Definition f9decBlock (d : nat -> nat) (i : nat) : list op := [Meas (d 0) i; Meas (d 4) i; Meas (d 8) i; cx (d 4) (d 0); cx (d 8) (d 0); Meas (d 0) i].
Definition f9dec (n ncb : nat) (fl : flags) : flags * list op :=
  if isDecoded fl then (fl, []) else (mkFl true (gatesWritten fl), loop n (fun i => f9decBlock (fun j => i + j * n) i)).
(** lines 128-166 *)
Definition f9LX : list nat := [2; 4; 6].
Definition f9LZ : list nat := [0; 4; 8].
Definition f9swaps : list (nat * nat) := [(0, 6); (3, 7); (2, 8); (1, 5)].
Definition surfGate (data LX LZ : list nat) (swaps : list (nat * nat)) (g : gt) (d : nat -> nat) : list op :=
  match g with
  | GX => map (fun j => x_ (d j)) LX
  | GZ => map (fun j => z_ (d j)) LZ
  | GY => map (fun j => z_ (d j)) LZ ++ map (fun j => x_ (d j)) LX
  | GH => map (fun j => h_ (d j)) data ++ map (fun p => Swap (d (fst p)) (d (snd p))) swaps
  | _ => []
  end.
Definition surfMap (enc mc dc : nat -> nat -> flags -> flags * list op) (data LX LZ : list nat) (swaps : list (nat * nat)) (n ncb : nat) (fl : flags) (g : iop) : result (flags * list op) :=
  let isM := match g with IMeas _ _ => true | _ => false end in
  let '(fl, c) := if isDecoded fl && negb isM then enc n ncb fl else (fl, []) in
  match g with
  | INone => Ok (fl, c)
  | IGate ((GX | GY | GZ | GH) as t) [] ts => Ok (fl, c ++ flat_map (fun i => surfGate data LX LZ swaps t (fun j => i + j * n)) ts)
  | IMeas qs cs => mapMeas (mc n ncb) (dc n ncb) fl qs cs
  | _ => unavailable
  end.
Definition f9enc (n ncb : nat) (fl : flags) : flags * list op := defaultEnc (f9mc n ncb) fl.
Definition q9Surface : ecc := mkEcc 9 8 f9enc f9mc f9dec (surfMap f9enc f9mc f9dec (seq 0 9) f9LX f9LZ f9swaps).

(** ** Q18Surface, src/ecc/Q18Surface.cpp, include/ecc/Q18Surface.hpp:24-66 *)
Definition g18data : list nat := [1; 3; 5; 6; 8; 10; 13; 15; 17; 18; 20; 22; 25; 27; 29; 30; 32; 34].
Definition g18anc : list nat := [0; 2; 4; 7; 9; 11; 12; 14; 16; 19; 21; 23; 24; 26; 28; 31; 33; 35].
Definition g18X : list (nat * list nat) :=
  [(1, [0; 2]); (3, [2; 4]); (5, [4]); (6, [0; 12]); (8, [2]); (10, [4; 16]); (13, [12]); (15, [16]); (18, [12; 24]); (20, [26]); (22, [16; 28]); (25, [24; 26]);
   (27, [26; 28]); (29, [28]); (30, [24])].
Definition g18checks : list nat := [0; 2; 4; 12; 16; 24; 26; 28].
Definition g18pairs : list (nat * nat) := flat_map (fun p => map (fun c => (fst p, c)) (snd p)) g18X.
(** lines 26-73 for one qubit *)
Definition g18Block (rst : bool) (d : nat -> nat) (cl : nat) : list op :=
  (if rst then map (fun j => Reset (d j)) g18anc else []) ++ map (fun p => cx (d (fst p)) (d (snd p))) g18pairs ++
  map (fun j => Meas (d (nth j g18checks 0)) (cl + j)) (seq 0 8) ++
  map (fun p => If GX (d (fst p)) cl 8 (mask g18checks (snd p))) g18X.
(** lines 14-75 *)
Definition g18mc (n ncb : nat) (fl : flags) : flags * list op :=
  if isDecoded fl then (fl, [])
  else (mkFl false (gatesWritten fl || (0 <? n)), loop n (fun i => g18Block (gatesWritten fl || (0 <? i)) (fun j => i + j * n) ncb)).
(** lines 83-92 *)
Definition g18decBlock (d : nat -> nat) (i : nat) : list op :=
  [Reset (d 14)] ++ map (fun q => cx (d q) (d 14)) [8; 13; 15; 20] ++ [Meas (d 14) i; Reset (d 0); cx (d 14) (d 0)].
Definition g18dec (n ncb : nat) (fl : flags) : flags * list op :=
  if isDecoded fl then (fl, []) else (mkFl true (gatesWritten fl), loop n (fun i => g18decBlock (fun j => i + j * n) i)).
Definition g18LX : list nat := [5; 10; 15].
Definition g18LZ : list nat := [20; 25; 30].
Definition g18swaps : list (nat * nat) := [(1, 29); (3, 17); (6, 34); (8, 22); (13, 27); (18, 32)].
Definition g18enc (n ncb : nat) (fl : flags) : flags * list op := defaultEnc (g18mc n ncb) fl.
Definition q18Surface : ecc := mkEcc 36 0 g18enc g18mc g18dec (surfMap g18enc g18mc g18dec g18data g18LX g18LZ g18swaps).
Definition allCodes : list ecc := [idEcc; q3Shor; q9Shor; q5Laflamme; q7Steane; q9Surface; q18Surface].
