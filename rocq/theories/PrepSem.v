(** * PrepSem: specification of state preparation circuits.
    A state of n qubits assigns an (unnormalised) integer amplitude to every basis string; a circuit of Hadamards and
    CNOTs acts on amplitudes in the usual way, the factor 1/sqrt 2 of each Hadamard being left out. *)
From Coq Require Export ZArith.
From Verif Require Export Lin Lin2 ListX.

Inductive gate := GH (q : nat) | GCX (ctrl tgt : nat).
Definition state := vec -> Z.

(** |0...0> *)
Definition zero_ket (n : nat) : state := fun x => if veqb x (vzero n) then 1%Z else 0%Z.
(** flip the target when the control is set: a CNOT on basis strings *)
Definition cxv (c t : nat) (x : vec) : vec := set_nth t (xorb (nth t x false) (nth c x false)) x.
Definition apply_gate (psi : state) (g : gate) : state := fun x =>
  match g with
  | GH q => (psi (set_nth q false x) + (if nth q x false then -1 else 1) * psi (set_nth q true x))%Z
  | GCX c t => psi (cxv c t x)
  end.
Definition run (n : nat) (circ : list gate) : state := fold_left apply_gate circ (zero_ket n).

(** the state is the uniform superposition of the strings in S *)
Definition uniform_over (n : nat) (S : vec -> Prop) (psi : state) : Prop :=
  forall x, length x = n -> (S x -> psi x = 1%Z) /\ (~ S x -> psi x = 0%Z).
(** the operators X(g) and Z(z) *)
Definition op_X (g : vec) (psi : state) : state := fun x => psi (vxor x g).
Definition op_Z (z : vec) (psi : state) : state := fun x => ((if dot z x then -1 else 1) * psi x)%Z.
Definition state_eq (n : nat) (a b : state) : Prop := forall x, length x = n -> a x = b x.
Definition gate_ok (n : nat) (g : gate) : Prop := match g with GH q => q < n | GCX c t => c < n /\ t < n /\ c <> t end.
