(** * FlagSem: specification of circuits with measurements.
    The (unnormalised) amplitudes after a circuit, for given measurement outcomes: a measurement with outcome o keeps the basis strings
    whose measured bit is o.  An outcome is impossible when all amplitudes are zero. *)
From Verif Require Export FlagModel PrepProofs3.
Local Open Scope nat_scope.

Definition project (q : nat) (o : bool) (psi : state) : state := fun x => if Bool.eqb (nth q x false) o then psi x else 0%Z.
(** outcomes in the order of the measurements *)
Fixpoint exec (l : list ins) (outs : list bool) (psi : state) : state :=
  match l with
  | [] => psi
  | IH q :: l' => exec l' outs (apply_gate psi (GH q))
  | ICX c t :: l' => exec l' outs (apply_gate psi (GCX c t))
  | IM q _ :: l' => exec l' (tl outs) (project q (hd false outs) psi)
  end.
Definition measurements (l : list ins) : nat := length (filter (fun i => match i with IM _ _ => true | _ => false end) l).
(** the qubits in l are in the state |0> *)
Definition clean (n : nat) (l : list nat) (psi : state) : Prop := forall x, length x = n -> (exists q, In q l /\ nth q x false = true) -> psi x = 0%Z.
(** the (unnormalised) projection on the eigenspace (-1)^o of the product of Z (or X) on the qubits of stab *)
Definition measured (n : nat) (z : bool) (stab : list nat) (o : bool) (psi : state) : state :=
  fun x => (psi x + (if o then -1 else 1) * (if z then op_Z (supp_vec n stab) psi else op_X (supp_vec n stab) psi) x)%Z.
(** L measures the stabilizer with ancilla a and flags fl: no flag outcome 1 is possible; for the flag outcomes 0 and ancilla outcome o the state is, up to normalisation, that of an ideal
    measurement with outcome o, the flags being 0 and the ancilla o *)
Definition measures (n : nat) (z : bool) (stab : list nat) (a : nat) (fl : list nat) (L : list ins) : Prop :=
  measurements L = S (length fl) /\
  exists c1 c2 : Z, (0 < c1)%Z /\ (0 < c2)%Z /\ forall psi fo o, clean n (a :: fl) psi -> length fo = length fl -> forall x, length x = n ->
    (c1 * exec L (fo ++ [o]) psi x =
      if existsb (fun b => b) fo then 0
      else if forallb (fun f => negb (nth f x false)) fl && Bool.eqb (nth a x false) o then c2 * measured n z stab o psi (set_nth a false x) else 0)%Z.
