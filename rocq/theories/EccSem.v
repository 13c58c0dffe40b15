(** * EccSem: what a circuit of [op]s does to a state of the qubits (specification of C48-C50, C57)

    Amplitudes are exact: the ring Z[w] with w = exp(i pi/4), i.e. w^4 = -1.  A basis state is a number whose binary digits are the qubits; a state
    gives each basis state an amplitude.  States are not normalised: the Hadamard gate is written without its factor 1/sqrt 2, and a controlled
    Hadamard multiplies the untouched part by sqrt 2 = w - w^3 instead.  A measurement and a reset take their outcome from a record, the list of
    outcomes to come, and apply the Kraus operator of this outcome: |b><b| for a measurement, |0><b| for a reset.  So a claim about every record is
    a claim about everything that can happen, and the amplitude of an impossible branch is 0. *)
From Coq Require Import NArith ZArith Ring.
From Verif Require Export EccModel.

(** ** Amplitudes: Am a b c d = a + b w + c w^2 + d w^3 *)
Inductive amp := Am (a b c d : Z).
Definition azero : amp := Am 0 0 0 0.
Definition aone : amp := Am 1 0 0 0.
Definition aI : amp := Am 0 0 1 0.
Definition aW : amp := Am 0 1 0 0.
Definition asqrt2 : amp := Am 0 1 0 (-1).
Definition aadd (x y : amp) : amp := let '(Am a b c d) := x in let '(Am a' b' c' d') := y in Am (a + a') (b + b') (c + c') (d + d').
Definition aopp (x : amp) : amp := let '(Am a b c d) := x in Am (- a) (- b) (- c) (- d).
Definition asub (x y : amp) : amp := aadd x (aopp y).
Definition amul (x y : amp) : amp :=
  let '(Am a b c d) := x in let '(Am a' b' c' d') := y in
  Am (a * a' - b * d' - c * c' - d * b') (a * b' + b * a' - c * d' - d * c') (a * c' + b * b' + c * a' - d * d') (a * d' + b * c' + c * b' + d * a').
Lemma amp_ring : ring_theory azero aone aadd amul asub aopp eq.
Proof. split; intros; repeat match goal with x : amp |- _ => destruct x end; unfold azero, aone, asub, aadd, amul, aopp; f_equal; ring. Qed.
Add Ring ampring : amp_ring.
Declare Scope amp_scope.
Delimit Scope amp_scope with A.
Bind Scope amp_scope with amp.
Infix "+" := aadd : amp_scope.
Infix "*" := amul : amp_scope.
Infix "-" := asub : amp_scope.
Notation "- x" := (aopp x) : amp_scope.
Local Open Scope amp_scope.

(** ** States *)
Definition state := N -> amp.
Definition seq_ (f g : state) : Prop := forall x, f x = g x.
Infix "==" := seq_ (at level 70) : amp_scope.
Definition bit (x : N) (q : nat) : bool := N.testbit x (N.of_nat q).
Definition upd (x : N) (q : nat) (b : bool) : N := if b then N.setbit x (N.of_nat q) else N.clearbit x (N.of_nat q).
Definition scale (c : amp) (f : state) : state := fun x => c * f x.
Definition plus (f g : state) : state := fun x => f x + g x.
Definition zero : state := fun _ => azero.
(** the basis state with all qubits 0 *)
Definition ket0 : state := fun x => if N.eqb x 0 then aone else azero.

(** ** Gates: the matrices [[m00, m01], [m10, m11]] *)
Definition mat (g : gt) : amp * amp * amp * amp :=
  match g with
  | GX => (azero, aone, aone, azero)
  | GY => (azero, aopp aI, aI, azero)
  | GZ => (aone, azero, azero, aopp aone)
  | GH => (aone, aone, aone, aopp aone)
  | GS => (aone, azero, azero, aI)
  | GSdg => (aone, azero, azero, aopp aI)
  | GT => (aone, azero, azero, aW)
  | GTdg => (aone, azero, azero, Am 0 0 0 (-1))
  end.
Definition u2 (m : amp * amp * amp * amp) (q : nat) (f : state) : state :=
  fun x => let '(m00, m01, m10, m11) := m in
           if bit x q then m10 * f (upd x q false) + m11 * f (upd x q true) else m00 * f (upd x q false) + m01 * f (upd x q true).
Definition unit_of (g : gt) : amp := match g with GH => asqrt2 | _ => aone end.
Definition active (ctl : list (nat * bool)) (x : N) : bool := forallb (fun p => Bool.eqb (bit x (fst p)) (snd p)) ctl.
Definition gate (g : gt) (ctl : list (nat * bool)) (t : nat) (f : state) : state :=
  fun x => if active ctl x then u2 (mat g) t f x else unit_of g * f x.

(** ** Circuits.  A configuration: the classical bits, the outcomes to come, the state *)
Record conf := mkConf { creg : N; outs : list bool; st : state }.
(** the value of [w] classical bits from [lo] *)
Definition value (c : N) (lo w : nat) : N := N.modulo (N.shiftr c (N.of_nat lo)) (2 ^ N.of_nat w)%N.
Definition project (q : nat) (b : bool) (f : state) : state := fun x => if Bool.eqb (bit x q) b then f x else azero.
Definition resetTo (q : nat) (b : bool) (f : state) : state := fun x => if bit x q then azero else f (upd x q b).
Definition step (c : conf) (o : op) : conf :=
  match o with
  | Gate g ctl t => mkConf (creg c) (outs c) (gate g ctl t (st c))
  | Swap a b => mkConf (creg c) (outs c) (fun x => st c (upd (upd x a (bit x b)) b (bit x a)))
  | Reset q => let b := hd false (outs c) in mkConf (creg c) (tl (outs c)) (resetTo q b (st c))
  | Meas q k => let b := hd false (outs c) in mkConf (upd (creg c) k b) (tl (outs c)) (project q b (st c))
  | If g t lo w v => mkConf (creg c) (outs c) (if N.eqb (value (creg c) lo w) (N.of_nat v) then gate g [] t (st c) else st c)
  end.
Definition run (os : list op) (c : conf) : conf := fold_left step os c.
(** the state after a circuit of which no operation is classically controlled or random *)
Definition after (os : list op) (f : state) : state := st (run os (mkConf 0 [] f)).
