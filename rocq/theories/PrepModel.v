(** * PrepModel: heuristic_prep_circuit and _build_circuit_from_list_and_checks of src/mqt/qecc/ft_stateprep/state_prep.py *)
From Verif Require Export CssModel PrepSem.
Local Open Scope Z_scope.

(** state_prep.py 248: checks[:, j] = (checks[:, i] + checks[:, j]) % 2, one row at a time *)
Definition coladd (i j : nat) (M : mat) : mat := map (cxv i j) M.
Definition wtc (M : mat) (j : nat) : Z := Z.of_nat (weight (col M j)).
(** np.sum((checks[:, i] + checks[:, j]) % 2) *)
Definition wtsum (M : mat) (i j : nat) : Z := Z.of_nat (weight (vxor (col M i) (col M j))).
Definition zmat := list (list Z).
Definition zget (c : zmat) (i j : nat) : Z := nth j (nth i c []) 0.
Definition tabulate (n : nat) (f : nat -> nat -> Z) : zmat := map (fun i => map (f i) (seq 0 n)) (seq 0 n).
(** np.fill_diagonal(costs, 1) *)
Definition fill_diag (n : nat) (c : zmat) : zmat := tabulate n (fun i j => if (i =? j)%nat then 1 else zget c i j).
(** state_prep.py 213-217 and 233-238 *)
Definition init_costs (n : nat) (M : mat) : zmat :=
  let c := tabulate n (fun i j => wtsum M i j) in
  let c := tabulate n (fun i j => zget c i j - wtc M j) in
  fill_diag n c.
(** state_prep.py 249-253, M is already updated *)
Definition update_costs (n : nat) (M : mat) (j : nat) (c : zmat) : zmat :=
  let nw := map (fun k => wtsum M j k) (seq 0 n) in
  let c := tabulate n (fun a b => if (a =? j)%nat then nth b nw 0 - wtc M b else zget c a b) in
  let c := tabulate n (fun a b => if (b =? j)%nat then nth a nw 0 - wtc M j else zget c a b) in
  fill_diag n c.

Definition zero_col (M : mat) (j : nat) : bool := forallb negb (col M j).
(** state_prep.py 210-211 *)
Definition is_reduced (n rank : nat) (M : mat) : bool :=
  (length (filter (zero_col M) (seq 0 n)) =? n - rank)%nat.

(** the entries of the masked array costs_unused in row-major order *)
Definition pairs (n : nat) : list (nat * nat) := flat_map (fun i => map (pair i) (seq 0 n)) (seq 0 n).
Definition unmasked (n : nat) (used : list nat) : list (nat * nat) :=
  filter (fun '(i, j) => negb (existsb (Nat.eqb i) used) && negb (existsb (Nat.eqb j) used)) (pairs n).
(** np.unravel_index(np.argmin(costs_unused)): the first unmasked entry with the least value *)
Fixpoint argmin (c : zmat) (best : nat * nat) (l : list (nat * nat)) : nat * nat :=
  match l with
  | [] => best
  | p :: l' => argmin c (if zget c (fst p) (snd p) <? zget c (fst best) (snd best) then p else best) l'
  end.

Record hstate := mkH { h_checks : mat; h_costs : zmat; h_used : list nat; h_cnots : list (nat * nat) }.

(** One turn of the loop 221-253; [None] when the loop condition is false.  np.all of a fully masked array is the
    masked constant, which is falsy: this happens only when every qubit is used, and then the second disjunct holds
    (without any unmasked entry the list below is empty and has no negative entry either). *)
Definition hstep (rre : nat -> mat -> mat) (n rank : nat) (optimize_depth : bool) (s : hstate) : option hstate :=
  if is_reduced n rank (h_checks s) then None else
  let um := unmasked n (h_used s) in
  if forallb (fun '(i, j) => 0 <=? zget (h_costs s) i j) um || (length (h_used s) =? n)%nat then
    match h_used s with
    | [] => let M := rre n (h_checks s) in Some (mkH M (init_costs n M) [] (h_cnots s))
    | _ => Some (mkH (h_checks s) (h_costs s) [] (h_cnots s))
    end
  else
    match um with
    | [] => Some s
    | p :: um' =>
      let '(i, j) := argmin (h_costs s) p um' in
      let M := coladd i j (h_checks s) in
      Some (mkH M (update_costs n M j (h_costs s)) (if optimize_depth then h_used s ++ [i; j] else h_used s) (h_cnots s ++ [(i, j)]))
    end.
Fixpoint hloop (fuel : nat) (rre : nat -> mat -> mat) (n rank : nat) (od : bool) (s : hstate) : option hstate :=
  match fuel with
  | O => None
  | S fuel' => match hstep rre n rank od s with None => Some s | Some s' => hloop fuel' rre n rank od s' end
  end.

(** state_prep.py 485-507 *)
Definition build_circuit (n : nat) (cnots : list (nat * nat)) (M : mat) (zero_state : bool) : list gate :=
  let controls := filter (fun i => 1 <=? wtc M i) (seq 0 n) in
  (if zero_state then map GH controls
   else map GH (filter (fun i => negb (existsb (Nat.eqb i) controls)) (seq 0 n))) ++
  map (fun '(i, j) => if zero_state then GCX i j else GCX j i) (rev cnots).

(** state_prep.py 197-259: the circuit put into the returned StatePrepCircuit, [None] when [fuel] turns do not suffice *)
Definition heuristic_prep_circuit (fuel : nat) (rre : nat -> mat -> mat) (c : css) (optimize_depth zero_state : bool) : option (list gate) :=
  let checks := if zero_state then css_Hx c else css_Hz c in
  let n := nd_cols checks in
  let rank := rk n (nd_rows checks) in
  match hloop fuel rre n rank optimize_depth (mkH (nd_rows checks) (init_costs n (nd_rows checks)) [] []) with
  | None => None
  | Some s => Some (build_circuit n (h_cnots s) (h_checks s) zero_state)
  end.
