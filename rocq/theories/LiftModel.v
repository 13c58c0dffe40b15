(** * LiftModel: scripts/numerics/code_construct/lifted_hgp.py.  The ring of ldpc.protograph is a parameter of the source; it is modelled
    as its documentation describes it: an element is the list of the exponents of its monomials (a repeated exponent cancels in pairs
    when the element is made binary), T negates the exponents, to_binary(L) puts for every exponent k the cyclic permutation with ones at
    (s, (s + k) mod L), modulo 2. *)
From Verif Require Export ArrModel.
Local Open Scope nat_scope.
Local Open Scope py_scope.

Definition ring := list Z.
Definition r_one : ring := [0%Z].
Definition r_mul (x y : ring) : ring := flat_map (fun k => map (Z.add k) y) x.
Definition r_T (x : ring) : ring := map Z.opp x.
(** a protograph: pt.array *)
Record proto := mkProto { p_rows : nat; p_cols : nat; p_at : nat -> nat -> ring }.
(** pt.identity (lifted_hgp.py 17-19), pt.zeros, A.T of pt.array (the entries are transposed too) *)
Definition p_eye (n : nat) : proto := mkProto n n (fun i j => if i =? j then r_one else []).
Definition p_zeros (r c : nat) : proto := mkProto r c (fun _ _ => []).
Definition p_T (A : proto) : proto := mkProto (p_cols A) (p_rows A) (fun i j => r_T (p_at A j i)).
(** np.kron of object arrays: entry (i, j) is A[i // p, j // q] * B[i % p, j % q] *)
Definition p_kron (A B : proto) : proto := mkProto (p_rows A * p_rows B) (p_cols A * p_cols B)
  (fun i j => r_mul (p_at A (i / p_rows B) (j / p_cols B)) (p_at B (i mod p_rows B) (j mod p_cols B))).
(** pt.hstack, pt.vstack of two arrays *)
Definition p_hcat (A B : proto) : proto := mkProto (p_rows A) (p_cols A + p_cols B) (fun i j => if j <? p_cols A then p_at A i j else p_at B i (j - p_cols A)).
Definition p_vcat (A B : proto) : proto := mkProto (p_rows A + p_rows B) (p_cols A) (fun i j => if i <? p_rows A then p_at A i j else p_at B (i - p_rows A) j).
Definition p_hstack (A B : proto) : py proto := if p_rows A =? p_rows B then Ret (p_hcat A B) else Raise ValueError.
Definition p_vstack (A B : proto) : py proto := if p_cols A =? p_cols B then Ret (p_vcat A B) else Raise ValueError.
(** to_binary(lift_parameter), lift_parameter > 0 *)
Definition monomials (L : nat) (x : ring) (s t : nat) : Z := Z.of_nat (length (filter (fun k => ((Z.of_nat s + k) mod Z.of_nat L =? Z.of_nat t)%Z) x)).
Definition to_binary (L : nat) (A : proto) : arr := mkArr (p_rows A * L) (p_cols A * L) (fun i j => (monomials L (p_at A (i / L) (j / L)) (i mod L) (j mod L) mod 2)%Z).

(** LiftedHgp.__init__, lifted_hgp.py 25-57; [l_hx], [l_hz] are what is handed to css_code *)
Record lifted := mkLifted { l_L : nat; l_hx1 : proto; l_hx2 : proto; l_hz1 : proto; l_hz2 : proto; l_hxp : proto; l_hzp : proto }.
Definition LiftedHgp (L : nat) (a : proto) (ob : option proto) : py lifted :=
  let b := match ob with Some b => b | None => a end in
  let hx1 := p_kron a (p_eye (p_cols b)) in
  let hx2 := p_kron (p_eye (p_rows a)) (p_T b) in
  do hxp <- p_hstack hx1 hx2;
  let hz1 := p_kron (p_eye (p_cols a)) b in
  let hz2 := p_kron (p_T a) (p_eye (p_rows b)) in
  do hzp <- p_hstack hz1 hz2;
  Ret (mkLifted L hx1 hx2 hz1 hz2 hxp hzp).
Definition l_hx (c : lifted) : arr := to_binary (l_L c) (l_hxp c).
Definition l_hz (c : lifted) : arr := to_binary (l_L c) (l_hzp c).
(** lifted_hgp.py 59-64 (protograph); the same text in 110-115, where the two protographs are those of the rotated code *)
Definition protograph (hzp hxp : proto) : py proto :=
  do px <- p_vstack (p_zeros (p_rows hzp) (p_cols hzp)) hxp;
  do pz <- p_vstack hzp (p_zeros (p_rows hxp) (p_cols hxp));
  p_hstack px pz.
(** BiasTailoredLiftedProduct.__init__, lifted_hgp.py 87-108; the two matrices are handed to stab_code *)
Definition BiasTailored (L : nat) (a : proto) (ob : option proto) : py (proto * proto) :=
  do c <- LiftedHgp L a ob;
  do t1 <- p_hstack (p_zeros (p_rows (l_hx1 c)) (p_cols (l_hx1 c))) (l_hz2 c);
  do t2 <- p_hstack (l_hx1 c) (p_zeros (p_rows (l_hz2 c)) (p_cols (l_hz2 c)));
  do hxp <- p_vstack t1 t2;
  do t1 <- p_hstack (l_hz1 c) (p_zeros (p_rows (l_hx2 c)) (p_cols (l_hx2 c)));
  do t2 <- p_hstack (p_zeros (p_rows (l_hz1 c)) (p_cols (l_hz1 c))) (l_hx2 c);
  do hzp <- p_vstack t1 t2;
  Ret (hxp, hzp).
