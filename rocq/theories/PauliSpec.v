(** * PauliSpec: the Pauli group, independent of any code model.
    Single-qubit Paulis with the usual multiplication table, tracked up to powers of i, and the
    check of that table against 2x2 matrices over the Gaussian integers. *)
From Verif Require Export Lin.
From Coq Require Import ZArith.
Arguments Nat.modulo : simpl never.
Arguments Nat.div : simpl never.

Inductive pauli := PI | PX | PY | PZ.

Definition pauli_eq_dec (a b : pauli) : {a = b} + {a <> b}.
Proof. decide equality. Defined.

(** product of two single-qubit Paulis: (k, R) means i^k R *)
Definition pmul1 (a b : pauli) : nat * pauli :=
  match a, b with
  | PI, x => (0, x)
  | x, PI => (0, x)
  | PX, PX | PY, PY | PZ, PZ => (0, PI)
  | PX, PY => (1, PZ) | PY, PX => (3, PZ)
  | PY, PZ => (1, PX) | PZ, PY => (3, PX)
  | PZ, PX => (1, PY) | PX, PZ => (3, PY)
  end.

(** Validation of the table with matrices [[a,b],[c,d]] over Z[i]. *)
Definition gi : Set := (Z * Z)%type.
Definition gadd (x y : gi) : gi := (fst x + fst y, snd x + snd y)%Z.
Definition gmul (x y : gi) : gi := (fst x * fst y - snd x * snd y, fst x * snd y + snd x * fst y)%Z.
Definition mat2 : Set := (gi * gi * gi * gi)%type.
Definition mmul2 (A B : mat2) : mat2 :=
  let '(a, b, c, d) := A in let '(e, f, g, h) := B in
  (gadd (gmul a e) (gmul b g), gadd (gmul a f) (gmul b h), gadd (gmul c e) (gmul d g), gadd (gmul c f) (gmul d h)).
Definition scal2 (s : gi) (A : mat2) : mat2 := let '(a, b, c, d) := A in (gmul s a, gmul s b, gmul s c, gmul s d).
Definition ipow (k : nat) : gi := match (k mod 4)%nat with 0%nat => (1%Z, 0%Z) | 1%nat => (0%Z, 1%Z) | 2%nat => ((-1)%Z, 0%Z) | _ => (0%Z, (-1)%Z) end.
Definition pmat (p : pauli) : mat2 :=
  match p with
  | PI => ((1,0), (0,0), (0,0), (1,0))
  | PX => ((0,0), (1,0), (1,0), (0,0))
  | PY => ((0,0), (0,-1), (0,1), (0,0))
  | PZ => ((1,0), (0,0), (0,0), (-1,0))
  end%Z.

Lemma pmul1_matrices a b : mmul2 (pmat a) (pmat b) = scal2 (ipow (fst (pmul1 a b))) (pmat (snd (pmul1 a b))).
Proof. destruct a, b; reflexivity. Qed.

(** n-qubit product, phase modulo 4 *)
Fixpoint pmul (P Q : list pauli) : nat * list pauli :=
  match P, Q with
  | a :: P', b :: Q' =>
      let (k, R) := pmul P' Q' in let (k1, r) := pmul1 a b in ((k + k1) mod 4, r :: R)
  | _, _ => (0, [])
  end.

Definition pcommute (P Q : list pauli) : Prop := pmul P Q = pmul Q P.

(** number of qubits where both act nontrivially and differently *)
Fixpoint anti_count (P Q : list pauli) : nat :=
  match P, Q with
  | a :: P', b :: Q' =>
      (match a, b with
       | PI, _ | _, PI => 0
       | PX, PX | PY, PY | PZ, PZ => 0
       | _, _ => 1
       end) + anti_count P' Q'
  | _, _ => 0
  end.

(** binary (symplectic) form of a Pauli *)
Definition xbit (p : pauli) : bool := match p with PX | PY => true | _ => false end.
Definition zbit (p : pauli) : bool := match p with PZ | PY => true | _ => false end.
Definition pauli_of (x z : bool) : pauli :=
  match x, z with false, false => PI | true, false => PX | true, true => PY | false, true => PZ end.
Definition symp (P : list pauli) : vec := map xbit P ++ map zbit P.

(** signed Paulis and the group generated by a list: (k, P) is i^k P *)
Definition spauli := (nat * list pauli)%type.
Definition smul (a b : spauli) : spauli :=
  let (k, R) := pmul (snd a) (snd b) in ((fst a + fst b + k) mod 4, R).
Inductive generated (n : nat) (G : list spauli) : spauli -> Prop :=
| gen_one : generated n G (0, repeat PI n)
| gen_mul g h : In g G -> generated n G h -> generated n G (smul g h).

Lemma pmul1_comm_iff a b : (pmul1 a b = pmul1 b a <->
   xorb (xbit a && zbit b) (zbit a && xbit b) = false).
Proof. destruct a, b; simpl; split; auto; discriminate. Qed.

Lemma snd_pmul1_comm a b : snd (pmul1 a b) = snd (pmul1 b a).
Proof. destruct a, b; reflexivity. Qed.

Lemma fst_pmul1_anti a b : fst (pmul1 b a) mod 4 = (fst (pmul1 a b) + (if xorb (xbit a && zbit b) (zbit a && xbit b) then 2 else 0)) mod 4.
Proof. destruct a, b; reflexivity. Qed.

Lemma symp_length P : length (symp P) = 2 * length P.
Proof. unfold symp. rewrite app_length, !map_length. lia. Qed.

(** phases of PQ and QP differ by (-1)^(symplectic product) *)
Definition sympl (P Q : list pauli) : bool := xorb (dot (map xbit P) (map zbit Q)) (dot (map zbit P) (map xbit Q)).

Lemma pmul_swap P Q : length P = length Q ->
  snd (pmul P Q) = snd (pmul Q P) /\ fst (pmul Q P) = (fst (pmul P Q) + (if sympl P Q then 2 else 0)) mod 4.
Proof. revert Q; induction P as [|a P IH]; intros [|b Q]; simpl; try discriminate; [auto|].
  intros H. destruct (IH Q) as [I1 I2]; [lia|].
  destruct (pmul P Q) as [k R] eqn:E1, (pmul Q P) as [k' R'] eqn:E2. simpl in I1, I2.
  destruct (pmul1 a b) as [q r] eqn:E3, (pmul1 b a) as [q' r'] eqn:E4.
  pose proof (snd_pmul1_comm a b) as S1. pose proof (fst_pmul1_anti a b) as S2. rewrite E3, E4 in S1, S2. simpl in *.
  split; [congruence|]. subst k'.
  assert (Es : sympl (a :: P) (b :: Q) = xorb (xorb (xbit a && zbit b) (zbit a && xbit b)) (sympl P Q)).
  { unfold sympl; simpl. destruct (xbit a && zbit b), (zbit a && xbit b), (dot (map xbit P) (map zbit Q)), (dot (map zbit P) (map xbit Q)); reflexivity. }
  rewrite Es.
  assert (M : forall a b c d : nat, b mod 4 = d mod 4 -> (a mod 4 + b) mod 4 = (a + d) mod 4).
  { intros a0 b0 c0 d0 Hbd. rewrite Nat.add_mod_idemp_l by lia. rewrite <- (Nat.add_mod_idemp_r a0 b0) by lia.
    rewrite Hbd. now rewrite Nat.add_mod_idemp_r by lia. }
  rewrite (M _ _ 0 _ S2). rewrite Nat.add_mod_idemp_l by lia.
  destruct (xorb (xbit a && zbit b) (zbit a && xbit b)), (sympl P Q); cbn [xorb];
   [replace (k + 2 + (q + 2)) with (k + q + 0 + 1 * 4) by lia; now rewrite Nat.mod_add by lia | f_equal; lia | f_equal; lia | f_equal; lia]. Qed.

Lemma pcommute_sympl P Q : length P = length Q -> (pcommute P Q <-> sympl P Q = false).
Proof. intros H. destruct (pmul_swap P Q H) as [H1 H2]. unfold pcommute.
  assert (B : fst (pmul P Q) < 4).
  { clear. revert Q; induction P as [|a P IH]; intros [|b Q]; simpl; try lia.
    destruct (pmul P Q), (pmul1 a b). apply Nat.mod_upper_bound; lia. }
  destruct (pmul P Q) as [k R], (pmul Q P) as [k' R']. simpl in *. subst R'. subst k'. destruct (sympl P Q).
  - split; [|discriminate]. intros E. injection E as E. exfalso.
    destruct k as [|[|[|[|k]]]]; simpl in E; try discriminate; lia.
  - split; auto. intros _. rewrite Nat.add_0_r, Nat.mod_small by lia. reflexivity. Qed.

Lemma sympl_anti_count P Q : length P = length Q -> sympl P Q = Nat.odd (anti_count P Q).
Proof. revert Q; induction P as [|a P IH]; intros [|b Q]; simpl; try discriminate; [reflexivity|].
  intros H. rewrite Nat.odd_add, <- IH by lia.
  unfold sympl; simpl. destruct a, b; simpl; destruct (dot (map xbit P) (map zbit Q)), (dot (map zbit P) (map xbit Q)); reflexivity. Qed.
