(** * C65 (continued): how many logical operators the product codes on disk have (Kunneth formula) *)
From Coq Require Import List Arith Bool ZArith Lia String.
From Verif Require Import ProductProofs PropProduct CssProofs PropCss BbProofs CreateModel PropCreate KunA Kun.
Import ListNotations.
Local Open Scope nat_scope.

Lemma bits_ext A B : a_rows A = a_rows B -> a_cols A = a_cols B -> (forall i j, i < a_rows A -> j < a_cols A -> Z.odd (a_at A i j) = Z.odd (a_at B i j)) -> bitsA A = bitsA B.
Proof. intros R C H. unfold bitsA, to_nd. cbn [nd_rows]. rewrite <- R. apply map_ext_in. intros i Hi. apply in_seq in Hi. rewrite <- C. apply map_ext_in. intros j Hj. apply in_seq in Hj. apply H; lia. Qed.
Lemma rk_first hi p : rkA (firstM hi p) + (a_cols hi * rkA p + (a_cols hi - rkA hi) * (a_rows p - rkA p) + a_rows hi * (a_cols p - rkA p)) = a_cols (firstM hi p).
Proof. pose (lo := zerosA 0 (a_rows hi)). assert (Z0 : zero2 (mmul lo hi)) by (intros i j Hi; change (i < 0) in Hi; lia).
  pose proof (@rank_mid lo hi p eq_refl Z0) as M. assert (R0 : rkA lo = 0) by (pose proof (rank_le lo) as [H _]; change (a_rows lo) with 0 in H; lia). rewrite R0, Nat.sub_0_r in M.
  assert (E : rkA (midM lo hi p) = rkA (firstM hi p)); [|rewrite <- E; exact M]. unfold rkA. f_equal. apply bits_ext; [cbn; lia | reflexivity|]. intros i j Hi Hj.
  change (i < a_rows hi * a_rows p + 0 * a_cols p) in Hi. change (a_at (midM lo hi p) i j) with (if i <? a_rows hi * a_rows p then a_at (firstM hi p) i j else a_at (lowZ lo hi p) (i - a_rows hi * a_rows p) j).
  replace (i <? a_rows hi * a_rows p) with true by (symmetry; apply Nat.ltb_lt; lia). reflexivity. Qed.
Lemma rk_last a p : rkA (lastM a p) + (a_cols a - rkA a) * (a_cols p - rkA p) = a_cols (lastM a p).
Proof. pose (hi := zerosA (a_cols a) 0). assert (Z0 : zero2 (mmul a hi)) by (intros i j Hi Hj; cbn in Hj; lia).
  pose proof (@rank_mid a hi p eq_refl Z0) as M. assert (R0 : rkA hi = 0) by (pose proof (rank_le hi) as [_ H]; change (a_cols hi) with 0 in H; lia). rewrite R0 in M. change (a_cols hi) with 0 in M. change (a_rows hi) with (a_cols a) in M. cbn [Nat.mul Nat.sub Nat.add] in M.
  assert (C : a_cols (midM a hi p) = a_cols (lastM a p)) by reflexivity. 
  assert (E : rkA (midM a hi p) = rkA (lastM a p)); [|rewrite <- E, <- C; exact M]. unfold rkA. rewrite C. f_equal. apply bits_ext; [reflexivity | reflexivity|]. intros i j Hi Hj. f_equal.
  unfold midM, firstM, lowZ, lastM. cbn [vcat hcat kron eye zerosA a_rows a_cols a_at hi]. cbn [Nat.mul Nat.ltb Nat.leb]. rewrite !Nat.sub_0_r. reflexivity. Qed.

(** ** the dimensions of the homology of the product of a complex C2 -> C1 -> C0 (maps a2, a1) with a seed p *)
Lemma first_homology a1 p h0 t : a_rows a1 = h0 + rkA a1 -> a_rows p = t + rkA p -> a_rows (firstM a1 p) = h0 * t + rkA (firstM a1 p).
Proof. intros H T. pose proof (rk_first a1 p) as F. pose proof (rank_le a1) as [A1 A2]. pose proof (rank_le p) as [B1 B2]. change (a_rows (firstM a1 p)) with (a_rows a1 * a_rows p).
  change (a_cols (firstM a1 p)) with (a_cols a1 * a_rows p + a_rows a1 * a_cols p) in F. rewrite H, T in *.
  replace (t + rkA p - rkA p) with t in F by lia. remember (a_cols a1 - rkA a1) as x. assert (a_cols a1 = x + rkA a1) as E1 by lia. remember (a_cols p - rkA p) as y. assert (a_cols p = y + rkA p) as E2 by lia. rewrite E1, E2 in F. nia. Qed.
Lemma mid_homology a1 a2 p h0 h1 t k : a_cols a1 = a_rows a2 -> zero2 (mmul a1 a2) ->
  a_rows a1 = h0 + rkA a1 -> a_cols a1 = h1 + rkA a1 + rkA a2 -> a_rows p = t + rkA p -> a_cols p = k + rkA p ->
  a_cols (firstM a1 p) = h1 * t + h0 * k + rkA (firstM a1 p) + rkA (midM a1 a2 p).
Proof. intros E Z H0 H1 T K. pose proof (rk_first a1 p) as F. pose proof (@rank_mid a1 a2 p E Z) as M. pose proof (rank_le a2) as [_ B2].
  change (a_cols (firstM a1 p)) with (a_cols a1 * a_rows p + a_rows a1 * a_cols p) in *. change (a_cols (midM a1 a2 p)) with (a_cols a2 * a_rows p + a_rows a2 * a_cols p) in M. rewrite <- E in M.
  replace (a_rows p - rkA p) with t in * by lia. replace (a_cols p - rkA p) with k in * by lia.
  replace (a_cols a1 - rkA a1) with (h1 + rkA a2) in * by lia. remember (a_cols a2 - rkA a2) as x. assert (a_cols a2 = x + rkA a2) as E2 by lia. rewrite T, K, H0, H1, E2 in *. nia. Qed.
Lemma midmid_homology a1 a2 a3 p h1 h2 t k : a_cols a1 = a_rows a2 -> zero2 (mmul a1 a2) -> a_cols a2 = a_rows a3 -> zero2 (mmul a2 a3) ->
  a_cols a1 = h1 + rkA a1 + rkA a2 -> a_cols a2 = h2 + rkA a2 + rkA a3 -> a_rows p = t + rkA p -> a_cols p = k + rkA p ->
  a_cols (midM a1 a2 p) = h2 * t + h1 * k + rkA (midM a1 a2 p) + rkA (midM a2 a3 p).
Proof. intros E Z E' Z' H1 H2 T K. pose proof (@rank_mid a1 a2 p E Z) as M. pose proof (@rank_mid a2 a3 p E' Z') as M'. pose proof (rank_le a3) as [_ B3].
  change (a_cols (midM a1 a2 p)) with (a_cols a2 * a_rows p + a_rows a2 * a_cols p) in *. change (a_cols (midM a2 a3 p)) with (a_cols a3 * a_rows p + a_rows a3 * a_cols p) in M'. rewrite <- E' in M'. rewrite <- E in *.
  replace (a_rows p - rkA p) with t in * by lia. replace (a_cols p - rkA p) with k in * by lia. replace (a_cols a2 - rkA a2) with (h2 + rkA a3) in * by lia. replace (a_cols a1 - rkA a1) with (h1 + rkA a2) in * by lia.
  remember (a_cols a3 - rkA a3) as x. assert (a_cols a3 = x + rkA a3) as E3 by lia. rewrite T, K, H1, H2, E3 in *. nia. Qed.
Lemma midlast_homology a1 a2 p h1 h2 t k : a_cols a1 = a_rows a2 -> zero2 (mmul a1 a2) ->
  a_cols a1 = h1 + rkA a1 + rkA a2 -> a_cols a2 = h2 + rkA a2 -> a_rows p = t + rkA p -> a_cols p = k + rkA p ->
  a_cols (midM a1 a2 p) = h2 * t + h1 * k + rkA (midM a1 a2 p) + rkA (lastM a2 p).
Proof. intros E Z H1 H2 T K. pose proof (@rank_mid a1 a2 p E Z) as M. pose proof (rk_last a2 p) as L.
  change (a_cols (midM a1 a2 p)) with (a_cols a2 * a_rows p + a_rows a2 * a_cols p) in *. change (a_cols (lastM a2 p)) with (a_cols a2 * a_cols p) in L. rewrite <- E in *.
  replace (a_rows p - rkA p) with t in * by lia. replace (a_cols p - rkA p) with k in * by lia. replace (a_cols a2 - rkA a2) with h2 in * by lia. replace (a_cols a1 - rkA a1) with (h1 + rkA a2) in * by lia.
  rewrite T, K, H1, H2 in *. nia. Qed.
Lemma firstlast_homology a p h0 h1 t k : a_rows a = h0 + rkA a -> a_cols a = h1 + rkA a -> a_rows p = t + rkA p -> a_cols p = k + rkA p ->
  a_cols (firstM a p) = h1 * t + h0 * k + rkA (firstM a p) + rkA (lastM a p).
Proof. intros H0 H1 T K. pose proof (rk_first a p) as F. pose proof (rk_last a p) as L.
  change (a_cols (firstM a p)) with (a_cols a * a_rows p + a_rows a * a_cols p) in *. change (a_cols (lastM a p)) with (a_cols a * a_cols p) in L.
  replace (a_rows p - rkA p) with t in * by lia. replace (a_cols p - rkA p) with k in * by lia. replace (a_cols a - rkA a) with h1 in * by lia. rewrite T, K, H0, H1 in *. nia. Qed.
Lemma last_homology a p h k : a_cols a = h + rkA a -> a_cols p = k + rkA p -> a_cols (lastM a p) = h * k + rkA (lastM a p).
Proof. intros H K. pose proof (rk_last a p) as L. replace (a_cols a - rkA a) with h in L by lia. replace (a_cols p - rkA p) with k in L by lia. lia. Qed.

(** ** the theorem: kernel and cokernel dimensions of a seed, and the number of logical operators *)
Definition seed_dims (s : arr) (k t : nat) : Prop := exists r, has_rank (a_cols s) (bits s) r /\ a_cols s = k + r /\ a_rows s = t + r.
Lemma seed_dims_rk s k t : seed_dims s k t -> a_cols s = k + rkA s /\ a_rows s = t + rkA s.
Proof. intros (r & R & C & T). apply rk_unique in R; [|apply bits_wf]. unfold rkA. change (bitsA s) with (bits s). rewrite <- R. auto. Qed.
Lemma logicals_count hx hz lg K : a_cols hx = a_cols hz -> a_cols hx = K + rkA hx + rkA hz -> logicals (a_cols hx) (bits hx) (bits hz) lg -> List.length lg = K.
Proof. intros C E (_ & _ & _ & r1 & r2 & R1 & R2 & H). apply rk_unique in R1; [|apply bits_wf]. apply rk_unique in R2; [|rewrite C; apply bits_wf].
  unfold rkA in E. change (bitsA hx) with (bits hx) in E. change (bitsA hz) with (bits hz) in E. rewrite <- C, <- R1, <- R2 in E. lia. Qed.
(** with sparse arguments, _store_code_params stores the number of qubits and of independent logical operators *)
Theorem C65_store_code_params : forall hx hz lg, compose_zero hx (trA hz) -> logicals (a_cols hx) (bits hx) (bits hz) lg ->
  store_code_params hx hz = (a_cols hx, Z.of_nat (List.length lg)).
Proof. intros hx hz lg [C _] (_ & _ & _ & r1 & r2 & R1 & R2 & E). unfold store_code_params. f_equal.
  change (a_cols hx = a_cols hz) in C. apply rk_unique in R1; [|apply bits_wf]. apply rk_unique in R2; [|rewrite C; apply bits_wf].
  rewrite <- C. change (nd_rows (to_nd hx)) with (bits hx). change (nd_rows (to_nd hz)) with (bits hz). rewrite <- R1, <- R2. lia. Qed.

Theorem C65_number_of_logicals : forall L s0 s1 s2 s3 k0 t0 k1 t1 k2 t2 k3 t3 checks, ldpc_ok L ->
  seed_dims s0 k0 t0 -> seed_dims s1 k1 t1 -> seed_dims s2 k2 t2 -> seed_dims s3 k3 t3 ->
  exists f lx lz, create_code L hypergraph_product "hgp" [s0; s1; s2; s3] true checks = mkCreated (Some f) None (Ret tt) /\ s_lx f = Some lx /\ s_lz f = Some lz /\
    logicals (a_cols (s_hx f)) (bits (s_hz f)) (bits (s_hx f)) lx /\ logicals (a_cols (s_hx f)) (bits (s_hx f)) (bits (s_hz f)) lz /\
    List.length lx = (k0 * t1 * t2 + (k0 * k1 + t0 * t1) * k2) * t3 + ((k0 * k1 + t0 * t1) * t2 + t0 * k1 * k2) * k3 /\ List.length lz = List.length lx.
Proof. intros L s0 s1 s2 s3 k0 t0 k1 t1 k2 t2 k3 t3 checks OL D0 D1 D2 D3.
  apply seed_dims_rk in D0 as [K0 T0], D1 as [K1 T1], D2 as [K2 T2], D3 as [K3 T3].
  destruct (C65_hypergraph_product L s0 s1 s2 s3 checks OL) as (f & lx & lz & E & C & E1 & E2 & LX & LZ). exists f, lx, lz. repeat (split; [assumption|]).
  pose (a1 := firstM s0 (trA s1)). pose (a2 := lastM s0 (trA s1)).
  assert (CZ : compose_zero a1 a2) by exact (hypergraph_product_commutes s0 s1). destruct CZ as [S0 Z0]. change (zero2 (mmul a1 a2)) in Z0.
  pose (d1 := firstM a1 s2). pose (d2 := midM a1 a2 s2). pose (d3 := lastM a2 s2).
  destruct (shapes_3d a1 a2 s2 S0) as [S1 S2]. fold d1 d2 d3 in S1, S2. pose proof (first_mid a1 a2 s2 S0 Z0) as Z1. pose proof (mid_last a1 a2 s2 S0 Z0) as Z2. fold d1 d2 d3 in Z1, Z2.
  assert (Ef : s_hx f = midM d1 d2 s3 /\ s_hz f = trA (midM d2 d3 s3)).
  { unfold create_code in E. cbn [String.eqb Ascii.eqb Bool.eqb seed nth_error pbind] in E. unfold hypergraph_product in E. cbv iota beta in E.
    change (hcat (kron s0 (eye (a_cols s1))) (kron (eye (a_rows s0)) (trA s1))) with a1 in E.
    change (vcat (kron (eye (a_cols s0)) (trA s1)) (kron s0 (eye (a_rows s1)))) with a2 in E. 
    destruct (generate_3d_product_code a1 (trA (trA a2)) s2) as [x|e]; [|discriminate]. cbn [pbind] in E.
    assert (G3 : generate_3d_product_code a1 (trA (trA a2)) s2 = Ret (d1, d2, d3)).
    { change (trA (trA a2)) with a2. unfold generate_3d_product_code. rewrite first_ok, mid_ok, last_ok by auto. cbn [pbind]. fold d1 d2 d3. rewrite !matmul_ok by auto. cbn [pbind].
      rewrite (proj2 (even_everywhere_iff _) Z1), (proj2 (even_everywhere_iff _) Z2). reflexivity. }
    unfold create_code_arrays in E. rewrite G3 in E. cbn [pbind] in E. unfold generate_4d_product_code in E. rewrite first_ok, !mid_ok, last_ok in E by auto. cbn [pbind] in E.
    match type of E with context [if checks then ?X else ?Y] => destruct (if checks then X else Y) as [[[[q1 q2] q3] q4]|] eqn:G4; [|discriminate] end.
    assert (Q : q2 = midM d1 d2 s3 /\ q3 = midM d2 d3 s3).
    { destruct checks; [destruct (run_checks_scipy _ _ _ _); [|discriminate]; cbn [pbind] in G4|]; injection G4 as <- <- <- <-; auto. }
    destruct Q as [-> ->]. cbn [pbind] in E. destruct (matmul _ q4); [|discriminate]. cbn [pbind] in E. destruct (matmul _ (midM d2 d3 s3)); [|discriminate]. cbn [pbind] in E. destruct (matmul q1 _); [|discriminate]. cbn [pbind] in E.
    match type of E with context [if ?X then _ else _] => destruct X; [discriminate|] end. cbn [compute_logicals_] in E. injection E as <-. split; reflexivity. }
  destruct Ef as [Ex Ez].
  assert (P1 : a_rows (trA s1) = k1 + rkA (trA s1)) by (rewrite rank_trA; exact K1). assert (P2 : a_cols (trA s1) = t1 + rkA (trA s1)) by (rewrite rank_trA; exact T1).
  pose proof (first_homology s0 (trA s1) _ _ T0 P1) as H0. pose proof (firstlast_homology s0 (trA s1) _ _ _ _ T0 K0 P1 P2) as H1. pose proof (last_homology s0 (trA s1) _ _ K0 P2) as H2. fold a1 a2 in H0, H1, H2.
  pose proof (mid_homology a1 a2 s2 _ _ _ _ S0 Z0 H0 H1 T2 K2) as I1. pose proof (midlast_homology a1 a2 s2 _ _ _ _ S0 Z0 H1 H2 T2 K2) as I2. fold d1 d2 d3 in I1, I2.
  pose proof (midmid_homology d1 d2 d3 s3 _ _ _ _ S1 Z1 S2 Z2 I1 I2 T3 K3) as J.
  assert (KX : a_cols (s_hx f) = ((k0 * t1 * t2 + (k0 * k1 + t0 * t1) * k2) * t3 + ((k0 * k1 + t0 * t1) * t2 + t0 * k1 * k2) * k3) + rkA (s_hx f) + rkA (s_hz f)).
  { rewrite Ez, rank_trA, Ex. lia. }
  assert (CC : a_cols (s_hx f) = a_cols (s_hz f)) by (destruct C as [S _]; exact S).
  assert (NZ : List.length lz = (k0 * t1 * t2 + (k0 * k1 + t0 * t1) * k2) * t3 + ((k0 * k1 + t0 * t1) * t2 + t0 * k1 * k2) * k3) by exact (logicals_count _ _ _ _ CC KX LZ).
  assert (NX : List.length lx = (k0 * t1 * t2 + (k0 * k1 + t0 * t1) * k2) * t3 + ((k0 * k1 + t0 * t1) * t2 + t0 * k1 * k2) * k3).
  { rewrite CC in LX. apply (logicals_count (s_hz f) (s_hx f)); [now symmetry | lia | exact LX]. }
  split; congruence. Qed.
Print Assumptions C65_number_of_logicals.
(** 3D: the number of logical operators of the code the sparse version saves *)
Theorem C65_number_of_logicals_3d : forall L s0 s1 s2 k0 t0 k1 t1 k2 t2, ldpc_ok L -> seed_dims s0 k0 t0 -> seed_dims s1 k1 t1 -> seed_dims s2 k2 t2 ->
  exists f lx lz, files (create_code_3d L hypergraph_product "hgp" [s0; s1; s2] true) = Some f /\ s_lx f = Some lx /\ s_lz f = Some lz /\
    List.length lx = (k0 * k1 + t0 * t1) * t2 + t0 * k1 * k2 /\ List.length lz = List.length lx.
Proof. intros L s0 s1 s2 k0 t0 k1 t1 k2 t2 OL D0 D1 D2. apply seed_dims_rk in D0 as [K0 T0], D1 as [K1 T1], D2 as [K2 T2].
  destruct (C65_create_code_3d_refuted L hypergraph_product s0 s1 s2 [] true _ _ OL eq_refl (hypergraph_product_commutes s0 s1)) as (fs & E & f & lx & lz & -> & C & _ & E1 & E2 & LX & LZ).
  exists f, lx, lz. split; [now rewrite E|]. split; [exact E1|]. split; [exact E2|].
  pose (a1 := firstM s0 (trA s1)). pose (a2 := lastM s0 (trA s1)).
  assert (CZ : compose_zero a1 a2) by exact (hypergraph_product_commutes s0 s1). destruct CZ as [S0 Z0]. change (zero2 (mmul a1 a2)) in Z0.
  pose (d1 := firstM a1 s2). pose (d2 := midM a1 a2 s2). pose (d3 := lastM a2 s2).
  destruct (shapes_3d a1 a2 s2 S0) as [S1 S2]. fold d1 d2 d3 in S1, S2. pose proof (first_mid a1 a2 s2 S0 Z0) as Z1. pose proof (mid_last a1 a2 s2 S0 Z0) as Z2. fold d1 d2 d3 in Z1, Z2.
  assert (Ef : s_hx f = d1 /\ s_hz f = trA d2).
  { unfold create_code_3d in E. cbn [String.eqb Ascii.eqb Bool.eqb seed nth_error pbind] in E. unfold hypergraph_product in E. cbv iota beta in E.
    change (hcat (kron s0 (eye (a_cols s1))) (kron (eye (a_rows s0)) (trA s1))) with a1 in E.
    change (vcat (kron (eye (a_cols s0)) (trA s1)) (kron s0 (eye (a_rows s1)))) with a2 in E.
    assert (G3 : generate_3d_product_code a1 (trA (trA a2)) s2 = Ret (d1, d2, d3)).
    { change (trA (trA a2)) with a2. unfold generate_3d_product_code. rewrite first_ok, mid_ok, last_ok by auto. cbn [pbind]. fold d1 d2 d3. rewrite !matmul_ok by auto. cbn [pbind].
      rewrite (proj2 (even_everywhere_iff _) Z1), (proj2 (even_everywhere_iff _) Z2). reflexivity. }
    unfold create_code_arrays_3d in E. rewrite G3 in E. cbn [pbind] in E. injection E as <-. split; reflexivity. }
  destruct Ef as [Ex Ez].
  assert (P1 : a_rows (trA s1) = k1 + rkA (trA s1)) by (rewrite rank_trA; exact K1). assert (P2 : a_cols (trA s1) = t1 + rkA (trA s1)) by (rewrite rank_trA; exact T1).
  pose proof (first_homology s0 (trA s1) _ _ T0 P1) as H0. pose proof (firstlast_homology s0 (trA s1) _ _ _ _ T0 K0 P1 P2) as H1. fold a1 a2 in H0, H1.
  pose proof (mid_homology a1 a2 s2 _ _ _ _ S0 Z0 H0 H1 T2 K2) as I1. fold d1 d2 in I1.
  assert (KX : a_cols (s_hx f) = ((k0 * k1 + t0 * t1) * t2 + t0 * k1 * k2) + rkA (s_hx f) + rkA (s_hz f)) by (rewrite Ez, rank_trA, Ex; lia).
  assert (CC : a_cols (s_hx f) = a_cols (s_hz f)) by (destruct C as [S _]; exact S).
  assert (NZ : List.length lz = (k0 * k1 + t0 * t1) * t2 + t0 * k1 * k2) by exact (logicals_count _ _ _ _ CC KX LZ).
  assert (NX : List.length lx = (k0 * k1 + t0 * t1) * t2 + t0 * k1 * k2).
  { rewrite CC in LX. apply (logicals_count (s_hz f) (s_hx f)); [now symmetry | lia | exact LX]. }
  split; congruence. Qed.
Print Assumptions C65_number_of_logicals_3d.

(** the check matrix of the ring (repetition) code of length n, rows e_i + e_(i+1 mod n) *)
Definition ring (n : nat) : arr := mkArr n n (fun i j => ((if (i =? j)%nat then 1 else 0) + (if ((i + 1) mod n =? j)%nat then 1 else 0))%Z).
Lemma ring_kernel n v : 0 < n -> in_kernel n (bits (ring n)) v <-> v = vzero n \/ v = repeat true n.
Proof. intros N.
  assert (R : forall f i, i < n -> Z.odd (sumZ n (fun k => a_at (ring n) i k * f k)%Z) = xorb (Z.odd (f i)) (Z.odd (f ((i + 1) mod n)))).
  { intros f i Hi. cbn [ring a_at]. rewrite (sumZ_ext n _ (fun k => (if (i =? k)%nat then 1 else 0) * f k + (if ((i + 1) mod n =? k)%nat then 1 else 0) * f k)%Z) by (intros; lia).
    rewrite sumZ_add, !sumZ_delta by (auto; apply Nat.mod_upper_bound; lia). apply Z.odd_add. }
  split.
  - intros K. assert (Lv : List.length v = n) by exact (proj1 K). pose proof (vecZ_nth v) as Ev. rewrite Lv in Ev. rewrite Ev in K. pose proof (proj1 (kernel_vecZ (ring n) _) K) as K2; clear K; rename K2 into K.
    assert (St : forall i, i + 1 < n -> nth i v false = nth (i + 1) v false).
    { intros i Hi. specialize (K i ltac:(change (i < n); lia)). change (a_cols (ring n)) with n in K. rewrite (R (fun j => Z.b2z (nth j v false))) in K by lia. rewrite (Nat.mod_small (i + 1)) in K by lia. destruct (nth i v false), (nth (i + 1) v false); auto; discriminate. }
    assert (A : forall i, i < n -> nth i v false = nth 0 v false).
    { induction i as [|i IH]; auto. intros Hi. rewrite <- IH by lia. symmetry. replace (S i) with (i + 1) by lia. apply St. lia. }
    assert (V : v = repeat (nth 0 v false) n).
    { apply (nth_ext _ _ false (nth 0 v false)); [now rewrite repeat_length|]. intros i Hi. rewrite nth_repeat. apply A. lia. }
    destruct (nth 0 v false); [right|left]; exact V.
  - intros H. assert (V : exists b, v = vecZ n (fun _ => Z.b2z b)).
    { destruct H as [->| ->]; [exists false|exists true]; unfold vzero, vecZ; clear; generalize 0; induction n; intros s; cbn; f_equal; auto. }
    destruct V as [b ->]. apply (proj2 (kernel_vecZ (ring n) _)). intros i Hi. change (i < n) in Hi. change (a_cols (ring n)) with n. rewrite (R (fun _ => Z.b2z b)) by auto. now destruct b. Qed.
Lemma ring_dims n : 0 < n -> seed_dims (ring n) 1 1.
Proof. intros N. exists (rk n (bits (ring n))). assert (W : wf n (bits (ring n))) by exact (bits_wf (ring n)). split; [now apply rk_correct|].
  pose proof (rank_nullity n (bits (ring n)) W) as RN. pose proof (kernel_wf n _ W) as WK. pose proof (kernel_indep n _ W) as IK.
  assert (L1 : List.length (kernel n (bits (ring n))) = 1); [|cbn [ring a_rows a_cols]; split; lia].
  assert (WO : wf n [repeat true n]) by (constructor; [apply repeat_length | constructor]).
  apply (has_rank_unique n (kernel n (bits (ring n)))); [exact WK| |].
  - exists (kernel n (bits (ring n))). split; auto. split; [exact WK|]. split; [exact IK|]. intros; reflexivity.
  - exists [repeat true n]. split; [|reflexivity]. split; [exact WO|]. split.
    + intros [|b [|]] Lc E; try discriminate. cbn [List.length vzero repeat]. f_equal. destruct b; auto. exfalso. cbn [lincomb] in E. unfold vzero in E. destruct n; [lia|]. cbn in E. discriminate.
    + intros v. rewrite (kernel_span n _ v W), (ring_kernel n v N). split.
      * intros ([|b [|]] & Lc & <-); try discriminate. destruct b; [right|left]; cbn [lincomb]; unfold vzero; clear; induction n; cbn; f_equal; auto.
      * intros [->| ->]; [exists [false]|exists [true]]; (split; [reflexivity|]); unfold vzero; clear; induction n; cbn; f_equal; auto. Qed.
(** the four-dimensional toric code of rings of any lengths has six logical qubits, the three-dimensional one has three *)
Theorem C65_toric : forall L n0 n1 n2 n3 checks, ldpc_ok L -> 0 < n0 -> 0 < n1 -> 0 < n2 -> 0 < n3 ->
  (exists f lx lz, create_code L hypergraph_product "hgp" [ring n0; ring n1; ring n2; ring n3] true checks = mkCreated (Some f) None (Ret tt) /\
     s_lx f = Some lx /\ s_lz f = Some lz /\ List.length lx = 6 /\ List.length lz = 6) /\
  (exists f lx lz, files (create_code_3d L hypergraph_product "hgp" [ring n0; ring n1; ring n2] true) = Some f /\ s_lx f = Some lx /\ s_lz f = Some lz /\ List.length lx = 3 /\ List.length lz = 3).
Proof. intros L n0 n1 n2 n3 checks OL N0 N1 N2 N3. split.
  - destruct (C65_number_of_logicals L _ _ _ _ _ _ _ _ _ _ _ _ checks OL (ring_dims n0 N0) (ring_dims n1 N1) (ring_dims n2 N2) (ring_dims n3 N3)) as (f & lx & lz & E & E1 & E2 & _ & _ & A & B).
    exists f, lx, lz. cbn [Nat.mul Nat.add] in A. rewrite B, A. auto.
  - destruct (C65_number_of_logicals_3d L _ _ _ _ _ _ _ _ _ OL (ring_dims n0 N0) (ring_dims n1 N1) (ring_dims n2 N2)) as (f & lx & lz & E & E1 & E2 & A & B).
    exists f, lx, lz. cbn [Nat.mul Nat.add] in A. rewrite B, A. auto. Qed.
Print Assumptions C65_toric.
