(** * Property C19: bivariate bicycle codes (codes/bb_codes.py). *)
From Verif Require Import BbProofs2.

(** For every torus and all exponents: both matrices have l*m checks on 2*l*m qubits; check (u,v) of Hx acts on
    the translates of (u,v) by the terms of a (first block) and of b (second block); Hz is [b^T | a^T]; every
    X check overlaps every Z check evenly. *)
Theorem C19_check_matrices : forall l m a b, 0 < l -> 0 < m ->
  exists hx hz, cyclic_code_check_matrix m l a b = Ret (hx, hz) /\
    nd_ok (to_nd hx) /\ nd_ok (to_nd hz) /\
    nd_cols (to_nd hx) = 2 * (l * m) /\ nd_cols (to_nd hz) = 2 * (l * m) /\
    length (nd_rows (to_nd hx)) = l * m /\ length (nd_rows (to_nd hz)) = l * m /\
    (forall i j, i < l * m -> j < l * m ->
       nth j (nth i (nd_rows (to_nd hx)) []) false = cyc_par l m a i j /\
       nth (l * m + j) (nth i (nd_rows (to_nd hx)) []) false = cyc_par l m b i j /\
       nth i (nth j (nd_rows (to_nd hz)) []) false = cyc_par l m b i j /\
       nth (l * m + i) (nth j (nd_rows (to_nd hz)) []) false = cyc_par l m a i j) /\
    (forall r s, In r (nd_rows (to_nd hx)) -> In s (nd_rows (to_nd hz)) -> dot r s = false).
Proof. intros l m a b Hl Hm. destruct (check_matrix_form m l a b Hl Hm) as (hx & hz & E & FX & FZ & O). exists hx, hz. split; auto.
  split; [apply to_nd_ok|]. split; [apply to_nd_ok|]. split; [now rewrite FX|]. split; [now rewrite FZ|].
  split; [rewrite FX; cbn; now rewrite map_length, seq_length|]. split; [rewrite FZ; cbn; now rewrite map_length, seq_length|]. split; [|exact O].
  intros i j Hi Hj. rewrite FX, FZ. unfold bb_hx, bb_hz. cbn [nd_rows]. set (N := l * m) in *.
  assert (G : forall (f : nat -> vec) q, q < N -> nth q (map f (seq 0 N)) [] = f q).
  { intros f q Hq. rewrite (nth_indep _ [] (f 0)) by (rewrite map_length, seq_length; auto). rewrite map_nth, seq_nth; auto. }
  assert (G2 : forall (f : nat -> bool) q, q < N -> nth q (map f (seq 0 N)) false = f q).
  { intros f q Hq. rewrite (nth_indep _ false (f 0)) by (rewrite map_length, seq_length; auto). rewrite map_nth, seq_nth; auto. }
  rewrite !G by auto.
  assert (LN : forall f : nat -> bool, length (map f (seq 0 N)) = N) by (intros; now rewrite map_length, seq_length).
  repeat split.
  - rewrite app_nth1 by (rewrite LN; auto). now apply (G2 (cyc_par l m a i)).
  - rewrite app_nth2 by (rewrite LN; lia). rewrite LN. replace (N + j - N) with j by lia. now apply (G2 (cyc_par l m b i)).
  - rewrite app_nth1 by (rewrite LN; auto). now apply (G2 (fun q => cyc_par l m b q j)).
  - rewrite app_nth2 by (rewrite LN; lia). rewrite LN. replace (N + i - N) with i by lia. now apply (G2 (fun q => cyc_par l m a q j)). Qed.
Print Assumptions C19_check_matrices.

Lemma odd_of_nat x : Z.odd (Z.of_nat x) = Nat.odd x.
Proof. induction x; [reflexivity|]. rewrite Nat2Z.inj_succ, Z.odd_succ, <- Z.negb_odd, IHx, Nat.odd_succ, <- Nat.negb_odd. reflexivity. Qed.

(** every check has at most as many qubits as there are terms, and the same parity: with three terms in each
    polynomial, every X and Z check has even weight at most 6 *)
Theorem C19_check_weights : forall l m a b hx hz i, cyclic_code_check_matrix m l a b = Ret (hx, hz) -> i < l * m ->
  let T := length (fst a) + length (snd a) + (length (fst b) + length (snd b)) in
  let wx := weight (nth i (nd_rows (to_nd hx)) []) in let wz := weight (nth i (nd_rows (to_nd hz)) []) in
  wx <= T /\ Nat.even wx = Nat.even T /\ wz <= T /\ Nat.even wz = Nat.even T.
Proof. intros l m a b hx hz i E Hi. unfold cyclic_code_check_matrix in E.
  destruct (sq_cyc (fst a) (snd a) l m) as [A1 A2]. destruct (sq_cyc (fst b) (snd b) l m) as [B1 B2].
  rewrite !hstackA_ok in E by (cbn; congruence). cbn [pbind] in E. injection E as <- <-.
  assert (EV : forall x y, Z.odd (Z.of_nat x) = Z.odd (Z.of_nat y) -> Nat.even x = Nat.even y).
  { intros x y H. rewrite <- !Nat.negb_odd. f_equal. rewrite !odd_of_nat in H. exact H. }
  destruct (row_weight _ _ _ _ i (eq_trans A1 (eq_sym B1)) (cyc_rsc (fst a) (snd a) l m) (cyc_rsc (fst b) (snd b) l m)) as [W1 W2]; [lia|].
  destruct (row_weight (trA (cyclic_matrix_sum (fst b) (snd b) l m)) (trA (cyclic_matrix_sum (fst a) (snd a) l m)) _ _ i
     (eq_trans B2 (eq_sym A2)) (cyc_rsc_tr (fst b) (snd b) l m) (cyc_rsc_tr (fst a) (snd a) l m)) as [W3 W4]; [cbn; lia|].
  change (hcat (mod2A (trA (cyclic_matrix_sum (fst b) (snd b) l m))) (mod2A (trA (cyclic_matrix_sum (fst a) (snd a) l m)))) with
    (hcat (trA (mod2A (cyclic_matrix_sum (fst b) (snd b) l m))) (trA (mod2A (cyclic_matrix_sum (fst a) (snd a) l m)))) in W3, W4.
  rewrite <- Nat2Z.inj_add in W1, W2, W3, W4. apply Nat2Z.inj_le in W1, W3. apply EV in W2, W4.
  split; [exact W1|]. split; [exact W2|]. rewrite (Nat.add_comm (length (fst b) + length (snd b))) in W3, W4. split; [exact W3 | exact W4]. Qed.
Print Assumptions C19_check_weights.

(** the supported lengths *)
Definition bb_table : list (Z * (nat * Z * Z)) :=   (* n, (n, k, recorded distance) *)
  [(72, (72%nat, 12, 6)); (90, (90%nat, 8, 10)); (108, (108%nat, 8, 10)); (144, (144%nat, 12, 12)); (288, (288%nat, 12, 18))]%Z.

Lemma rank_of h n r : nd_cols h = n -> rk n (nd_rows h) = r -> rk (nd_cols h) (nd_rows h) = r.
Proof. now intros ->. Qed.

Lemma bb_build L m l a b d K : 0 < l -> 0 < m -> (0 < d)%Z ->
  (Z.of_nat (2*(l*m)) - Z.of_nat (rk (2*(l*m)) (nd_rows (bb_hx l m a b))) - Z.of_nat (rk (2*(l*m)) (nd_rows (bb_hz l m a b))) = K)%Z ->
  exists c, pbind (cyclic_code_check_matrix m l a b) (fun xz => CSSCode L d (Some (to_nd (fst xz))) (Some (to_nd (snd xz))) None None) = Ret c /\
   sc_n (css_stab c) = 2*(l*m) /\ sc_k (css_stab c) = K /\ css_distance c = d /\ css_Hx c = bb_hx l m a b /\ css_Hz c = bb_hz l m a b.
Proof. intros Hl Hm Hd HK. destruct (check_matrix_form m l a b Hl Hm) as (hx & hz & E & FX & FZ & O). rewrite E. cbn [pbind fst snd].
  pose proof (to_nd_ok hx) as KX. pose proof (to_nd_ok hz) as KZ. rewrite FX, FZ in *.
  assert (I : css_input d (Some (bb_hx l m a b)) (Some (bb_hz l m a b)) None None).
  { split; [left; discriminate|]. split; [reflexivity|]. split; [exact O|]. split; [left|].
    - cbn. assert (N : l * m <> 0) by nia. destruct (l * m); [lia|]. discriminate.
    - split; auto. split; discriminate. }
  apply (CSSCode_iff L) in I as [c Hc]; auto. exists c. split; auto.
  destruct (CSSCode_inv L _ (Some (bb_hx l m a b)) (Some (bb_hz l m a b)) _ _ c KX KZ Hc) as ((EX & EZ & _ & _ & _ & _ & _ & En & _ & EK) & D1 & _).
  cbn [hx_of hz_of] in *. repeat split; auto. rewrite EK. exact HK. Qed.

Theorem C19_supported_codes : forall L n N k d, In (n, (N, k, d)) bb_table ->
  exists c, construct_bb_code L n = Ret c /\ sc_n (css_stab c) = N /\ Z.of_nat N = n /\ sc_k (css_stab c) = k /\ css_distance c = d /\
    (forall r s, In r (nd_rows (css_Hx c)) -> In s (nd_rows (css_Hz c)) -> dot r s = false).
Proof. intros L n N k d H. 
  assert (G : forall m l a b d0 K, 0 < l -> 0 < m -> (0 < d0)%Z ->
     (Z.of_nat (2*(l*m)) - Z.of_nat (rk (2*(l*m)) (nd_rows (bb_hx l m a b))) - Z.of_nat (rk (2*(l*m)) (nd_rows (bb_hz l m a b))) = K)%Z ->
     exists c, pbind (cyclic_code_check_matrix m l a b) (fun xz => CSSCode L d0 (Some (to_nd (fst xz))) (Some (to_nd (snd xz))) None None) = Ret c /\
     sc_n (css_stab c) = 2*(l*m) /\ Z.of_nat (2*(l*m)) = Z.of_nat (2*(l*m)) /\ sc_k (css_stab c) = K /\ css_distance c = d0 /\
     (forall r s, In r (nd_rows (css_Hx c)) -> In s (nd_rows (css_Hz c)) -> dot r s = false)).
  { intros m l a b d0 K Hl Hm Hd HK. destruct (bb_build L m l a b d0 K Hl Hm Hd HK) as (c & E & A1 & A2 & A3 & A4 & A5). exists c.
    repeat split; auto. rewrite A4, A5. destruct (check_matrix_form m l a b Hl Hm) as (hx & hz & _ & FX & FZ & O). rewrite FX, FZ in O. exact O. }
  unfold bb_table in H. simpl In in H.
  destruct H as [H|[H|[H|[H|[H|[]]]]]]; injection H as <- <- <- <-; unfold construct_bb_code; cbn [Z.eqb Pos.eqb].
  - apply (G 6 6 ([3], [1; 2]) ([1; 2], [3]) 6%Z 12%Z); [lia..|]. vm_compute. reflexivity.
  - apply (G 15 3 ([9], [1; 2]) ([2; 7], [0]) 10%Z 8%Z); [lia..|]. vm_compute. reflexivity.
  - apply (G 9 6 ([3], [1; 2]) ([1; 2], [3]) 10%Z 8%Z); [lia..|]. vm_compute. reflexivity.
  - apply (G 12 6 ([3], [1; 2]) ([1; 2], [3]) 12%Z 12%Z); [lia..|]. vm_compute. reflexivity.
  - apply (G 12 12 ([3], [2; 7]) ([1; 2], [3]) 18%Z 12%Z); [lia..|]. vm_compute. reflexivity. Qed.
Print Assumptions C19_supported_codes.

Theorem C19_other_lengths_rejected : forall L n, ~ In n (map fst bb_table) -> construct_bb_code L n = Raise InvalidCSSCodeError.
Proof. intros L n H. unfold construct_bb_code. simpl in H.
  destruct (Z.eqb_spec n 72) as [E|_]; [exfalso; symmetry in E; tauto|]. destruct (Z.eqb_spec n 90) as [E|_]; [exfalso; symmetry in E; tauto|].
  destruct (Z.eqb_spec n 108) as [E|_]; [exfalso; symmetry in E; tauto|]. destruct (Z.eqb_spec n 144) as [E|_]; [exfalso; symmetry in E; tauto|].
  destruct (Z.eqb_spec n 288) as [E|_]; [exfalso; symmetry in E; tauto|]. reflexivity. Qed.
Print Assumptions C19_other_lengths_rejected.

Example C19_nonvacuous : exists hx hz, cyclic_code_check_matrix 2 3 ([1], [0; 1]) ([1; 2], [1]) = Ret (hx, hz) /\
  nth 0 (nd_rows (to_nd hx)) [] = [true;true;true;false;false;false; false;true;true;false;true;false].
Proof. destruct (check_matrix_form 2 3 ([1], [0; 1]) ([1; 2], [1])) as (hx & hz & E & FX & _); [lia..|]. exists hx, hz. split; auto. rewrite FX. reflexivity. Qed.
