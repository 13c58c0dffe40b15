(** * VerifyProofs2: data and ancillas; the whole circuit *)
From Verif Require Export VerifyProofs.
From Coq Require Import Permutation.
Local Open Scope nat_scope.

(** the state d of the first n qubits, all further qubits in |0> *)
Definition ext (n : nat) (d : state) : state := fun x => if forallb negb (skipn n x) then d (firstn n x) else 0%Z.
Lemma ext_app n d u w : length u = n -> ext n d (u ++ w) = if forallb negb w then d u else 0%Z.
Proof. intros L. unfold ext. rewrite skipn_app, firstn_app, L, Nat.sub_diag, skipn_all2, firstn_all2 by lia. cbn. now rewrite app_nil_r. Qed.
Lemma split_at n N (x : vec) : n <= N -> length x = N -> exists u w, x = u ++ w /\ length u = n /\ length w = N - n.
Proof. intros H L. exists (firstn n x), (skipn n x). rewrite firstn_skipn, firstn_length, skipn_length. split; auto. split; lia. Qed.
Lemma ext_clean N n d q : n <= q < N -> clean N [q] (ext n d).
Proof. intros Hq x Lx (q' & [<-|[]] & H). destruct (split_at n N x ltac:(lia) Lx) as (u & w & -> & Lu & Lw). rewrite ext_app by auto. rewrite app_nth2 in H by lia.
  destruct (forallb negb w) eqn:F; auto. rewrite forallb_forall in F. specialize (F true). cbn in F. discriminate F. rewrite <- H. apply nth_In. lia. Qed.
Lemma supp_support N n v : n <= N -> length v = n -> supp_vec N (support v) = v ++ vzero (N - n).
Proof. intros H L. apply (vec_ext N); [apply supp_length|rewrite app_length, vzero_length; lia|]. intros j Hj. rewrite nth_supp by auto. destruct (memb j (support v)) eqn:M.
  - apply memb_in in M. pose proof (support_lt n v j L M). rewrite app_nth1 by lia. apply support_in in M. auto.
  - apply memb_out in M. destruct (Nat.lt_ge_cases j n) as [K|K]; [rewrite app_nth1 by lia|rewrite app_nth2 by lia; symmetry; apply nth_vzero]. destruct (nth j v false) eqn:E; auto. exfalso. apply M. now apply support_in. Qed.
Lemma vxor_zero_r' k (w : vec) : length w = k -> vxor w (vzero k) = w.
Proof. intros. now apply vxor_zero_r. Qed.
Lemma ext_eigen N n (z : bool) v (s : bool) (d : state) : n <= N -> length v = n -> (forall y, length y = n -> (if z then op_Z v d else op_X v d) y = ((if s then -1 else 1) * d y)%Z) -> eigen N z (support v) s (ext n d).
Proof. intros H L E x Lx. destruct (split_at n N x H Lx) as (u & w & -> & Lu & Lw). rewrite (supp_support N n v H L). specialize (E u Lu). rewrite ext_app by auto. destruct z; unfold op_Z, op_X in *.
  - rewrite dot_app by (unfold vec in *; lia). rewrite dot_zero_l, xorb_false_r, ext_app by auto. destruct (forallb negb w); [exact E|destruct (dot v u), s; ring].
  - rewrite vxor_app by (unfold vec in *; lia). rewrite (vxor_zero_r' (N - n)) by auto. rewrite ext_app by (rewrite vxor_length; unfold vec in *; lia). destruct (forallb negb w); [exact E|destruct s; ring]. Qed.
Lemma set_app1 {A} q (b : A) u w : q < length u -> set_nth q b (u ++ w) = set_nth q b u ++ w.
Proof. revert q. induction u as [|a u IH]; intros [|q] H; cbn [length] in H; try lia; cbn; auto. now rewrite IH by lia. Qed.
Lemma ext_gate N n g d : n <= N -> gate_ok n g -> state_eq N (apply_gate (ext n d) g) (ext n (apply_gate d g)).
Proof. intros H G x Lx. destruct (split_at n N x H Lx) as (u & w & -> & Lu & Lw). rewrite (ext_app n (apply_gate d g)) by auto. destruct g as [q|a t]; cbn [gate_ok] in G; unfold apply_gate.
  - rewrite !set_app1 by (unfold vec in *; lia). rewrite !ext_app by (now rewrite set_nth_length). rewrite app_nth1 by (unfold vec in *; lia). destruct (forallb negb w); auto. destruct (nth q u false); ring.
  - unfold cxv. destruct G as (G1 & G2 & _). rewrite set_app1 by (unfold vec in *; lia). rewrite !app_nth1 by (unfold vec in *; lia). rewrite ext_app by (now rewrite set_nth_length). reflexivity. Qed.
Lemma gates_ext N circ : forall a b, state_eq N a b -> state_eq N (fold_left apply_gate circ a) (fold_left apply_gate circ b).
Proof. induction circ as [|g circ IH]; intros a b H; cbn [fold_left]; auto. apply IH. intros x Hx. destruct g; cbn [apply_gate].
  - rewrite !H by (now rewrite set_nth_length). reflexivity.
  - apply H. now rewrite cxv_length. Qed.
Lemma ext_run N n circ : n <= N -> Forall (gate_ok n) circ -> forall d, state_eq N (fold_left apply_gate circ (ext n d)) (ext n (fold_left apply_gate circ d)).
Proof. intros H. induction 1 as [|g circ G GS IH]; intros d x Lx; cbn [fold_left]; auto. rewrite <- IH by auto. apply (gates_ext N); auto. now apply ext_gate. Qed.
Lemma ext_zero N n : n <= N -> state_eq N (zero_ket N) (ext n (zero_ket n)).
Proof. intros H x Lx. destruct (split_at n N x H Lx) as (u & w & -> & Lu & Lw). rewrite ext_app by auto. unfold zero_ket. assert (EZ : vzero N = vzero n ++ vzero (N - n)) by (unfold vzero; rewrite <- repeat_app; f_equal; lia).
  assert (W : forallb negb w = true <-> w = vzero (N - n)).
  { rewrite <- Lw. clear. induction w as [|b w IH]; [now cbn|]. cbn [forallb length]. unfold vzero in *. cbn [repeat]. rewrite andb_true_iff. destruct b; cbn [negb]; split; try (intros [? ?]; discriminate); try discriminate; intros K.
    - f_equal. now apply IH. - injection K as K. split; auto. now apply IH. }
  destruct (forallb negb w) eqn:F.
  - rewrite (proj1 W eq_refl). rewrite EZ. destruct (veqb u (vzero n)) eqn:V.
    + apply veqb_eq in V. rewrite V. now rewrite (proj2 (veqb_eq _ _) eq_refl).
    + destruct (veqb (u ++ _) _) eqn:V2; auto. apply veqb_eq in V2. apply (f_equal (firstn n)) in V2. rewrite !firstn_app, Lu, vzero_length, Nat.sub_diag, !firstn_O, !app_nil_r, !firstn_all2 in V2 by (rewrite ?vzero_length; unfold vec in *; lia). rewrite V2 in V. rewrite (proj2 (veqb_eq _ _) eq_refl) in V. discriminate.
  - destruct (veqb (u ++ w) (vzero N)) eqn:V; auto. apply veqb_eq in V. rewrite EZ in V. apply (f_equal (skipn n)) in V. rewrite !skipn_app, Lu, vzero_length, Nat.sub_diag, !skipn_O, !skipn_all2 in V by (rewrite ?vzero_length; unfold vec in *; lia). cbn in V. apply W in V. congruence. Qed.
Lemma exec_gates circ psi : exec (map ins_of circ) [] psi = fold_left apply_gate circ psi.
Proof. revert psi. induction circ as [|g circ IH]; intros psi; auto. destruct g; cbn [map ins_of exec fold_left]; apply IH. Qed.
Lemma ext_pauli N n e f d : n <= N -> length e = n -> length f = n -> state_eq N (op_P (e ++ vzero (N - n), f ++ vzero (N - n)) (ext n d)) (ext n (op_P (e, f) d)).
Proof. intros H Le Lf x Lx. destruct (split_at n N x H Lx) as (u & w & -> & Lu & Lw). unfold op_P, op_Z, op_X. cbn [fst snd]. rewrite dot_app by (unfold vec in *; lia). rewrite dot_zero_l, xorb_false_r. rewrite vxor_app by (unfold vec in *; lia). rewrite (vxor_zero_r' (N - n)) by auto.
  rewrite !ext_app by (rewrite ?vxor_length; unfold vec in *; lia). destruct (forallb negb w); auto. destruct (dot f u); ring. Qed.

(** ** checks and errors *)
Lemma span_fixed n M (z : bool) (psi : state) v : wf n M -> (forall g, In g M -> state_eq n (if z then op_Z g psi else op_X g psi : state) psi) -> span n M v -> state_eq n (if z then op_Z v psi else op_X v psi : state) psi.
Proof. intros W F. apply (span_ind n M (fun v => state_eq n (if z then op_Z v psi else op_X v psi : state) psi) W).
  - intros x Lx. destruct z; unfold op_Z, op_X; [rewrite dot_zero_l; ring|now rewrite vxor_zero_r].
  - intros r w Hr Hw IH x Lx. pose proof (wf_in n M r W Hr) as Lr. assert (Lw : length w = n) by exact Hw. pose proof (F r Hr) as Fr. destruct z; unfold op_Z, op_X in *.
    + rewrite dot_vxor_l by (unfold vec in *; lia). specialize (Fr x Lx). specialize (IH x Lx). cbv beta iota in Fr, IH. destruct (dot r x), (dot w x); cbn [xorb] in *; lia.
    + rewrite vxor_assoc. rewrite IH by (rewrite vxor_length; unfold vec in *; lia). now apply Fr. Qed.
Lemma error_eigen n (z : bool) m e f (psi : state) : length m = n -> length e = n -> length f = n -> state_eq n (if z then op_Z m psi else op_X m psi : state) psi ->
  forall y, length y = n -> (if z then op_Z m (op_P (e, f) psi) else op_X m (op_P (e, f) psi)) y = ((if dot m (if z then e else f) then -1 else 1) * op_P (e, f) psi y)%Z.
Proof. intros Lm Le Lf F y Ly. destruct z; unfold op_P, op_Z, op_X in *; cbn [fst snd].
  - pose proof (F (vxor y e) ltac:(rewrite vxor_length; unfold vec in *; lia)) as K. cbv beta iota in K. rewrite dot_vxor_r in K by (unfold vec in *; lia). destruct (dot m y), (dot m e), (dot f y); cbn [xorb] in *; lia.
  - rewrite dot_vxor_r by (unfold vec in *; lia). rewrite (dot_comm m f). replace (vxor (vxor y m) e) with (vxor (vxor y e) m) by (rewrite <- !vxor_assoc; f_equal; apply vxor_comm). rewrite (F (vxor y e)) by (rewrite vxor_length; unfold vec in *; lia).
    destruct (dot f y), (dot f m); cbn [xorb]; lia. Qed.

(** ** the circuit with two blocks *)
Lemma measure_ft_nil z qc t flags : measure_ft z qc [] t flags = Ret qc.
Proof. now destruct z. Qed.
Lemma two_blocks z N n phi B t m1 m2 qc0 qc1 qc2 : (forall q, n <= q < N -> clean N [q] phi) ->
  (forall j v, nth_error m1 j = Some v -> length v = n /\ eigen N z (support v) (B j) phi) ->
  (forall j v, nth_error m2 j = Some v -> length v = n /\ ~ (t = 1 /\ weight v = 1) /\ eigen N (negb z) (support v) (B (length m1 + j)) phi) ->
  qc_nq qc0 = n -> qc_nc qc0 = 0 -> measure_ft z qc0 m1 t false = Ret qc1 -> measure_ft (negb z) qc1 m2 t true = Ret qc2 -> qc_nq qc1 <= N -> qc_nq qc2 <= N -> (forall b, length m1 + length m2 <= b -> B b = false) ->
  exists V, qc_ins qc2 = qc_ins qc0 ++ V /\ qc_nq qc2 = n + qc_nc qc2 /\ length m1 + length m2 <= qc_nc qc2 /\ qc_nq qc1 <= qc_nq qc2 /\
    frag N phi (pvec N n B n) V (pvec N n B (n + qc_nc qc2)) (exp_bits B V) /\
    forall q b, In (q, b) (meas_bits V) <-> q = n + b /\ b < qc_nc qc2.
Proof. intros CL G1 G2 Q0 C0 E1 E2 N1 N2 HB.
  assert (X : qc_nc qc1 = length m1 /\ exists V, qc_ins qc1 = qc_ins qc0 ++ V /\ qc_nq qc1 = n + qc_nc qc1 /\ frag N phi (pvec N n B n) V (pvec N n B (n + qc_nc qc1)) (exp_bits B V) /\ forall q b, In (q, b) (meas_bits V) <-> q = n + b /\ b < qc_nc qc1).
  { assert (CNT : qc_nc qc1 = length m1).
    { destruct (block z (qc_nq qc1) n (fun _ => 0%Z) (fun _ => false) t false m1 qc0 qc1) as (V & _ & _ & _ & K & _); auto; [intros q Hq x _ _; reflexivity| |lia|specialize (K eq_refl); lia].
      intros j v Hj. destruct (G1 j v Hj) as [L _]. split; auto. split; [discriminate|]. intros x Lx. unfold op_Z, op_X. destruct z; ring. }
    split; auto. destruct (block z N n phi B t false m1 qc0 qc1) as (V & V1 & V2 & V3 & V4 & V5 & V6); auto; [|lia|intros b Hb; lia|].
    - intros j v Hj. rewrite C0. destruct (G1 j v Hj). split; auto. split; [discriminate|auto].
    - exists V. rewrite C0, Nat.add_0_r in V5. split; auto. split; auto. split; auto. intros q b. rewrite V6. lia. }
  destruct X as (C1 & V & V1 & V2 & V3 & V4). destruct (block (negb z) N n phi B t true m2 qc1 qc2) as (W & W1 & W2 & W3 & _ & W5 & W6); auto; [|intros b Hb; apply HB; lia|].
  - intros j v Hj. rewrite C1. destruct (G2 j v Hj) as (? & ? & ?). auto.
  - exists (V ++ W). split; [rewrite W1, V1; now rewrite app_assoc|]. split; auto. split; [lia|]. split; [lia|]. split.
    + unfold exp_bits. rewrite meas_bits_app, map_app. eapply frag_app; eauto.
    + intros q b. rewrite meas_bits_app, in_app_iff, V4, W6. lia. Qed.

(** ** with a Pauli error after the preparation *)
Lemma pvec_end N n B k : N = n + k -> pvec N n B N = vzero n ++ map B (seq 0 k).
Proof. intros ->. apply (vec_ext (n + k)); [apply pvec_length|rewrite app_length, vzero_length, map_length, seq_length; lia|]. intros j Hj. rewrite nth_pvec by auto. destruct (Nat.leb_spec n j).
  - rewrite app_nth2 by (rewrite vzero_length; lia). rewrite vzero_length. rewrite (nth_indep _ false (B 0)) by (rewrite map_length, seq_length; lia). rewrite map_nth, seq_nth by lia. destruct (Nat.ltb_spec j (n + k)); [reflexivity|lia].
  - rewrite app_nth1 by (rewrite vzero_length; lia). now rewrite nth_vzero. Qed.
Lemma pvec_start N n B : n <= N -> pvec N n B n = vzero N.
Proof. intros H. apply (vec_ext N); [apply pvec_length|apply vzero_length|]. intros j Hj. rewrite nth_pvec, nth_vzero by auto. destruct (Nat.leb_spec n j), (Nat.ltb_spec j n); try lia; reflexivity. Qed.
Lemma xor_quiet (w v : vec) : length w = length v -> forallb negb (vxor w v) = veqb w v.
Proof. revert v. induction w as [|a w IH]; intros [|b v] L; try discriminate; auto. cbn. injection L as L. rewrite IH by auto. now destruct a, b. Qed.
Lemma execf_inl L : forall outs psi, execf (map inl L) outs psi = exec L outs psi.
Proof. induction L as [|[q|a t|q b] L IH]; intros outs psi; auto; cbn [map execf exec]; apply IH. Qed.
Lemma execf_gates circ F : forall outs psi, execf (map inl (map ins_of circ) ++ F) outs psi = execf F outs (fold_left apply_gate circ psi).
Proof. induction circ as [|g circ IH]; intros outs psi; auto. destruct g; cbn [map app ins_of execf fold_left]; apply IH. Qed.
Lemma nth_map_dot (l : list vec) (d : vec) j v : nth_error l j = Some v -> j < length l /\ nth j (map (fun m => dot m d) l) false = dot v d.
Proof. intros H. split; [apply nth_error_Some; congruence|]. apply nth_error_nth. exact (map_nth_error (fun m => dot m d) j l H). Qed.
Section Whole.
Variables (n : nat) (circ : list gate) (z : bool) (Mz Mo : mat) (t : nat) (m1 m2 : list vec) (qc1 qc2 : qcirc).
Let psi0 := run n circ.
Hypothesis (OK : Forall (gate_ok n) circ) (W1 : wf n Mz) (W2 : wf n Mo).
Hypothesis F1 : forall g, In g Mz -> state_eq n (if z then op_Z g psi0 else op_X g psi0 : state) psi0.
Hypothesis F2 : forall g, In g Mo -> state_eq n (if z then op_X g psi0 else op_Z g psi0 : state) psi0.
Hypothesis S1 : forall m, In m m1 -> span n Mz m.
Hypothesis S2 : forall m, In m m2 -> span n Mo m /\ ~ (t = 1 /\ weight m = 1).
Hypothesis E1 : measure_ft z (mkQc (map ins_of circ) n 0) m1 t false = Ret qc1.
Hypothesis E2 : measure_ft (negb z) qc1 m2 t true = Ret qc2.
Lemma whole : exists V, qc_ins qc2 = map ins_of circ ++ V /\ qc_nq qc2 = n + qc_nc qc2 /\ length m1 + length m2 <= qc_nc qc2 /\ (forall q b, In (q, b) (meas_bits V) <-> q = n + b /\ b < qc_nc qc2) /\
  forall e f, length e = n -> length f = n -> let N := qc_nq qc2 in let k := qc_nc qc2 in
    let bits := map (fun m => dot m (if z then e else f)) m1 ++ map (fun m => dot m (if z then f else e)) m2 in
    let certain := map (fun qb => nth (snd qb) bits false) (meas_bits V) in
    let final outs := execf (map inl (map ins_of circ) ++ inr (e ++ vzero k, f ++ vzero k) :: map inl V) outs (zero_ket N) in
    length certain = measurements V /\
    (forall outs, length outs = measurements V -> outs <> certain -> state_eq N (final outs) (fun _ => 0%Z)) /\
    exists c1 c2 : Z, (0 < c1)%Z /\ (0 < c2)%Z /\ forall x, length x = N ->
      (c1 * final certain x = c2 * (if veqb (skipn n x) (map (fun b => nth b bits false) (seq 0 k)) then op_P (e, f) psi0 (firstn n x) else 0))%Z.
Proof.
  assert (L1 : forall m, In m m1 -> length m = n) by (intros m Hm; destruct (S1 m Hm) as (cs & _ & <-); now apply lincomb_length).
  assert (L2 : forall m, In m m2 -> length m = n) by (intros m Hm; destruct (S2 m Hm) as ((cs & _ & <-) & _); now apply lincomb_length).
  assert (BASE : exists V, qc_ins qc2 = map ins_of circ ++ V /\ qc_nq qc2 = n + qc_nc qc2 /\ length m1 + length m2 <= qc_nc qc2 /\ qc_nq qc1 <= qc_nq qc2 /\ forall q b, In (q, b) (meas_bits V) <-> q = n + b /\ b < qc_nc qc2).
  { destruct (two_blocks z (qc_nq qc1 + qc_nq qc2) n (fun _ => 0%Z) (fun _ => false) t m1 m2 (mkQc (map ins_of circ) n 0) qc1 qc2) as (V & V1 & V2 & V3 & V4 & _ & V6); auto; try lia.
    - intros q Hq x _ _. reflexivity.
    - intros j v Hj. apply nth_error_In in Hj. split; auto. intros x Lx. unfold op_Z, op_X. destruct z; ring.
    - intros j v Hj. apply nth_error_In in Hj. split; auto. split; [now apply S2|]. intros x Lx. unfold op_Z, op_X. destruct z; cbn [negb]; ring.
    - exists V. auto. }
  destruct BASE as (V & V1 & V2 & V3 & V4 & V6). exists V. split; auto. split; auto. split; auto. split; auto. intros e f Le Lf. cbv zeta. set (N := qc_nq qc2) in *. set (k := qc_nc qc2) in *.
  set (bits := map (fun m => dot m (if z then e else f)) m1 ++ map (fun m => dot m (if z then f else e)) m2). set (B := fun b => nth b bits false). set (phi := ext n (op_P (e, f) psi0)).
  assert (HN : n <= N) by lia.
  destruct (two_blocks z N n phi B t m1 m2 (mkQc (map ins_of circ) n 0) qc1 qc2) as (V' & V1' & _ & _ & _ & FR & _); auto.
  - intros q Hq. now apply ext_clean.
  - intros j v Hj. pose proof (nth_error_In _ _ Hj) as Iv. split; auto. apply ext_eigen; auto.
    assert (B j = dot v (if z then e else f)) as ->. { unfold B, bits. destruct (nth_map_dot m1 (if z then e else f) j v Hj) as [K1 K2]. rewrite app_nth1 by (now rewrite map_length). exact K2. }
    apply error_eigen; auto. apply (span_fixed n Mz z psi0 v W1 F1). auto.
  - intros j v Hj. pose proof (nth_error_In _ _ Hj) as Iv. split; auto. split; [now apply S2|]. apply ext_eigen; auto.
    assert (EB : B (length m1 + j) = dot v (if z then f else e)). { unfold B, bits. rewrite app_nth2 by (rewrite map_length; lia). rewrite map_length. replace (length m1 + j - length m1) with j by lia. exact (proj2 (nth_map_dot m2 (if z then f else e) j v Hj)). }
    match goal with |- context [if B ?i then _ else _] => replace (B i) with (dot v (if z then f else e)) end.
    pose proof (error_eigen n (negb z) v e f psi0 (L2 v Iv) Le Lf) as K. intros y Ly. etransitivity; [apply K; auto|destruct z; reflexivity].
    apply (span_fixed n Mo (negb z) psi0 v W2); [|now apply S2]. intros g Hg. specialize (F2 g Hg). destruct z; exact F2.
  - intros b Hb. unfold B, bits. apply nth_overflow. rewrite app_length, !map_length. unfold vec in *; lia.
  - assert (V' = V). { rewrite V1 in V1'. apply app_inv_head in V1'. auto. } subst V'. fold k in FR. rewrite pvec_start in FR by auto. rewrite <- V2 in FR. rewrite (pvec_end N n B k V2) in FR.
    destruct FR as [LE FR]. split; [exact LE|].
    assert (FIN : forall outs, state_eq N (execf (map inl (map ins_of circ) ++ inr (e ++ vzero k, f ++ vzero k) :: map inl V) outs (zero_ket N)) (exec V outs phi)).
    { intros outs. rewrite execf_gates. cbn [execf]. rewrite execf_inl. apply exec_ext. intros x Lx. unfold phi. rewrite <- (ext_pauli N n) by auto. replace (N - n) with k by lia. unfold op_P, op_Z, op_X. cbn [fst snd]. f_equal.
      assert (LX : length (vxor x (e ++ vzero k)) = N) by (rewrite vxor_length; rewrite ?app_length, ?vzero_length; unfold vec in *; lia). rewrite <- (ext_run N n circ HN OK (zero_ket n)) by auto. apply (gates_ext N); auto. now apply ext_zero. }
    assert (P0 : pinned N phi (vzero N) phi). { exists 1%Z, 1%Z. split; [lia|]. split; [lia|]. intros x Lx. rewrite vxor_zero_r by auto. ring. }
    destruct (FR phi P0) as [(c1 & c2 & C1 & C2 & P1) P2]. split.
    + intros outs Lo Ne x Lx. rewrite FIN by auto. now apply P2.
    + exists c1, c2. split; auto. split; auto. intros x Lx. rewrite FIN by auto. change (map (fun qb : nat * nat => nth (snd qb) bits false) (meas_bits V)) with (exp_bits B V). rewrite P1 by auto. f_equal.
      destruct (split_at n N x HN Lx) as (u & w & -> & Lu & Lw). rewrite vxor_app by (rewrite vzero_length; unfold vec in *; lia). rewrite vxor_zero_r by auto. unfold phi. rewrite ext_app by auto.
      rewrite skipn_app, firstn_app, Lu, Nat.sub_diag, skipn_all2, firstn_all2 by (unfold vec in *; lia). cbn [skipn firstn app]. rewrite app_nil_r. rewrite xor_quiet by (rewrite map_length, seq_length; lia). reflexivity. Qed.
End Whole.
