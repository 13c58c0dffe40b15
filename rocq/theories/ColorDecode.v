(** * ColorDecode: the LightsOut decoder on a matrix whose incidences are given by adjacency dictionaries *)
From Verif Require Export ColorProofs2 PropLights.

Lemma vec_seq (v : vec) : v = map (fun i => nth i v false) (seq 0 (length v)).
Proof. induction v as [|a v IH]; auto. cbn [length seq map nth]. f_equal. rewrite <- seq_shift, map_map. exact IH. Qed.
Lemma dot_seq n (r e : vec) : length r = n -> length e = n -> dot r e = Nat.odd (length (filter (fun q => nth q r false && nth q e false) (seq 0 n))).
Proof. intros Hr He. rewrite (vec_seq r) at 1. rewrite (vec_seq e) at 1. unfold vec in *. rewrite Hr, He. apply dot_map_odd. Qed.
Lemma weight_seq (v : vec) : weight v = length (filter (fun q => nth q v false) (seq 0 (length v))).
Proof. rewrite (vec_seq v) at 1. apply weight_map. Qed.
Lemma parity_odd x qs : parity x qs = Nat.odd (length (filter x qs)).
Proof. induction qs as [|q qs IH]; auto. cbn [parity fold_right filter]. change (fold_right (fun i b => xorb (x i) b) false qs) with (parity x qs).
  rewrite IH. destruct (x q); cbn [length]; [|now destruct (Nat.odd _)]. rewrite Nat.odd_succ, <- Nat.negb_odd. now destruct (Nat.odd _). Qed.
Lemma parity_dot n (r e : vec) qs : length r = n -> length e = n -> NoDup qs ->
  (forall i, In i qs <-> i < n /\ nth i r false = true) -> parity (fun i => nth i e false) qs = dot r e.
Proof. intros Hr He ND H. rewrite parity_odd, (dot_seq n) by auto. f_equal. apply Permutation_length. apply NoDup_Permutation.
  - now apply NoDup_filter.
  - apply NoDup_filter, seq_NoDup.
  - intros i. rewrite !filter_In, H, in_seq, andb_true_iff. intuition lia. Qed.

Lemma nth_mulMV (H : mat) e j : j < length H -> nth j (mulMV H e) false = dot (nth j H []) e.
Proof. intros Hj. unfold mulMV. rewrite (nth_indep _ false (dot [] e)) by now rewrite map_length. now rewrite (map_nth (fun r => dot r e)). Qed.

Lemma weight_vxor_le a : forall b, weight (vxor a b) <= weight a + weight b.
Proof. induction a as [|x a IH]; intros [|y b]; cbn; try lia. specialize (IH b). destruct x, y; cbn; lia. Qed.

Definition b2n (b : bool) : nat := if b then 1 else 0.

(** decoding the syndrome of any error with the LightsOut object built from the dictionaries *)
Lemma lights_decode sv n m (H : mat) f2q q2f err : solver_ok sv -> wf n H -> length H = m ->
  map fst q2f = seq 0 n -> map fst f2q = seq 0 m -> graph_ok f2q q2f ->
  (forall j qs, In (j, qs) f2q -> NoDup qs /\ forall i, In i qs <-> i < n /\ nth i (nth j H []) false = true) ->
  length err = n ->
  exists st est lights', preconstruct_z3_instance (LightsOut f2q q2f) = (st, Ret tt) /\
    solve sv (mulMV H err) st = (st, Ret (map b2n est, lights')) /\ length est = n /\ mulMV H (vxor err est) = vzero m /\
    forall e', length e' = n -> mulMV H e' = mulMV H err -> weight est <= weight e'.
Proof. intros Hsv W HM KQ KF G HF He.
  assert (LQ : length q2f = n) by (rewrite <- (map_length fst), KQ; apply seq_length).
  assert (LF : length f2q = m) by (rewrite <- (map_length fst), KF; apply seq_length).
  pose proof (preconstruct_ok f2q q2f (graph_lights_ok f2q q2f G)) as EP.
  exists (pre_state f2q q2f).
  assert (SY : forall e, length e = n -> forall j sws, In (j, sws) f2q -> nth j (mulMV H e) false = parity (fun i => nth i e false) sws).
  { intros e Hl j sws Hin. destruct (HF j sws Hin) as [ND HI].
    assert (Hj : j < m). { apply (in_map fst) in Hin. cbn in Hin. rewrite KF in Hin. apply in_seq in Hin. lia. }
    rewrite (parity_dot n (nth j H []) e sws); auto.
    - apply nth_mulMV. lia.
    - unfold wf in W. rewrite Forall_forall in W. apply W. apply nth_In. lia. }
  assert (HL : length (mulMV H err) = length f2q) by (unfold mulMV; rewrite map_length; lia).
  assert (X : explains f2q (mulMV H err) (fun i => nth i err false)).
  { intros j Hj. destruct (dfind j f2q) as [sws|] eqn:Ed; [|elim (graph_dfind f2q q2f j G (eq_ind _ (fun q => j < q) Hj _ HL) Ed)]. exists sws. split; auto. symmetry. apply SY; auto. now apply dfind_In. }
  destruct (proj1 (C22_solve sv f2q q2f _ _ Hsv G HL EP) (ex_intro _ _ X)) as (y & Hy & Hmin & ES).
  exists (map y (seq 0 n)), (repeat false (length f2q)). split; auto. split.
  { rewrite ES, LQ, map_map. reflexivity. }
  assert (EL : length (map y (seq 0 n)) = n) by (rewrite map_length; apply seq_length). split; auto.
  assert (NY : forall i, i < n -> nth i (map y (seq 0 n)) false = y i).
  { intros i Hi. rewrite (nth_indep _ false (y 0)) by lia. rewrite (map_nth y), seq_nth by auto. reflexivity. }
  assert (PY : forall j sws, In (j, sws) f2q -> parity y sws = parity (fun i => nth i (map y (seq 0 n)) false) sws).
  { intros j sws Hin. rewrite !parity_odd. f_equal. f_equal. apply filter_ext_in. intros i Hi. destruct (HF j sws Hin) as [_ HI]. apply HI in Hi. symmetry. apply NY. tauto. }
  split.
  - assert (EV : mulMV H (map y (seq 0 n)) = mulMV H err).
    { apply (vec_ext m); try (unfold mulMV; rewrite map_length; auto). intros j Hj.
      destruct (Hy j ltac:(lia)) as (sws & Ed & P). apply dfind_In in Ed. rewrite <- P, (SY _ EL j sws Ed). symmetry. eauto. }
    apply (vec_ext m); [unfold mulMV; rewrite map_length; auto|apply vzero_length|]. intros j Hj. rewrite nth_vzero.
    assert (Ej : nth j (mulMV H (map y (seq 0 n))) false = nth j (mulMV H err) false) by now rewrite EV.
    assert (Hj' : j < length H) by (unfold mat, vec in *; lia). rewrite !nth_mulMV in Ej by auto. rewrite nth_mulMV by auto.
    rewrite dot_vxor_r, Ej; [apply xorb_nilpotent|unfold vec in *; lia].
  - intros e' He' Esyn. assert (X' : explains f2q (mulMV H err) (fun i => nth i e' false)).
    { intros j Hj. destruct (dfind j f2q) as [sws|] eqn:Ed; [|elim (graph_dfind f2q q2f j G (eq_ind _ (fun q => j < q) Hj _ HL) Ed)]. exists sws. split; auto. rewrite <- Esyn. symmetry. apply SY; auto. now apply dfind_In. }
    specialize (Hmin _ X'). unfold pressed in Hmin. rewrite LQ in Hmin. rewrite !weight_seq. unfold vec in *. rewrite EL, He'.
    rewrite (filter_ext_in (fun q => nth q (map y (seq 0 n)) false) y); auto. intros i Hi. apply in_seq in Hi. apply NY. lia. Qed.
