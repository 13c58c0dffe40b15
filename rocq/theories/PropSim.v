(** * PropSim: C46, the Monte Carlo simulation of a verified state preparation (ft_stateprep/simulation.py) *)
From Coq Require Import Permutation Qfield Lqa.
From Verif Require Import SimProofs8 SimRates CssProofs.
Local Open Scope nat_scope.

(** ** The generated circuit *)
(** Every measurement of the circuit is one record, in order; the records split into those of ancillas that were a CNOT target before (Z checks)
    and the others (X checks). *)
Theorem C46_records : forall p parallel nq layers, let t := to_stim_circ p parallel nq layers in let circ := concat layers in
  records (t_ops t) = map (fun q => (q, false)) (measured_qubits circ) /\
  Permutation (t_xv t ++ t_zv t) (seq 0 (length (measured_qubits circ))) /\
  (forall i, In i (t_zv t) -> exists l q b l', circ = l ++ IM q b :: l' /\ length (measured_qubits l) = i /\ In q (cx_targets l)) /\
  (forall i, In i (t_xv t) -> exists l q b l', circ = l ++ IM q b :: l' /\ length (measured_qubits l) = i /\ ~ In q (cx_targets l)).
Proof. intros p parallel nq layers t circ. destruct (rec_all p parallel nq layers) as [R1 R2 R3 R4 R5 R6 R7 R8]. fold t circ in R1, R3, R4, R6, R7. rewrite R3 in R4. auto. Qed.
Print Assumptions C46_records.

(** Without noise the stim circuit prepares what the circuit prepares, for every circuit in which Hadamards on unused qubits
    precede a CNOT controlled by that qubit, whatever layering qiskit chooses. *)
Theorem C46_stim_circuit : forall p parallel n circ layers psi, Forall (ins_ok n) circ -> simulable n circ -> layers_of circ layers ->
  state_eq n (sexec (t_ops (to_stim_circ p parallel n layers)) [] psi) (exec circ [] psi).
Proof. exact stim_faithful. Qed.
Print Assumptions C46_stim_circuit.

(** The noise model: initialisations, Hadamards, idling and measurements fail with probability 2p/3, CNOTs with probability p, nothing else does. *)
Theorem C46_noise : forall p parallel nq layers, noisy p (t_ops (to_stim_circ p parallel nq layers)).
Proof. exact noisy_all. Qed.
Print Assumptions C46_noise.

(** A Hadamard on a qubit whose first CNOT uses it as target is lost: the simulated state differs. *)
Theorem C46_dropped_hadamard_refuted : exists n circ layers x, Forall (ins_ok n) circ /\ layers_of circ layers /\ length x = n /\
  forall p parallel, sexec (t_ops (to_stim_circ p parallel n layers)) [] (zero_ket n) x = 0%Z /\ exec circ [] (zero_ket n) x <> 0%Z.
Proof. exists 2, [IH 0; IH 1; ICX 0 1], [[IH 0; IH 1]; [ICX 0 1]], [true; false]. split; [|split; [apply ex_refl|split; [reflexivity|]]].
  - repeat (constructor; [cbn; lia|]). constructor.
  - intros p [|]; split; vm_compute; congruence. Qed.
Print Assumptions C46_dropped_hadamard_refuted.

(** ** Which records are used *)
(** The number of data qubits derived from the stim circuit is right when the last qubit is used and no ancilla is measured more than twice. *)
Theorem C46_data_qubits : forall p parallel nq layers zero_state code dec n, (forall q, In q (busy (concat layers)) -> q < n) -> (n = 0 \/ In (n - 1) (busy (concat layers))) ->
  (forall q, count_occ Nat.eq_dec (measured_qubits (concat layers)) q <= 2) ->
  s_n (set_p p parallel nq layers zero_state code dec) = (Z.of_nat n - Z.of_nat (length (nodup Nat.eq_dec (measured_qubits (concat layers)))))%Z.
Proof. intros p parallel nq layers zs code dec n A B C. unfold set_p. cbn [s_n]. rewrite (stim_qubits p parallel nq layers n A B). destruct (rec_all p parallel nq layers) as [_ _ R3 R4 _ _ _ R8]. apply Permutation_length in R4. rewrite app_length, seq_length in R4. rewrite R4, R3, R8.
  rewrite (twice_count _ C) at 1. lia. Qed.
Print Assumptions C46_data_qubits.
Theorem C46_third_measurement_refuted : exists layers, (forall q, In q (busy (concat layers)) -> q < 2) /\ In 1 (busy (concat layers)) /\ nodup Nat.eq_dec (measured_qubits (concat layers)) = [1] /\
  forall p parallel zero_state code dec, s_n (set_p p parallel 2 layers zero_state code dec) = 0%Z.
Proof. exists [[ICX 0 1]; [IM 1 0]; [IM 1 1]; [IM 1 2]]. split; [cbn; lia|]. split; [cbn; auto|]. split; [reflexivity|]. intros p [|] zs code dec; reflexivity. Qed.
Print Assumptions C46_third_measurement_refuted.

(** Whatever errors occur, the syndrome read from a sample is the syndrome of the data read from the same sample. *)
Theorem C46_syndrome : forall L distance Hx Hz xd zd c p parallel nq layers zero_state dec errs rec, opt_ok Hx -> opt_ok Hz -> CSSCode L distance Hx Hz xd zd = Ret c ->
  let s := set_p p parallel nq layers zero_state c dec in s_n s = Z.of_nat (sc_n (css_stab c)) -> possible (s_ops s) errs rec ->
  if zero_state then get_z_syndrome c (columns (s_data s) rec) = Ret (columns (s_z s) rec) else get_x_syndrome c (columns (s_data s) rec) = Ret (columns (s_x s) rec).
Proof. intros L distance Hx Hz xd zd c p parallel nq layers zs dec errs rec OX OZ HC s HN P. destruct (CSSCode_inv L distance Hx Hz xd zd c OX OZ HC) as ((EX & EZ & WX & WZ & O & _ & _ & En & _ & _) & _). rewrite En in HN.
  destruct (set_p_syndrome p parallel nq layers zs c dec _ (nd_rows (hx_of Hx Hz)) (nd_rows (hz_of Hx Hz)) EX EZ WX WZ O HN errs rec P) as (L1 & L2 & L3 & E). fold s in L1, L2, L3, E.
  destruct zs; unfold get_z_syndrome, get_x_syndrome, matvec; [rewrite EZ|rewrite EX]; cbn [nd_cols nd_rows]; rewrite L1, Nat.eqb_refl, E; reflexivity. Qed.
Print Assumptions C46_syndrome.

(** One batch: discarded are exactly the samples with a verification outcome of 1; counted as errors are exactly the other samples whose data,
    corrected by a least-weight error with the sampled syndrome, is not a stabilizer. *)
Theorem C46_batch : forall L distance Hx Hz xd zd c init os p parallel nq layers zero_state, ldpc_ok L -> opt_ok Hx -> opt_ok Hz -> CSSCode L distance Hx Hz xd zd = Ret c ->
  let s := set_p p parallel nq layers zero_state c (lut_run (LutDecoder c init) os) in s_n s = Z.of_nat (sc_n (css_stab c)) ->
  zero_state = true \/ is_self_dual c = false \/ (css_Hx c = css_Hz c /\ (init = true \/ existsb has_x os = true)) ->
  forall events, Forall (fun rec => exists errs, possible (s_ops s) errs rec) events ->
  let accepted := filter (fun rec => forallb negb (firstn (length (measured_qubits (concat layers))) rec)) events in
  exists st flags, simulate_batch s events = (st, Ret (length (filter (fun b => b) flags), length events - length accepted)) /\
    Forall2 (fun rec (flag : bool) => let data := columns (s_data s) rec in
      exists est, least (if zero_state then get_z_syndrome c else get_x_syndrome c) data est /\
        (flag = false <-> span (sc_n (css_stab c)) (if zero_state then nd_rows (css_Hx c) else nd_rows (css_Hz c)) (vxor data est))) accepted flags.
Proof. intros L distance Hx Hz xd zd c init os p parallel nq layers zs HL OX OZ HC s HN HD events F. exact (batch_result L distance Hx Hz xd zd c init os p parallel nq layers zs HL OX OZ HC HN HD events F). Qed.
Print Assumptions C46_batch.

(** ** The accounting over batches; [batches i] is the result (errors, discarded) of the i-th batch *)
Lemma mean_start batch batches : mean_ok batch batches 0 0 0.
Proof. split; cbn [qsum]; rewrite nq_0; ring. Qed.
Lemma min_pos a b : 1 <= a -> 1 <= b -> 1 <= Nat.min a b. Proof. lia. Qed.
Lemma rates_of batch batches t k p r : 1 <= batch -> 1 <= t -> 1 <= k -> (forall i, fst (batches i) + snd (batches i) <= batch) -> mean_ok batch batches t p r ->
  (p / ratio k 1 * nq k * nq t == qsum (fun i => batch_rate batch (batches i)) t)%Q /\ (0 <= p / ratio k 1 * nq k <= 1)%Q /\
  (r == 1 - nq (discarded batches t) / nq (t * batch))%Q /\ (0 <= r <= 1)%Q.
Proof. intros Hb Ht Hk HB M. assert (PK := nq_pos k Hk). assert (PT := nq_pos t Ht). assert (RA := ra_exact batch batches t r p M Hb Ht). destruct (rate_range batch batches t HB) as [Q1 Q2]. destruct M as [M1 M2].
  assert (EK : (p / ratio k 1 * nq k == p)%Q) by (rewrite ratio_1; field; lra). rewrite EK. split; auto. rewrite <- M1 in Q1, Q2. split; [split; nra|]. split; auto.
  assert (DL := discarded_le batch batches t ltac:(intros i; specialize (HB i); lia)). apply nq_le in DL. assert (D0 := nq_nonneg (discarded batches t)). assert (PB := nq_pos (t * batch) ltac:(nia)).
  assert (0 <= nq (discarded batches t) / nq (t * batch))%Q by (apply Qle_shift_div_l; auto; lra). assert (nq (discarded batches t) / nq (t * batch) <= 1)%Q by (apply Qle_shift_div_r; auto; lra). rewrite RA. split; lra. Qed.

(** With a fixed number of shots: ceil(shots/batch) batches are drawn; the acceptance rate is exact, the logical error rate per logical qubit is the mean
    over the batches of their rates; but the reported number of shots is one batch too large (C46_shots_refuted). *)
Theorem C46_rates_fixed : forall fuel k shots shots_per_batch min_errors batches, 1 <= k -> 1 <= shots -> 1 <= shots_per_batch ->
  let batch := Nat.min shots_per_batch shots in (forall i, fst (batches i) + snd (batches i) <= batch) ->
  exists drawn, shots <= drawn * batch < shots + batch /\
  (drawn <= fuel -> exists p_l r_a, logical_error_rate fuel k shots shots_per_batch false min_errors batches = Done (p_l, r_a, nsum (fun i => fst (batches i)) drawn, drawn * batch + batch) /\
     (p_l * nq k * nq drawn == qsum (fun i => batch_rate batch (batches i)) drawn)%Q /\ (0 <= p_l * nq k <= 1)%Q /\
     (r_a == 1 - nq (nsum (fun i => snd (batches i)) drawn) / nq (drawn * batch))%Q /\ (0 <= r_a <= 1)%Q).
Proof. intros fuel k shots spb m batches Hk Hs Hb batch HB. assert (PB : 1 <= batch) by (unfold batch; lia). exists (turns shots batch).
  assert (TT : shots <= turns shots batch * batch < shots + batch).
  { unfold turns. assert (X := Nat.div_mod (shots + batch - 1) batch ltac:(lia)). assert (Y := Nat.mod_upper_bound (shots + batch - 1) batch ltac:(lia)). nia. }
  split; auto. intros F. destruct (loop_fixed shots batch m batches fuel 0 0 0 (mean_start batch batches) ltac:(lia)) as [G _]. destruct (G ltac:(lia)) as (p & r & E & M).
  unfold logical_error_rate. fold batch. change (errors_of batches 0) with 0 in E. rewrite E. exists (p / ratio k 1)%Q, r. split; [f_equal; f_equal; cbn; lia|]. apply (rates_of batch batches (turns shots batch) k p r); auto. nia. Qed.
Print Assumptions C46_rates_fixed.
(** The reported number of shots is not the number drawn, for every input. *)
Theorem C46_shots_refuted : forall fuel k shots shots_per_batch min_errors batches p_l r_a errors reported, 1 <= shots -> 1 <= shots_per_batch ->
  logical_error_rate fuel k shots shots_per_batch false min_errors batches = Done (p_l, r_a, errors, reported) ->
  exists drawn, errors = nsum (fun i => fst (batches i)) drawn /\ reported = drawn * Nat.min shots_per_batch shots + Nat.min shots_per_batch shots /\ shots + 1 <= reported.
Proof. intros fuel k shots spb m batches p_l r_a errors reported Hs Hb E. set (batch := Nat.min spb shots). assert (PB : 1 <= batch) by (unfold batch; lia). exists (turns shots batch).
  assert (TT : shots <= turns shots batch * batch).
  { unfold turns. assert (X := Nat.div_mod (shots + batch - 1) batch ltac:(lia)). assert (Y := Nat.mod_upper_bound (shots + batch - 1) batch ltac:(lia)). nia. }
  unfold logical_error_rate in E. fold batch in E. destruct (loop_fixed shots batch m batches fuel 0 0 0 (mean_start batch batches) ltac:(lia)) as [G1 G2]. change (errors_of batches 0) with 0 in G1, G2.
  destruct (Nat.le_gt_cases (turns shots batch) (0 + fuel)) as [H|H].
  - destruct (G1 H) as (p & r & E' & _). rewrite E' in E. injection E as _ _ <- <-. split; [reflexivity|]. cbn. lia.
  - rewrite (G2 H) in E. discriminate. Qed.
Print Assumptions C46_shots_refuted.

(** Until a number of errors is seen: it stops at the first batch that reaches it, and then reports exactly the shots drawn and the right rates. *)
Theorem C46_rates_until : forall fuel k shots shots_per_batch min_errors batches drawn, 1 <= k -> 1 <= shots -> 1 <= shots_per_batch ->
  let batch := Nat.min shots_per_batch shots in (forall i, fst (batches i) + snd (batches i) <= batch) ->
  1 <= drawn <= fuel -> min_errors <= nsum (fun i => fst (batches i)) drawn -> (forall j, 1 <= j < drawn -> nsum (fun i => fst (batches i)) j < min_errors) ->
  exists p_l r_a, logical_error_rate fuel k shots shots_per_batch true min_errors batches = Done (p_l, r_a, nsum (fun i => fst (batches i)) drawn, drawn * batch) /\
     (p_l * nq k * nq drawn == qsum (fun i => batch_rate batch (batches i)) drawn)%Q /\ (0 <= p_l * nq k <= 1)%Q /\
     (r_a == 1 - nq (nsum (fun i => snd (batches i)) drawn) / nq (drawn * batch))%Q /\ (0 <= r_a <= 1)%Q.
Proof. intros fuel k shots spb m batches drawn Hk Hs Hb batch HB Hd HM HJ. assert (PB : 1 <= batch) by (unfold batch; lia). destruct (loop_until shots batch m batches fuel 0 0 0 (mean_start batch batches)) as [G _].
  destruct (G drawn ltac:(lia) ltac:(intros j Hj; apply HJ; lia) HM ltac:(lia)) as (p & r & E & M). unfold logical_error_rate. fold batch. change (errors_of batches 0) with 0 in E. rewrite E. exists (p / ratio k 1)%Q, r. split; [reflexivity|]. apply (rates_of batch batches drawn k p r); auto. lia. Qed.
Print Assumptions C46_rates_until.
(** It never stops when the errors never reach the number, for example at p = 0. *)
Theorem C46_until_diverges : forall k shots shots_per_batch min_errors batches, (forall j, 1 <= j -> nsum (fun i => fst (batches i)) j < min_errors) ->
  forall fuel, logical_error_rate fuel k shots shots_per_batch true min_errors batches = Unfinished.
Proof. intros k shots spb m batches H fuel. unfold logical_error_rate. set (batch := Nat.min spb shots). destruct (loop_until shots batch m batches fuel 0 0 0 (mean_start batch batches)) as [_ G].
  change (errors_of batches 0) with 0 in G. rewrite G; auto. intros j Hj. apply H. lia. Qed.
Print Assumptions C46_until_diverges.
(** The reported rate is not the errors per accepted shot: batches are not weighted by their accepted shots. *)
Theorem C46_pooled_refuted : exists batches p_l r_a reported, (forall i, fst (batches i) + snd (batches i) <= 10) /\ logical_error_rate 2 1 20 10 false 1 batches = Done (p_l, r_a, 1, reported) /\
  nsum (fun i => snd (batches i)) 2 = 9 /\ (p_l == 1 # 2)%Q /\ ~ (p_l == nq 1 / nq (20 - 9))%Q.
Proof. exists (fun i => if i =? 1 then (1, 9) else (0, 0)). eexists _, _, _. split; [intros i; destruct (i =? 1); cbn; lia|]. split; [vm_compute; reflexivity|]. split; [reflexivity|]. split; vm_compute; congruence. Qed.
Print Assumptions C46_pooled_refuted.

(** ** Non-vacuity: the [[4,2,2]] code with one verification measurement *)
Definition h4 : nd := mkNd 4 [[true; true; true; true]].
Definition circ4 : list ins := [IH 0; ICX 0 1; ICX 0 2; ICX 0 3; ICX 0 4; ICX 3 4; IM 4 0].
Example C46_simulable : Forall (ins_ok 5) circ4 /\ simulable 5 circ4 /\ layers_of circ4 (map (fun i => [i]) circ4).
Proof. split; [repeat (constructor; [cbn; lia|]); constructor|]. split; [|apply ex_refl]. intros q Hq. do 5 (destruct q as [|q]; [cbn; split; discriminate|]). lia. Qed.
Definition z7 : vec := repeat false 7.
(** an X error on qubit 3 after its CNOT (the eighth noise operation) is caught; a sample with the data 1100 is accepted and counted as an error *)
Example C46_possible : exists c, CSSCode ldpc_ref 2 (Some h4) (Some h4) None None = Ret c /\ let s := set_p (1 # 100)%Q true 5 (map (fun i => [i]) circ4) true c (LutDecoder c true) in
  s_n s = 4%Z /\ num_qubits (s_ops s) = 7 /\ length (records (s_ops s)) = 7 /\
  possible (s_ops s) [] (repeat false 7) /\
  (exists errs, possible (s_ops s) errs [true; false; true; false; false; false; true]) /\
  snd (simulate_batch s [repeat false 7; [true; false; true; false; false; false; true]; [false; false; false; true; true; false; false]]) = Ret (1, 1).
Proof. destruct (CSSCode ldpc_ref 2 (Some h4) (Some h4) None None) as [c|] eqn:E; [|vm_compute in E; discriminate]. exists c. split; auto. vm_compute in E. injection E as <-. cbn zeta.
  split; [vm_compute; reflexivity|]. split; [vm_compute; reflexivity|]. split; [vm_compute; reflexivity|]. split; [split; [vm_compute; reflexivity|exists z7; split; [vm_compute; reflexivity|vm_compute; discriminate]]|]. split; [|vm_compute; reflexivity].
  exists (repeat no_error 7 ++ [mkC false false true false]). split; [vm_compute; reflexivity|]. exists z7. split; [vm_compute; reflexivity|vm_compute; discriminate]. Qed.
Example C46_stops : logical_error_rate 5 1 20 10 true 2 (fun i => (1, i)) <> Unfinished /\ logical_error_rate 5 1 20 10 false 2 (fun i => (1, i)) <> Unfinished.
Proof. split; vm_compute; discriminate. Qed.
