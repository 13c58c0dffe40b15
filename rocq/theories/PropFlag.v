(** * PropFlag: properties C42 - C45 - measurement gadgets with flags and hook errors *)
From Verif Require Import FlagHook.
From Coq Require Import Permutation.
Local Open Scope nat_scope.

(** Specification: FlagSem (exec: amplitudes after a circuit for given measurement outcomes; measured: the ideal measurement of a product of Z or of X; measures: what a gadget must do) and FlagPauli
    (with_faults: Pauli faults before or after instructions; tolerates). *)

(** The gadget measure_flagged appends, with its new flag qubits and bits, measures the stabilizer: no flag can read 1; the state after ancilla outcome o is the projection on the eigenspace (-1)^o with
    the flags in |0> and the ancilla in |o>.  The last measurement is that of the ancilla into bit b, the others are those of the flags into the new bits.  The one exception is weight one with t = 1. *)
Theorem C42_measures : forall qc stab a b t z qc', a < qc_nq qc -> NoDup stab -> (forall q, In q stab -> q < qc_nq qc /\ q <> a) -> ~ (t = 1 /\ length stab = 1) ->
  measure_flagged qc stab a b t z = Ret qc' ->
  exists L k fb, qc_ins qc' = qc_ins qc ++ L /\ qc_nq qc' = qc_nq qc + k /\ qc_nc qc' = qc_nc qc + k /\
    measures (qc_nq qc') z stab a (seq (qc_nq qc) k) L /\
    meas_bits L = fb ++ [(a, b)] /\ Permutation fb (combine (seq (qc_nq qc) k) (seq (qc_nc qc) k)).
Proof. intros qc stab a b t z qc' An ND HS N1 R. destruct (supported_dec (length stab) t) as [S|NS]; [|rewrite flagged_raises in R by auto; discriminate].
  destruct (flagged_builds qc stab a b t z S N1) as (qc2 & k & evs & E & B & _). assert (qc2 = qc') by congruence. subst qc2. destruct B as [B1 B2 B3 B4 B5 B6].
  exists (gadget z a b evs), k, (close_bits evs). split; auto. split; auto. split; auto. split; [|split; [apply gadget_bits|auto]].
  rewrite B2. rewrite <- B5 at 1. apply gadget_measures; auto; try lia.
  - intros f I. apply in_seq in I. lia.
  - intros I. apply in_seq in I. lia.
  - apply seq_NoDup.
  - rewrite B5. intros q I. destruct (HS q I). split; [lia|]. split; auto. intros J. apply in_seq in J. lia.
  - now rewrite B5. Qed.
Print Assumptions C42_measures.

(** The unflagged gadget measures the stabilizer, whatever its weight. *)
Theorem C42_unflagged : forall qc stab a b z, a < qc_nq qc -> NoDup stab -> (forall q, In q stab -> q < qc_nq qc /\ q <> a) -> stab <> [] ->
  exists qc' L, measure_stab_unflagged qc stab a b z = Ret qc' /\ qc_ins qc' = qc_ins qc ++ L /\ qc_nq qc' = qc_nq qc /\ qc_nc qc' = qc_nc qc /\ measures (qc_nq qc) z stab a [] L /\ meas_bits L = [(a, b)].
Proof. intros qc stab a b z An ND HS NE. destruct (unflagged_builds qc stab a b z NE) as (qc' & E & B). destruct B as [B1 B2 B3 B4 B5 B6]. exists qc', (gadget z a b (map ED stab)). split; auto. split; auto. split; [lia|]. split; [lia|].
  split; [|rewrite gadget_bits, close_map; reflexivity]. rewrite <- (datas_map stab) at 1. apply gadget_measures; [exact An|intros f []|intros []|apply NoDup_nil|exact B4| |].
  - rewrite datas_map. intros q I. destruct (HS q I). split; [lia|]. split; auto.
  - now rewrite datas_map. Qed.
Print Assumptions C42_unflagged.

(** With which weights and t a gadget is built, and what is raised otherwise. *)
Theorem C42_outcome : forall qc stab a b t z, let w := length stab in
  ((t = 1 /\ 1 <= w) \/ (t = 2 /\ In w [1; 2; 4; 5; 6; 8]) -> exists qc', measure_flagged qc stab a b t z = Ret qc') /\
  (t = 1 -> w = 0 -> measure_flagged qc stab a b t z = Raise IndexError) /\
  (t = 2 -> w = 0 -> measure_flagged qc stab a b t z = Raise CircuitError) /\
  (t = 2 -> w = 3 -> measure_flagged qc stab a b t z = Raise AssertionError) /\
  (t = 2 -> w = 7 \/ 9 <= w -> measure_flagged qc stab a b t z = Raise IndexError) /\
  (t <> 1 -> t <> 2 -> measure_flagged qc stab a b t z = Raise NotImplementedErr).
Proof. intros qc stab a b t z w.
  assert (NS : (t = 1 /\ w = 0) \/ (t = 2 /\ (w = 0 \/ w = 3 \/ w = 7 \/ 9 <= w)) \/ (t <> 1 /\ t <> 2) -> ~ supported w t) by (unfold supported; intros X [[A B]|[A B]]; lia).
  split; [|split; [|split; [|split; [|split]]]].
  - intros Hs. destruct (Nat.eq_dec t 1) as [->|T].
    + assert (W : 1 <= w) by (destruct Hs as [[_ H]|[H _]]; [auto|discriminate]). unfold measure_flagged. cbn [Nat.eqb]. unfold measure_stab_one_flagged. subst w. destruct stab; [cbn in W; lia|]. eexists. reflexivity.
    + assert (S : supported w t) by (right; destruct Hs as [[H _]|[H I]]; [congruence|]; split; auto; cbn in I; lia). destruct (flagged_builds qc stab a b t z S) as (qc' & _ & _ & E & _); [lia|]. eauto.
  - intros -> W. rewrite flagged_raises by (apply NS; lia). reflexivity.
  - intros -> W. rewrite flagged_raises by (apply NS; lia). fold w. now rewrite W.
  - intros -> W. rewrite flagged_raises by (apply NS; lia). fold w. now rewrite W.
  - intros -> W. rewrite flagged_raises by (apply NS; lia). fold w. cbn [Nat.eqb]. destruct (Nat.eqb_spec w 0); [lia|]. destruct (Nat.eqb_spec w 3); [lia|]. reflexivity.
  - intros T1 T2. rewrite flagged_raises by (apply NS; lia). apply Nat.eqb_neq in T1, T2. now rewrite T1, T2. Qed.
Print Assumptions C42_outcome.

(** The exception: a stabilizer of weight one with t = 1 is not measured at all.  Its only CNOT is applied twice; the ancilla cannot read 1 and the state is unchanged whatever it was. *)
Theorem C42_weight_one_refuted : forall qc q a b z, a < qc_nq qc -> q < qc_nq qc -> q <> a ->
  exists qc' L, measure_flagged qc [q] a b 1 z = Ret qc' /\ qc_ins qc' = qc_ins qc ++ L /\ qc_nq qc' = S (qc_nq qc) /\
    forall psi, clean (qc_nq qc') [a; qc_nq qc] psi -> forall x, length x = qc_nq qc' -> forall f o,
      exists c, (0 < c)%Z /\ exec L [f; o] psi x = (if f || o then 0 else c * psi x)%Z.
Proof. intros qc q a b z An Qn Qa. destruct (one_ins qc [q] a b z) as (qc' & E & E2 & E3 & E4); [discriminate|]. exists qc', (gadget z a b (one_flag_evs [q] (qc_nq qc) (qc_nc qc))). split; [exact E|]. split; [exact E4|]. split; [lia|].
  intros psi PC x Hx f o. destruct (weight_one_nothing (qc_nq qc') z a b (qc_nq qc) (qc_nc qc) q) with (psi := psi) (fo := [f]) (o := o) (x := x) as (c & C0 & EX); auto; try lia. exists c. split; auto. rewrite <- EX at 1 || idtac.
  cbn [app] in EX. rewrite EX. cbn [existsb]. now rewrite orb_false_r. Qed.
Print Assumptions C42_weight_one_refuted.

(** One flag: every single fault of the gadget - a Pauli operator on the qubits of an instruction, before or after it - leaves an error on at most one data qubit whenever the flag reads 0, for every weight at least two. *)
Theorem C43_one_fault : forall qc stab a b z, a < qc_nq qc -> NoDup stab -> (forall q, In q stab -> q < qc_nq qc /\ q <> a) -> 2 <= length stab ->
  exists qc' L, measure_flagged qc stab a b 1 z = Ret qc' /\ qc_ins qc' = qc_ins qc ++ L /\ qc_nq qc' = qc_nq qc + 1 /\ tolerates (qc_nq qc') stab a [qc_nq qc] L 1.
Proof. intros qc stab a b z An ND HS W. destruct (one_ins qc stab a b z) as (qc' & E & E2 & E3 & E4); [intros ->; cbn in W; lia|]. exists qc', (gadget z a b (one_flag_evs stab (qc_nq qc) (qc_nc qc))). split; [exact E|]. split; [exact E4|]. split; [exact E2|].
  rewrite E2. exact (one_tolerates qc stab a b z An ND HS W). Qed.
Print Assumptions C43_one_fault.

(** Two faults: whenever measure_flagged with t = 2 builds a gadget, k = 1 or k = 2 faults leave an error on at most k data qubits unless a flag reads 1. *)
Theorem C44_two_faults : forall qc stab a b z qc' k, a < qc_nq qc -> NoDup stab -> (forall q, In q stab -> q < qc_nq qc /\ q <> a) -> measure_flagged qc stab a b 2 z = Ret qc' -> k = 1 \/ k = 2 ->
  exists L nf, qc_ins qc' = qc_ins qc ++ L /\ qc_nq qc' = qc_nq qc + nf /\ tolerates (qc_nq qc') stab a (seq (qc_nq qc) nf) L k.
Proof. intros qc stab a b z qc' k An ND HS R Hk. destruct (supported_dec (length stab) 2) as [S|NS]; [|rewrite flagged_raises in R by auto; discriminate].
  destruct (flagged_builds qc stab a b 2 z S) as (qc2 & nf & evs & E & B & C); [lia|]. assert (qc2 = qc') by congruence. subst qc2. destruct C as [[C _]|[_ C]]; [discriminate|].
  exists (gadget z a b evs), nf. split; [apply B|]. split; [apply B|]. rewrite (bd_nq _ _ _ _ _ _ _ _ B). apply (two_tolerates k qc stab a b z qc' nf evs); auto. intros ->. destruct S as [[S _]|[_ S]]; [discriminate|]. cbn in S. lia. Qed.
Print Assumptions C44_two_faults.

(** But gadgets exist for six weights only. *)
Theorem C44_weights_refuted : forall qc stab a b z, (exists qc', measure_flagged qc stab a b 2 z = Ret qc') <-> In (length stab) [1; 2; 4; 5; 6; 8].
Proof. intros qc stab a b z. destruct (C42_outcome qc stab a b 2 z) as (H & _). split; [|intros I; apply H; right; auto]. intros (qc' & E). destruct (supported_dec (length stab) 2) as [S|NS]; [|rewrite flagged_raises in E by auto; discriminate].
  destruct S as [[S _]|[_ S]]; [discriminate|]. cbn. lia. Qed.
Print Assumptions C44_weights_refuted.

(** The flag pattern: for even weights at least four it is an arrangement of 0 .. w-2; for odd weights at least five a position is missing (and 0 repeated or another one twice). *)
Theorem C44_pattern_even : forall w, 4 <= w -> Nat.Even w -> Permutation (w_flag_pattern (Z.of_nat w)) (map Z.of_nat (seq 0 (w - 1))).
Proof. intros w W [k E]. assert (K : 2 <= k) by lia. replace (Z.of_nat w) with (2 * Z.of_nat (k - 2) + 4)%Z by lia. replace (w - 1) with (2 * (k - 2) + 3) by lia. apply pattern_even. Qed.
Print Assumptions C44_pattern_even.
Theorem C44_pattern_odd_refuted : forall w, 5 <= w -> Nat.Odd w -> ~ Permutation (w_flag_pattern (Z.of_nat w)) (map Z.of_nat (seq 0 (w - 1))).
Proof. intros w W [k E] P. replace (Z.of_nat w) with (2 * Z.of_nat (k - 2) + 5)%Z in P by lia. apply (pattern_odd (k - 2)). apply (Permutation_in _ (Permutation_sym P)). apply in_map_iff. exists (2 * (k - 2) + 1). split; [lia|]. apply in_seq. lia. Qed.
Print Assumptions C44_pattern_odd_refuted.

(** The hook errors of a list of stabilizers: each stabilizer with one of its qubits removed.  Each is therefore, up to the stabilizer, an error on a single data qubit. *)
Theorem C45_hooks : forall stabs h, (In h (hook_errors stabs) <-> exists s i, In s stabs /\ nth i s false = true /\ length h = length s /\ forall j, nth j h false = (if j =? i then false else nth j s false)) /\
  (In h (hook_errors stabs) -> exists s i, In s stabs /\ nth i s false = true /\ vxor h s = unitv (length s) i).
Proof. intros stabs h.
  assert (X : forall s i, nth i s false = true -> i < length s) by (intros s i E; destruct (Nat.lt_ge_cases i (length s)); auto; rewrite nth_overflow in E by auto; discriminate).
  assert (Y : In h (hook_errors stabs) <-> exists s i, In s stabs /\ nth i s false = true /\ length h = length s /\ forall j, nth j h false = (if j =? i then false else nth j s false)).
  { rewrite in_hooks. split; intros (s & i & I & H).
    - destruct H as (Hi & E & ->). exists s, i. split; auto. split; auto. split; [apply set_nth_length|]. intros j. apply nth_set_nth. auto.
    - destruct H as (E & Ls & N). exists s, i. split; auto. split; [auto|]. split; auto. apply (vec_ext (length s)); auto; [apply set_nth_length|]. intros j Hj. rewrite N. symmetry. apply nth_set_nth. auto. }
  split; auto. intros I. apply Y in I as (s & i & I & E & Ls & N). exists s, i. split; auto. split; auto. apply (vec_ext (length s)); [rewrite vxor_length; auto|apply unitv_length|]. intros j Hj. rewrite nth_vxor by auto. rewrite N, nth_unitv by auto.
  destruct (Nat.eqb_spec j i) as [->|]; [now rewrite E|apply xorb_nilpotent]. Qed.
Print Assumptions C45_hooks.

(** They are not the errors a single ancilla fault causes: in the unflagged gadget for the support of v - the one used for the first round of verification - a fault on the ancilla after CNOT k leaves the
    suffix from k on.  For 2 <= k <= w - 2 neither it nor its product with v is in the list: there is one for every weight from 4. *)
Theorem C45_suffix_refuted : forall qc v a b z k, length v <= qc_nq qc -> length v <= a < qc_nq qc -> 2 <= k -> k + 2 <= weight v ->
  exists qc' L F, measure_stab_unflagged qc (support v) a b z = Ret qc' /\ qc_ins qc' = qc_ins qc ++ L /\ with_faults (qc_nq qc) 1 L F /\
    (forall psi o, equal_up_to_sign (qc_nq qc) (execf F [o] psi) (op_P (p_mul (stab_op (qc_nq qc) z (skipn k (support v))) (vzero (qc_nq qc), unitv (qc_nq qc) a)) (exec L [o] psi))) /\
    let s := supp_vec (length v) (skipn k (support v)) in ~ In s (hook_errors [v]) /\ ~ In (vxor s v) (hook_errors [v]).
Proof. intros qc v a b z k Hn Ha Hk Hw.
  assert (HS : forall q, In q (support v) -> q < qc_nq qc /\ q <> a) by (intros q I; apply support_in in I; destruct (Nat.lt_ge_cases q (length v)); [lia|rewrite nth_overflow in I by auto; discriminate]).
  assert (LW := support_weight v).
  destruct (unflagged_builds qc (support v) a b z) as (qc' & E & B); [intros N; rewrite N in LW; cbn in LW; lia|].
  destruct (hook_occurs (qc_nq qc) z (support v) a b k) as (F & WF & EF); auto using support_nodup; try lia.
  exists qc', (gadget z a b (map ED (support v))), F. split; [exact E|]. split; [apply B|]. split; [exact WF|]. split; [exact EF|]. apply suffix_missing; auto. Qed.
Print Assumptions C45_suffix_refuted.

(** ** Concrete cases *)
Definition ex_qc := mkQc [IH 0; ICX 0 1] 8 1.
Example C42_case : exists qc', measure_flagged ex_qc [0; 2; 3; 5] 6 0 2 true = Ret qc' /\ qc_nq qc' = 9.
Proof. eexists. split; reflexivity. Qed.
Example C42_case_measures : exists L k, measures 9 true [0; 2; 3; 5] 6 (seq 8 k) L /\ k = 1.
Proof. destruct (measure_flagged ex_qc [0; 2; 3; 5] 6 0 2 true) as [qc'|] eqn:E; [|vm_compute in E; discriminate].
  destruct (C42_measures ex_qc [0; 2; 3; 5] 6 0 2 true qc') as (L & k & fb & _ & E2 & _ & M & _); try (cbn; lia); try exact E.
  - repeat (constructor; [cbn; lia|]). constructor.
  - exists L, k. assert (N : qc_nq qc' = 9) by (vm_compute in E; injection E as <-; reflexivity). rewrite N in *. cbn in E2. split; [exact M|lia]. Qed.
Example C43_case : exists L, tolerates 9 [0; 1; 2; 3; 4; 5] 6 [8] L 1.
Proof. destruct (C43_one_fault ex_qc [0; 1; 2; 3; 4; 5] 6 0 false) as (qc' & L & _ & _ & E & T); try (cbn; lia).
  - repeat (constructor; [cbn; lia|]). constructor.
  - exists L. cbn in E. rewrite E in T. exact T. Qed.
Example C44_case : exists L, tolerates 12 [0; 1; 2; 3; 4; 5; 6; 7] 8 [9; 10; 11] L 2.
Proof. set (qc := mkQc [] 9 1). destruct (measure_flagged qc [0; 1; 2; 3; 4; 5; 6; 7] 8 0 2 false) as [qc'|] eqn:E; [|vm_compute in E; discriminate].
  destruct (C44_two_faults qc [0; 1; 2; 3; 4; 5; 6; 7] 8 0 false qc' 2) as (L & nf & E1 & E2 & T); auto; try (cbn; lia).
  - repeat (constructor; [cbn; lia|]). constructor.
  - exists L. assert (N : qc_nq qc' = 12) by (vm_compute in E; injection E as <-; reflexivity). rewrite N in *. assert (nf = 3) by (cbn in E2; lia). subst nf. exact T. Qed.
Example C44_pattern_cases : w_flag_pattern 6 = [2; 3; 0; 1; 4]%Z /\ w_flag_pattern 5 = [2; 0; 3]%Z.
Proof. split; reflexivity. Qed.
Example C45_case : hook_errors [[true; false; true; true]] = [[false; false; true; true]; [true; false; false; true]; [true; false; true; false]].
Proof. reflexivity. Qed.
Example C45_case_missing : let v := [true; true; true; true] in 2 + 2 <= weight v /\ supp_vec (length v) (skipn 2 (support v)) = [false; false; true; true].
Proof. cbn. split; [lia|reflexivity]. Qed.
