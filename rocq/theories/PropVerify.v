(** * PropVerify: property C66 - verified state preparation circuits as a whole *)
From Verif Require Import VerifyProofs2 VerifyModel VerifProofs6 PropPrep PropFault PropVerif RreRef Z3Ref NamedData VerifProofs2.
Local Open Scope nat_scope.

(** ** specification *)
(** the state after the circuit: preparation, then the Pauli error with X part e and Z part f on the n qubits of the code, then the verification V with the given outcomes.  k is the number of
    ancilla and flag qubits. *)
Definition with_error (n k : nat) (circ : list gate) (V : list ins) (e f : vec) (outs : list bool) : state :=
  execf (map inl (map ins_of circ) ++ inr (e ++ vzero k, f ++ vzero k) :: map inl V) outs (zero_ket (n + k)).
Definition possible (N : nat) (psi : state) : Prop := exists x, length x = N /\ psi x <> 0%Z.
(** The verification V of qc consists of measurements of the ancilla and flag qubits, n + b into bit b.  For every error: bit b tells whether the error anticommutes with the b-th measured operator (the operators of
    the first layer see the X part when the state is the zero state, those of the second layer the Z part; the flags read 0) - with certainty - and the measurement does nothing else: the data is left in
    the prepared state with the error, up to normalisation. *)
Definition reads_syndrome (s : spc) (m1 m2 : list vec) (qc : qcirc) (V : list ins) : Prop :=
  let n := sp_n s in let k := qc_nc qc in let z := sp_zero s in
  qc_ins qc = map ins_of (sp_circ s) ++ V /\ qc_nq qc = n + k /\ length m1 + length m2 <= k /\ (forall q b, In (q, b) (meas_bits V) <-> q = n + b /\ b < k) /\
  forall e f, length e = n -> length f = n ->
    let bit b := if b <? length m1 then dot (nth b m1 []) (if z then e else f) else if b <? length m1 + length m2 then dot (nth (b - length m1) m2 []) (if z then f else e) else false in
    let certain := map (fun qb => bit (snd qb)) (meas_bits V) in
    (forall outs, length outs = measurements V -> possible (n + k) (with_error n k (sp_circ s) V e f outs) -> outs = certain) /\
    exists c1 c2 : Z, (0 < c1)%Z /\ (0 < c2)%Z /\ forall data anc, length data = n -> length anc = k ->
      (c1 * with_error n k (sp_circ s) V e f certain (data ++ anc) = c2 * (if veqb anc (map bit (seq 0 k)) then FlagPauli.op_P (e, f) (run n (sp_circ s)) data else 0))%Z.
(** every measurement reads 0 *)
Definition accepted (s : spc) (qc : qcirc) (V : list ins) (e f : vec) : Prop := possible (qc_nq qc) (with_error (sp_n s) (qc_nc qc) (sp_circ s) V e f (repeat false (measurements V))).

(** ** proofs *)
Lemma meas_bits_length V : length (meas_bits V) = measurements V.
Proof. induction V as [|[q|a t|q b] V IH]; try exact IH; auto. exact (f_equal S IH). Qed.
Lemma reads_of_whole s m1 m2 full qc : Forall (gate_ok (sp_n s)) (sp_circ s) -> wf (sp_n s) (sp_xc s) -> wf (sp_n s) (sp_zc s) ->
  (forall g, In g (sp_xc s) -> state_eq (sp_n s) (op_X g (run (sp_n s) (sp_circ s))) (run (sp_n s) (sp_circ s))) ->
  (forall g, In g (sp_zc s) -> state_eq (sp_n s) (op_Z g (run (sp_n s) (sp_circ s))) (run (sp_n s) (sp_circ s))) ->
  (forall m, In m m1 -> span (sp_n s) (orth_checks s (sp_zero s)) m) ->
  (forall m, In m m2 -> span (sp_n s) (orth_checks s (negb (sp_zero s))) m /\ ~ ((if sp_zero s then max_x_errors s else max_z_errors s) = 1 /\ weight m = 1)) ->
  (full = false -> m2 = []) -> (if sp_zero s then measure_ft_stabs s m2 m1 full else measure_ft_stabs s m1 m2 full) = Ret qc -> exists V, reads_syndrome s m1 m2 qc V.
Proof. intros OK WX WZ FX FZ S1 S2 HF E. unfold measure_ft_stabs in E.
  set (t := if sp_zero s then max_x_errors s else max_z_errors s) in *.
  assert (EE : exists qc1, measure_ft (sp_zero s) (mkQc (map ins_of (sp_circ s)) (sp_n s) 0) m1 t false = Ret qc1 /\ measure_ft (negb (sp_zero s)) qc1 m2 t true = Ret qc).
  { destruct (sp_zero s) eqn:Z; cbn [negb measure_ft]; subst t.
    - destruct (measure_ft_z _ m1 _ false) as [qc1|]; [|discriminate]. cbn [pbind] in E. exists qc1. split; auto. destruct full; auto. rewrite HF by auto. exact E.
    - destruct (measure_ft_x _ m1 _ false) as [qc1|]; [|discriminate]. cbn [pbind] in E. exists qc1. split; auto. destruct full; auto. rewrite HF by auto. exact E. }
  destruct EE as (qc1 & E1 & E2).
  destruct (whole (sp_n s) (sp_circ s) (sp_zero s) (orth_checks s (sp_zero s)) (orth_checks s (negb (sp_zero s))) t m1 m2 qc1 qc) as (V & V1 & V2 & V3 & V4 & V5); auto.
  { destruct (sp_zero s); auto. } { destruct (sp_zero s); auto. } { destruct (sp_zero s); auto. } { destruct (sp_zero s); auto. }
  exists V. unfold reads_syndrome. cbv zeta. split; auto. split; auto. split; auto. split; auto. intros e f Le Lf. destruct (V5 e f Le Lf) as (W1 & W2 & c1 & c2 & C1 & C2 & W3). cbv zeta in W1, W2, W3.
  set (bits := map (fun m => dot m (if sp_zero s then e else f)) m1 ++ map (fun m => dot m (if sp_zero s then f else e)) m2) in *.
  set (bit := fun b => if b <? length m1 then dot (nth b m1 []) (if sp_zero s then e else f) else if b <? length m1 + length m2 then dot (nth (b - length m1) m2 []) (if sp_zero s then f else e) else false).
  assert (EB : forall b, nth b bits false = bit b).
  { intros b. unfold bits, bit. destruct (Nat.ltb_spec b (length m1)); [|destruct (Nat.ltb_spec b (length m1 + length m2))].
    - rewrite app_nth1 by (rewrite map_length; auto). rewrite (nth_indep _ false (dot [] (if sp_zero s then e else f))) by (rewrite map_length; auto). exact (map_nth (fun m => dot m (if sp_zero s then e else f)) m1 [] b).
    - rewrite app_nth2 by (rewrite map_length; auto). rewrite map_length. rewrite (nth_indep _ false (dot [] (if sp_zero s then f else e))) by (rewrite map_length; unfold vec in *; lia). exact (map_nth (fun m => dot m (if sp_zero s then f else e)) m2 [] _).
    - apply nth_overflow. rewrite app_length, !map_length. auto. }
  assert (EM : map (fun qb : nat * nat => nth (snd qb) bits false) (meas_bits V) = map (fun qb => bit (snd qb)) (meas_bits V)) by (apply map_ext; intros; apply EB).
  assert (ES : map (fun b => nth b bits false) (seq 0 (qc_nc qc)) = map bit (seq 0 (qc_nc qc))) by (apply map_ext; intros; apply EB).
  rewrite EM in *. rewrite ES in *. fold bit. split.
  - intros outs Lo (x & Lx & NZ). destruct (list_eq_dec Bool.bool_dec outs (map (fun qb => bit (snd qb)) (meas_bits V))) as [|Ne]; auto. exfalso. apply NZ. unfold with_error. rewrite <- V2. apply W2; auto. now rewrite V2.
  - exists c1, c2. split; auto. split; auto. intros data anc Ld La. unfold with_error. rewrite <- V2. rewrite W3 by (rewrite app_length; unfold vec in *; lia).
    rewrite skipn_app, firstn_app, Ld, Nat.sub_diag, skipn_all2, firstn_all2 by (unfold vec in *; lia). cbn [skipn firstn app]. rewrite app_nil_r. reflexivity. Qed.
Lemma prepared_stabilized L distance Hx Hz xd zd c rre od fuel0 zs det circ : opt_ok Hx -> opt_ok Hz -> rre_ok rre -> ldpc_ok L ->
  CSSCode L distance Hx Hz xd zd = Ret c -> heuristic_prep_circuit fuel0 rre c od zs = Some circ ->
  let n := sc_n (css_stab c) in let s := StatePrepCircuit n circ c zs det in
  Forall (gate_ok n) circ /\ spc_ok s /\ (forall g, In g (sp_xc s) -> state_eq n (op_X g (run n circ)) (run n circ)) /\ (forall g, In g (sp_zc s) -> state_eq n (op_Z g (run n circ)) (run n circ)) /\ possible n (run n circ).
Proof. intros OX OZ RR HL HC HP. cbv zeta. split.
  { destruct zs; [exact (proj1 (C33_zero_state L distance Hx Hz xd zd c rre od fuel0 circ OX OZ RR HC HP))|exact (proj1 (C33_plus_state L distance Hx Hz xd zd c rre od fuel0 circ OX OZ RR HL HC HP))]. }
  split; [exact (StatePrepCircuit_ok L distance Hx Hz xd zd c circ zs det OX OZ HL HC)|].
  destruct (C33_stabilized L distance Hx Hz xd zd c rre od fuel0 zs circ OX OZ RR HL HC HP) as (P & A & B & C). cbv zeta in *. unfold StatePrepCircuit. cbn [sp_xc sp_zc]. split; [|split; [|exact P]].
  - destruct zs; auto. intros g Hg. apply in_app_iff in Hg as [Hg|Hg]; auto.
  - destruct zs; auto. intros g Hg. apply in_app_iff in Hg as [Hg|Hg]; auto. Qed.
Lemma accepted_commutes s m1 m2 qc V e f : reads_syndrome s m1 m2 qc V -> length e = sp_n s -> length f = sp_n s -> accepted s qc V e f ->
  (forall m, In m m1 -> dot m (if sp_zero s then e else f) = false) /\ (forall m, In m m2 -> dot m (if sp_zero s then f else e) = false).
Proof. intros (_ & R2 & R3 & R4 & R5) Le Lf A. destruct (R5 e f Le Lf) as [U _]. cbv zeta in U. unfold accepted in A. rewrite R2 in A. specialize (U _ (repeat_length _ _) A).
  set (bit := fun b => if b <? length m1 then dot (nth b m1 []) (if sp_zero s then e else f) else if b <? length m1 + length m2 then dot (nth (b - length m1) m2 []) (if sp_zero s then f else e) else false) in *.
  assert (Z : forall b, b < qc_nc qc -> bit b = false).
  { intros b Hb. assert (I : In (sp_n s + b, b) (meas_bits V)) by (apply R4; auto). assert (J : In (bit b) (repeat false (measurements V))) by (rewrite U; apply in_map_iff; exists (sp_n s + b, b); auto). now apply repeat_spec in J. }
  split; intros m Hm; apply In_nth_error in Hm as [j Hj].
  - assert (Lj : j < length m1) by (apply nth_error_Some; congruence). specialize (Z j ltac:(lia)). unfold bit in Z. destruct (Nat.ltb_spec j (length m1)); [|lia]. apply (nth_error_nth m1 j []) in Hj. rewrite <- Hj. exact Z.
  - assert (Lj : j < length m2) by (apply nth_error_Some; congruence). specialize (Z (length m1 + j) ltac:(lia)). unfold bit in Z. destruct (Nat.ltb_spec (length m1 + j) (length m1)); [lia|]. destruct (Nat.ltb_spec (length m1 + j) (length m1 + length m2)); [|lia].
    replace (length m1 + j - length m1) with j in Z by lia. apply (nth_error_nth m2 j []) in Hj. rewrite <- Hj. exact Z. Qed.
(** the errors that j base faults and j additional faults can cause *)
Definition combination (s : spc) (x : bool) (nodes : list (nat * nat)) (additional : mat) (j : nat) : vec -> Prop :=
  ksum (sp_n s) (fun b => (In b (single_faults (sp_n s) x nodes) \/ In b (identity (sp_n s))) \/ In b additional) j.
Lemma combination_length s x nodes additional j e : wf (sp_n s) additional -> combination s x nodes additional j e -> length e = sp_n s.
Proof. intros W H. apply (ksum_length _ _ _ _ (fun b Hb => match Hb with or_introl (or_introl H) => wf_in _ _ b (single_faults_wf (sp_n s) x nodes) H | or_introl (or_intror H) => wf_in _ _ b (identity_wf (sp_n s)) H | or_intror H => wf_in _ _ b W H end) H). Qed.
Lemma protects_light (opt : cl_solver) s x nodes additional layers j e : optimizer_ok 1 opt -> spc_ok s -> (forall l, additional = Some l -> wf (sp_n s) l) -> protects s x nodes additional layers -> 1 <= j <= max_errors s ->
  combination s x nodes (match additional with Some l => l | None => [] end) j e -> (forall m, In m (concat layers) -> dot m e = false) ->
  exists w, span (sp_n s) (stabs_of s x) w /\ weight (vxor e w) <= max_weight s x * j.
Proof. intros OK SO WA (PL & P) Hj C Z. pose proof (stabs_wf s x SO) as WS. assert (Le : length e = sp_n s).
  { apply (combination_length s x nodes (match additional with Some l => l | None => [] end) j); auto. destruct additional as [l|]; [now apply WA|apply Forall_nil]. }
  destruct (coset_leader_ok opt (sp_n s) e (stabs_of s x) OK Le WS) as (A & B & D). set (w := vxor e (coset_leader opt e (stabs_of s x))) in *. exists w. split; auto.
  assert (EW : vxor e w = coset_leader opt e (stabs_of s x)) by (unfold w; rewrite vxor_assoc, (vxor_self' (sp_n s)) by auto; apply vxor_zero_l; auto). rewrite EW.
  destruct (Nat.le_gt_cases (weight (coset_leader opt e (stabs_of s x))) (max_weight s x * j)) as [|G]; auto. exfalso.
  destruct (P j Hj) as (layer & NE & _ & DET). cbv zeta in DET. destruct (DET e) as (m & Hm & Dm).
  - refine (proj1 (ksum_ext _ _ _ _ _ _) C). intros b. destruct additional as [l|].
    + split; [intros [K|K]; [auto|right; exists l; auto]|intros [K|(l' & [= <-] & K)]; auto].
    + split; [intros [K|[]]; auto|intros [K|(l' & K & _)]; [auto|discriminate]].
  - intros v Hv. specialize (D v Hv). lia.
  - rewrite Z in Dm; [discriminate|]. apply in_concat. exists layer. split; auto. now apply nth_error_In in NE. Qed.
Lemma protects_span s x nodes additional layers m : protects s x nodes additional layers -> In m (concat layers) -> span (sp_n s) (orth_checks s x) m.
Proof. intros (PL & P) Hm. apply in_concat in Hm as (layer & Hl & Hm). apply In_nth_error in Hl as (i & Hi). assert (i < length layers) by (apply nth_error_Some; congruence).
  destruct (P (S i) ltac:(lia)) as (layer' & NE & SP & _). cbn [Nat.sub] in NE. rewrite Nat.sub_0_r in NE. rewrite Hi in NE. injection NE as <-. now apply SP. Qed.
Lemma hook_wf n ms : wf n ms -> wf n (hook_errors ms).
Proof. intros W. apply Forall_forall. intros h Hh. unfold hook_errors in Hh. apply in_flat_map in Hh as (m & Hm & Hh). apply in_map_iff in Hh as (i & <- & _). rewrite set_nth_length. exact (wf_in n ms m W Hm). Qed.
Lemma run_layers s stabs full kk qc (I : cache * cache -> Prop) (P : bool -> option mat -> list (list vec) -> Prop) :
  (forall x additional kk kk' layers, I kk -> (forall l, additional = Some l -> wf (sp_n s) l) -> stabs x additional kk = Done (kk', layers) -> I kk' /\ P x additional layers) ->
  (forall x additional layers, P x additional layers -> wf (sp_n s) (concat layers)) -> I kk -> verification_circuit_run s stabs full kk = Done qc ->
  exists l1 l2, P (sp_zero s) None l1 /\ (if full then P (negb (sp_zero s)) (Some (hook_errors (concat l1))) l2 else l2 = []) /\
    (if sp_zero s then measure_ft_stabs s (concat l2) (concat l1) full else measure_ft_stabs s (concat l1) (concat l2) full) = Ret qc.
Proof. intros HS HW HI E. unfold verification_circuit_run in E. destruct (stabs (sp_zero s) None kk) as [[kk1 l1]| |] eqn:E1; cbn [obind] in E; try discriminate. cbn [fst snd] in E.
  destruct (HS _ _ _ _ _ HI (fun l (H : None = Some l) => ltac:(discriminate H)) E1) as [I1 P1]. destruct full.
  - destruct (stabs (negb (sp_zero s)) (Some (hook_errors (concat l1))) kk1) as [[kk2 l2]| |] eqn:E2; cbn [obind snd] in E; try discriminate. exists l1, l2. split; auto.
    assert (WH : forall l, Some (hook_errors (concat l1)) = Some l -> wf (sp_n s) l) by (intros l [= <-]; apply hook_wf; eauto). destruct (HS _ _ _ _ _ I1 WH E2) as [_ P2].
    split; auto. destruct (if sp_zero s then _ else _) as [q|]; cbn [of_py] in E; [now injection E as <-|discriminate].
  - cbn [obind] in E. exists l1, []. split; auto. split; auto. cbn [concat]. destruct (if sp_zero s then _ else _) as [q|]; cbn [of_py] in E; [now injection E as <-|discriminate]. Qed.

(** ** C66 *)
(** For every code, heuristic preparation circuit and choice of measured products of checks: the circuit that measures them reads the syndrome of every Pauli error and leaves the data alone.  Covers the circuits of
    the searches below and naive_verification_circuit.  [full = false]: only the first layer. *)
Theorem C66_syndrome : forall L distance Hx Hz xd zd c rre od fuel0 zs det circ m1 m2 full qc, opt_ok Hx -> opt_ok Hz -> rre_ok rre -> ldpc_ok L ->
  CSSCode L distance Hx Hz xd zd = Ret c -> heuristic_prep_circuit fuel0 rre c od zs = Some circ ->
  let n := sc_n (css_stab c) in let s := StatePrepCircuit n circ c zs det in
  (forall m, In m m1 -> span n (orth_checks s zs) m) -> (forall m, In m m2 -> span n (orth_checks s (negb zs)) m) ->
  ((if zs then max_x_errors s else max_z_errors s) = 1 -> forall m, In m m2 -> weight m <> 1) -> (full = false -> m2 = []) ->
  (if zs then measure_ft_stabs s m2 m1 full else measure_ft_stabs s m1 m2 full) = Ret qc ->
  exists V, reads_syndrome s m1 m2 qc V.
Proof. intros L distance Hx Hz xd zd c rre od fuel0 zs det circ m1 m2 full qc OX OZ RR HL HC HP n s S1 S2 N1 HF E.
  destruct (prepared_stabilized L distance Hx Hz xd zd c rre od fuel0 zs det circ OX OZ RR HL HC HP) as (G & SO & FX & FZ & _). fold n in G, SO, FX, FZ. fold s in SO, FX, FZ.
  apply (reads_of_whole s m1 m2 full qc); auto; try apply SO. intros m Hm. split; [now apply S2|]. intros [T W]. exact (N1 T m Hm W). Qed.
Print Assumptions C66_syndrome.
(** Without an error every measurement reads 0, and the circuit ends in the prepared state with all other qubits in |0>. *)
Theorem C66_no_error : forall L distance Hx Hz xd zd c rre od fuel0 zs det circ m1 m2 qc V, opt_ok Hx -> opt_ok Hz -> rre_ok rre -> ldpc_ok L ->
  CSSCode L distance Hx Hz xd zd = Ret c -> heuristic_prep_circuit fuel0 rre c od zs = Some circ ->
  let n := sc_n (css_stab c) in let s := StatePrepCircuit n circ c zs det in let k := qc_nc qc in
  reads_syndrome s m1 m2 qc V ->
  (forall outs, length outs = measurements V -> (possible (n + k) (exec (qc_ins qc) outs (zero_ket (n + k))) <-> outs = repeat false (measurements V))) /\
  exists c1 c2 : Z, (0 < c1)%Z /\ (0 < c2)%Z /\ forall data anc, length data = n -> length anc = k ->
    (c1 * exec (qc_ins qc) (repeat false (measurements V)) (zero_ket (n + k)) (data ++ anc) = c2 * (if veqb anc (vzero k) then run n circ data else 0))%Z.
Proof. intros L distance Hx Hz xd zd c rre od fuel0 zs det circ m1 m2 qc V OX OZ RR HL HC HP n s k R.
  destruct (prepared_stabilized L distance Hx Hz xd zd c rre od fuel0 zs det circ OX OZ RR HL HC HP) as (G & SO & FX & FZ & (x0 & Lx0 & NZ)). fold n in G, SO, FX, FZ, Lx0, NZ. fold s in SO, FX, FZ.
  destruct R as (R1 & R2 & R3 & R4 & R5). change (sp_n s) with n in *. change (sp_circ s) with circ in *. change (sp_zero s) with zs in *. fold k in R2, R3, R4, R5.
  destruct (R5 (vzero n) (vzero n) (vzero_length n) (vzero_length n)) as [U (c1 & c2 & C1 & C2 & F)]. cbv zeta in U, F.
  set (bit := fun b => if b <? length m1 then dot (nth b m1 []) (if zs then vzero n else vzero n) else if b <? length m1 + length m2 then dot (nth (b - length m1) m2 []) (if zs then vzero n else vzero n) else false) in *.
  assert (B0 : forall b, bit b = false). { intros b. unfold bit. destruct (b <? _); [destruct zs; apply dot_zero_r|]. destruct (b <? _); [destruct zs; apply dot_zero_r|reflexivity]. }
  assert (EC : map (fun qb : nat * nat => bit (snd qb)) (meas_bits V) = repeat false (measurements V)). { rewrite <- meas_bits_length. generalize (meas_bits V). intros l. induction l as [|a l IH]; auto. cbn [map length repeat]. now rewrite B0, IH. }
  assert (EK : map bit (seq 0 k) = vzero k). { rewrite <- (seq_length k 0) at 2. generalize (seq 0 k). intros l. induction l as [|a l IH]; auto. cbn [map length]. rewrite B0, IH. reflexivity. }
  assert (U' : forall outs, length outs = measurements V -> possible (n + k) (with_error n k circ V (vzero n) (vzero n) outs) -> outs = map (fun qb => bit (snd qb)) (meas_bits V)) by exact U.
  assert (F' : forall data anc, length data = n -> length anc = k -> (c1 * with_error n k circ V (vzero n) (vzero n) (map (fun qb => bit (snd qb)) (meas_bits V)) (data ++ anc) = c2 * (if veqb anc (map bit (seq 0 k)) then FlagPauli.op_P (vzero n, vzero n) (run n circ) data else 0))%Z) by exact F.
  clear U F. rename U' into U. rename F' into F. rewrite EC in U, F. rewrite EK in F.
  assert (EX : forall outs, state_eq (n + k) (with_error n k circ V (vzero n) (vzero n) outs) (exec (qc_ins qc) outs (zero_ket (n + k)))).
  { intros outs. unfold with_error. rewrite execf_gates. cbn [execf]. rewrite execf_inl, R1. change outs with ([] ++ outs) at 2. rewrite exec_app by (clear; induction circ as [|[q|a t] circ IH]; auto). rewrite exec_gates. apply exec_ext. intros x Lx.
    assert (EZ : vzero n ++ vzero k = vzero (n + k)) by (unfold vzero; now rewrite <- repeat_app). rewrite EZ. unfold FlagPauli.op_P, op_Z, op_X. cbn [fst snd]. rewrite dot_zero_l, vxor_zero_r by auto. ring. }
  assert (PI : forall data, length data = n -> FlagPauli.op_P (vzero n, vzero n) (run n circ) data = run n circ data). { intros d Ld. unfold FlagPauli.op_P, op_Z, op_X. cbn [fst snd]. rewrite dot_zero_l, vxor_zero_r by auto. ring. }
  split.
  - intros outs Lo. split.
    + intros (x & Lx & N). apply U; auto. exists x. split; auto. rewrite EX; auto.
    + intros ->. exists (x0 ++ vzero k). assert (LL : length (x0 ++ vzero k) = n + k) by (rewrite app_length, vzero_length; unfold vec in *; lia). split; auto. rewrite <- EX by auto. intros Z.
      specialize (F x0 (vzero k) Lx0 (vzero_length k)). rewrite Z, (proj2 (veqb_eq _ _) eq_refl), PI in F by auto. nia.
  - exists c1, c2. split; auto. split; auto. intros data anc Ld La. rewrite <- EX by (rewrite app_length; unfold vec in *; lia). rewrite F by auto. destruct (veqb anc (vzero k)); auto. now rewrite PI. Qed.
Print Assumptions C66_no_error.

Lemma heuristic_call lin ord (opt : cl_solver) s max_sets fcl nodes fuel : optimizer_ok 1 opt -> ord_ok ord -> spc_ok s -> cnots_of (drop_front [] (sp_circ s)) = Ret nodes -> lin nodes <> [] -> 1 <= max_errors s ->
  forall x additional kk kk' layers, kinv2 lin s nodes kk -> (forall l, additional = Some l -> wf (sp_n s) l) -> heuristic_verification_stabilizers fuel lin ord opt s x max_sets fcl additional kk = Done (kk', layers) ->
  kinv2 lin s nodes kk' /\ protects s x (lin nodes) additional layers.
Proof. intros OK OO SO EN NL M x additional kk kk' layers KI WA E. pose proof (orth_wf s x SO) as WO. destruct (select_gen lin opt s x additional nodes kk OK SO EN NL M WA KI) as (k1 & sets & ES & K1 & INSEL & FIN).
  unfold heuristic_verification_stabilizers in E. rewrite ES in E. cbn [of_py obind fst snd] in E. cbv zeta in INSEL, FIN. set (sel := firstn (max_errors s) (skipn 1 sets)) in *.
  destruct (heuristic_layers fuel ord opt (orth_checks s x) fcl max_sets sel) as [ls| |] eqn:EL; cbn [obind] in E; try discriminate. injection E as <- <-. split; auto. apply FIN.
  apply (heuristic_layers_sound fuel ord opt (sp_n s) (orth_checks s x) fcl max_sets WO OO OK sel ls); auto. intros F HF. destruct (INSEL _ HF) as (F' & EF & W & _). now injection EF as <-. Qed.
Lemma optimal_call lin (opt : cl_solver) (en : bool -> env) s tmin tmax ma nodes fuel : optimizer_ok 1 opt -> (forall x k, solver_ok 1 (e_solver (en x) k)) -> spc_ok s -> cnots_of (drop_front [] (sp_circ s)) = Ret nodes -> lin nodes <> [] -> 1 <= max_errors s ->
  forall x additional kk kk' layers, kinv2 lin s nodes kk -> (forall l, additional = Some l -> wf (sp_n s) l) -> gate_optimal_verification_stabilizers fuel lin opt (en x) s x tmin tmax ma additional kk = Done (kk', layers) ->
  kinv2 lin s nodes kk' /\ (layers = [] \/ protects s x (lin nodes) additional layers).
Proof. intros OK EOK SO EN NL M x additional kk kk' layers KI WA E. pose proof (orth_wf s x SO) as WO. destruct (select_gen lin opt s x additional nodes kk OK SO EN NL M WA KI) as (k1 & sets & ES & K1 & INSEL & FIN).
  unfold gate_optimal_verification_stabilizers in E. rewrite ES in E. cbn [of_py obind fst snd] in E. cbv zeta in INSEL, FIN. set (sel := firstn (max_errors s) (skipn 1 sets)) in *.
  destruct (optimal_layers _ _ _ _ _ _ _ sel 0) as [[k [ls|]]| |] eqn:EL; cbn [obind fst snd] in E; try discriminate; injection E as <- <-; split; auto.
  right. apply FIN. eapply optimal_layers_sound; [exact WO|apply EOK| |exact EL]. intros F HF. destruct (INSEL _ HF) as (F' & EF & W & _). now injection EF as <-. Qed.

(** heuristic_verification_circuit, for every code, heuristic preparation circuit, order of set iteration, z3 optimizer and earlier calls.  Whenever it returns a circuit: that circuit reads the syndrome of products
    of checks, and if all its measurements can read 0 after an error whose X part (zero state; Z part for the plus state) comes from j <= max_errors base faults, then some stabilizer makes that part at most
    max_weight * j heavy; with full fault tolerance likewise for the other part, even if some of its faults are hook errors of the first layer. *)
Theorem C66_heuristic : forall L distance Hx Hz xd zd c rre od fuel0 zs det circ lin ord opt max_sets fcl full hist nodes fuel qc,
  opt_ok Hx -> opt_ok Hz -> rre_ok rre -> ldpc_ok L -> optimizer_ok 1 opt -> ord_ok ord ->
  CSSCode L distance Hx Hz xd zd = Ret c -> heuristic_prep_circuit fuel0 rre c od zs = Some circ ->
  let n := sc_n (css_stab c) in let s := StatePrepCircuit n circ c zs det in
  cnots_of (drop_front [] circ) = Ret nodes -> lin nodes <> [] -> 1 <= max_errors s ->
  ((if zs then max_x_errors s else max_z_errors s) = 1 -> forall m, span n (orth_checks s (negb zs)) m -> weight m <> 1) ->
  heuristic_verification_circuit fuel lin ord opt s max_sets fcl full (state_after lin opt s hist) = Done qc ->
  exists m1 m2 V, reads_syndrome s m1 m2 qc V /\
    (forall m, In m m1 -> span n (orth_checks s zs) m) /\ (forall m, In m m2 -> span n (orth_checks s (negb zs)) m) /\
    forall e f j, 1 <= j <= max_errors s -> length e = n -> length f = n -> accepted s qc V e f ->
      (combination s zs (lin nodes) [] j (if zs then e else f) -> exists w, span n (stabs_of s zs) w /\ weight (vxor (if zs then e else f) w) <= max_weight s zs * j) /\
      (full = true -> combination s (negb zs) (lin nodes) (hook_errors m1) j (if zs then f else e) -> exists w, span n (stabs_of s (negb zs)) w /\ weight (vxor (if zs then f else e) w) <= max_weight s (negb zs) * j).
Proof. intros L distance Hx Hz xd zd c rre od fuel0 zs det circ lin ord opt max_sets fcl full hist nodes fuel qc OX OZ RR HL OK OO HC HP n s EN NL M N1 E.
  destruct (prepared_stabilized L distance Hx Hz xd zd c rre od fuel0 zs det circ OX OZ RR HL HC HP) as (G & SO & _). fold n in SO. fold s in SO.
  destruct (run_layers s _ full (state_after lin opt s hist) qc (kinv2 lin s nodes) (fun x additional layers => protects s x (lin nodes) additional layers)
    (heuristic_call lin ord opt s max_sets fcl nodes fuel OK OO SO EN NL M)) with (2 := state_after_inv lin opt s nodes hist OK SO EN) (3 := E) as (l1 & l2 & P1 & P2 & EQ).
  { intros x additional layers P. apply Forall_forall. intros m Hm. pose proof (protects_span s x (lin nodes) additional layers m P Hm) as SP. exact (span_length _ _ _ (orth_wf s x SO) SP). }
  change (sp_zero s) with zs in *. assert (S1 : forall m, In m (concat l1) -> span n (orth_checks s zs) m) by (intros m Hm; exact (protects_span s zs (lin nodes) None l1 m P1 Hm)).
  assert (S2 : forall m, In m (concat l2) -> span n (orth_checks s (negb zs)) m). { destruct full; [intros m Hm; exact (protects_span s (negb zs) _ _ l2 m P2 Hm)|subst l2; intros m []]. }
  assert (HF : full = false -> concat l2 = []) by (intros ->; now subst l2).
  destruct (C66_syndrome L distance Hx Hz xd zd c rre od fuel0 zs det circ (concat l1) (concat l2) full qc OX OZ RR HL HC HP S1 S2 (fun T m Hm => N1 T m (S2 m Hm)) HF EQ) as (V & R).
  exists (concat l1), (concat l2), V. split; auto. split; auto. split; auto. intros e f j Hj Le Lf A. destruct (accepted_commutes s _ _ _ _ e f R Le Lf A) as [A1 A2]. change (sp_zero s) with zs in *.
  split.
  - intros C. exact (protects_light opt s zs (lin nodes) None l1 j _ OK SO (fun l (H : None = Some l) => ltac:(discriminate H)) P1 Hj C A1).
  - intros -> C. apply (protects_light opt s (negb zs) (lin nodes) (Some (hook_errors (concat l1))) l2 j _ OK SO); auto. intros l [= <-]. apply hook_wf. apply Forall_forall. intros m Hm. exact (span_length _ _ _ (orth_wf s zs SO) (S1 m Hm)). Qed.
Print Assumptions C66_heuristic.
(** gate_optimal_verification_circuit: the same, as long as the search did not come back empty-handed - then the layer is silently left out. *)
Theorem C66_gate_optimal : forall L distance Hx Hz xd zd c rre od fuel0 zs det circ lin opt en tmin tmax max_anc full hist nodes fuel qc,
  opt_ok Hx -> opt_ok Hz -> rre_ok rre -> ldpc_ok L -> optimizer_ok 1 opt -> (forall x k, solver_ok 1 (e_solver (en x) k)) ->
  CSSCode L distance Hx Hz xd zd = Ret c -> heuristic_prep_circuit fuel0 rre c od zs = Some circ ->
  let n := sc_n (css_stab c) in let s := StatePrepCircuit n circ c zs det in
  cnots_of (drop_front [] circ) = Ret nodes -> lin nodes <> [] -> 1 <= max_errors s ->
  ((if zs then max_x_errors s else max_z_errors s) = 1 -> forall m, span n (orth_checks s (negb zs)) m -> weight m <> 1) ->
  gate_optimal_verification_circuit fuel lin opt en s tmin tmax max_anc full (state_after lin opt s hist) = Done qc ->
  exists l1 l2 V, reads_syndrome s (concat l1) (concat l2) qc V /\
    (forall m, In m (concat l1) -> span n (orth_checks s zs) m) /\ (forall m, In m (concat l2) -> span n (orth_checks s (negb zs)) m) /\
    forall e f j, 1 <= j <= max_errors s -> length e = n -> length f = n -> accepted s qc V e f ->
      (l1 <> [] -> combination s zs (lin nodes) [] j (if zs then e else f) -> exists w, span n (stabs_of s zs) w /\ weight (vxor (if zs then e else f) w) <= max_weight s zs * j) /\
      (full = true -> l2 <> [] -> combination s (negb zs) (lin nodes) (hook_errors (concat l1)) j (if zs then f else e) -> exists w, span n (stabs_of s (negb zs)) w /\ weight (vxor (if zs then f else e) w) <= max_weight s (negb zs) * j).
Proof. intros L distance Hx Hz xd zd c rre od fuel0 zs det circ lin opt en tmin tmax ma full hist nodes fuel qc OX OZ RR HL OK EOK HC HP n s EN NL M N1 E.
  destruct (prepared_stabilized L distance Hx Hz xd zd c rre od fuel0 zs det circ OX OZ RR HL HC HP) as (G & SO & _). fold n in SO. fold s in SO.
  assert (SPAN : forall x additional layers, layers = [] \/ protects s x (lin nodes) additional layers -> forall m, In m (concat layers) -> span n (orth_checks s x) m).
  { intros x additional layers [->|P] m Hm; [destruct Hm|exact (protects_span s x (lin nodes) additional layers m P Hm)]. }
  destruct (run_layers s _ full (state_after lin opt s hist) qc (kinv2 lin s nodes) (fun x additional layers => layers = [] \/ protects s x (lin nodes) additional layers)
    (optimal_call lin opt en s tmin tmax ma nodes fuel OK EOK SO EN NL M)) with (2 := state_after_inv lin opt s nodes hist OK SO EN) (3 := E) as (l1 & l2 & P1 & P2 & EQ).
  { intros x additional layers P. apply Forall_forall. intros m Hm. exact (span_length _ _ _ (orth_wf s x SO) (SPAN x additional layers P m Hm)). }
  change (sp_zero s) with zs in *. assert (S1 : forall m, In m (concat l1) -> span n (orth_checks s zs) m) by (exact (SPAN zs None l1 P1)).
  assert (S2 : forall m, In m (concat l2) -> span n (orth_checks s (negb zs)) m). { destruct full; [exact (SPAN (negb zs) _ l2 P2)|subst l2; intros m []]. }
  assert (HF : full = false -> concat l2 = []) by (intros ->; now subst l2).
  destruct (C66_syndrome L distance Hx Hz xd zd c rre od fuel0 zs det circ (concat l1) (concat l2) full qc OX OZ RR HL HC HP S1 S2 (fun T m Hm => N1 T m (S2 m Hm)) HF EQ) as (V & R).
  exists l1, l2, V. split; auto. split; auto. split; auto. intros e f j Hj Le Lf A. destruct (accepted_commutes s _ _ _ _ e f R Le Lf A) as [A1 A2]. change (sp_zero s) with zs in *.
  split.
  - intros NE C. destruct P1 as [->|P1]; [contradiction|]. exact (protects_light opt s zs (lin nodes) None l1 j _ OK SO (fun l (H : None = Some l) => ltac:(discriminate H)) P1 Hj C A1).
  - intros -> NE C. destruct P2 as [->|P2]; [contradiction|]. apply (protects_light opt s (negb zs) (lin nodes) (Some (hook_errors (concat l1))) l2 j _ OK SO); auto. intros l [= <-]. apply hook_wf. apply Forall_forall. intros m Hm. exact (span_length _ _ _ (orth_wf s zs SO) (S1 m Hm)). Qed.
Print Assumptions C66_gate_optimal.
(** naive_verification_circuit measures every check of the code, each as often as there are correctable errors. *)
Theorem C66_naive : forall L distance Hx Hz xd zd c rre od fuel0 zs det circ qc, opt_ok Hx -> opt_ok Hz -> rre_ok rre -> ldpc_ok L ->
  CSSCode L distance Hx Hz xd zd = Ret c -> heuristic_prep_circuit fuel0 rre c od zs = Some circ ->
  let n := sc_n (css_stab c) in let s := StatePrepCircuit n circ c zs det in
  let times (rows : list vec) := concat (repeat rows (max_errors s)) in
  ((if zs then max_x_errors s else max_z_errors s) = 1 -> forall m, In m (nd_rows (if zs then css_Hx c else css_Hz c)) -> weight m <> 1) ->
  naive_verification_circuit s c = Ret qc ->
  exists V, reads_syndrome s (times (nd_rows (if zs then css_Hz c else css_Hx c))) (times (nd_rows (if zs then css_Hx c else css_Hz c))) qc V.
Proof. intros L distance Hx Hz xd zd c rre od fuel0 zs det circ qc OX OZ RR HL HC HP n s times N1 E. unfold naive_verification_circuit in E. fold (times (nd_rows (css_Hx c))) (times (nd_rows (css_Hz c))) in E.
  assert (IT : forall rows m, In m (times rows) -> In m rows). { intros rows m Hm. apply in_concat in Hm as (l & Hl & Hm). apply repeat_spec in Hl. now subst. }
  pose proof (StatePrepCircuit_ok L distance Hx Hz xd zd c circ zs det OX OZ HL HC) as SO. fold n in SO. fold s in SO.
  assert (IX : forall m, In m (nd_rows (css_Hx c)) -> span n (orth_checks s false) m). { intros m Hm. apply span_in; [exact (orth_wf s false SO)|]. unfold s, orth_checks, StatePrepCircuit. cbn [sp_xc]. destruct zs; auto. apply in_app_iff. auto. }
  assert (IZ : forall m, In m (nd_rows (css_Hz c)) -> span n (orth_checks s true) m). { intros m Hm. apply span_in; [exact (orth_wf s true SO)|]. unfold s, orth_checks, StatePrepCircuit. cbn [sp_zc]. destruct zs; auto. apply in_app_iff. auto. }
  apply (C66_syndrome L distance Hx Hz xd zd c rre od fuel0 zs det circ _ _ true qc OX OZ RR HL HC HP).
  - intros m Hm. apply IT in Hm. destruct zs; [now apply IZ|now apply IX].
  - intros m Hm. apply IT in Hm. destruct zs; [now apply IX|now apply IZ].
  - intros T m Hm. apply IT in Hm. now apply N1.
  - discriminate.
  - destruct zs; exact E. Qed.
Print Assumptions C66_naive.
(** ** non-vacuity for C66: the [[4,2,2]] code.  The heuristic circuit is verified with one ancilla; measuring a second layer as well needs a flag. *)
Definition checks_422 := Some (mkNd 4 [[true;true;true;true]]).
Definition circ_422 : list gate := [GH 0; GCX 0 2; GCX 2 3; GCX 0 1].
Example C66_nonvacuous : opt_ok checks_422 /\ rre_ok rre_ref /\ ldpc_ok ldpc_ref /\ optimizer_ok 1 cl_ref /\ ord_ok (fun l => l) /\
  exists c, CSSCode ldpc_ref 2 checks_422 checks_422 None None = Ret c /\ heuristic_prep_circuit 50 rre_ref c true true = Some circ_422 /\
  let s := StatePrepCircuit 4 circ_422 c true false in
  sc_n (css_stab c) = 4 /\ max_errors s = 1 /\ max_x_errors s = 1 /\ (forall m, span 4 (orth_checks s false) m -> weight m <> 1) /\
  (exists qc, heuristic_verification_circuit 50 (fun l => l) (fun l => l) cl_ref s 10 false false (state_after (fun l => l) cl_ref s []) = Done qc /\
     qc_ins qc = map ins_of circ_422 ++ [ICX 0 4; ICX 2 4; IM 4 0]) /\
  (exists qc V, measure_ft_stabs s [[true;true;true;true]] [[true;false;true;false]] true = Ret qc /\ reads_syndrome s [[true;false;true;false]] [[true;true;true;true]] qc V /\
     V = [ICX 0 4; ICX 2 4; IM 4 0; IH 5; ICX 5 0; ICX 5 6; ICX 5 1; ICX 5 2; ICX 5 6; IM 6 2; ICX 5 3; IH 5; IM 5 1]).
Proof. assert (OC : opt_ok checks_422) by (cbn; repeat constructor). split; auto. split; [apply rre_ref_ok|]. split; [apply ldpc_ref_ok|]. split; [apply ref_optimizer_ok; lia|]. split; [intros l; apply Permutation.Permutation_refl|].
  destruct (CSSCode ldpc_ref 2 checks_422 checks_422 None None) as [c|] eqn:EC; [|vm_compute in EC; discriminate]. exists c. split; auto. pose proof EC as EC'. vm_compute in EC'. injection EC' as EC'.
  assert (N4 : sc_n (css_stab c) = 4) by (now rewrite <- EC'). assert (HP : heuristic_prep_circuit 50 rre_ref c true true = Some circ_422) by (rewrite <- EC'; vm_compute; reflexivity). split; auto. cbv zeta.
  set (s := StatePrepCircuit 4 circ_422 c true false). assert (OX : orth_checks s false = [[true;true;true;true]]) by (unfold s; rewrite <- EC'; reflexivity).
  assert (MX : max_x_errors s = 1) by (unfold s; rewrite <- EC'; reflexivity). assert (W : forall m, span 4 (orth_checks s false) m -> weight m <> 1) by (rewrite OX; intros m (cs & Lc & <-); destruct cs as [|a [|? ?]]; try discriminate Lc; destruct a; cbn; lia).
  split; auto. split; [unfold s; rewrite <- EC'; reflexivity|]. split; auto. split; auto. split.
  - eexists. split; [unfold s; rewrite <- EC'; vm_compute; reflexivity|reflexivity].
  - destruct (measure_ft_stabs s [[true;true;true;true]] [[true;false;true;false]] true) as [qc|] eqn:EM; [|unfold s in EM; rewrite <- EC' in EM; vm_compute in EM; discriminate].
    assert (S1 : forall m, In m [[true;false;true;false]] -> span 4 (orth_checks s true) m).
    { assert (OZ : orth_checks s true = css_Lz c ++ [[true;true;true;true]]) by (unfold s; rewrite <- EC'; reflexivity). assert (LZ : css_Lz c = [[true;true;false;false];[true;false;true;false]]) by (rewrite <- EC'; reflexivity). rewrite OZ, LZ. intros m [<-|[]]. exists [false;true;false]. split; reflexivity. }
    assert (S2 : forall m, In m [[true;true;true;true]] -> span 4 (orth_checks s false) m) by (rewrite OX; intros m Hm; apply span_in; [repeat constructor|auto]).
    destruct (C66_syndrome ldpc_ref 2 checks_422 checks_422 None None c rre_ref true 50 true false circ_422 [[true;false;true;false]] [[true;true;true;true]] true qc OC OC rre_ref_ok ldpc_ref_ok EC HP) as (V & R); try (rewrite N4; first [exact S1|exact S2|exact EM|intros T m Hm; apply W, S2; exact Hm]); [discriminate|].
    rewrite N4 in R. exists qc, V. split; auto. split; auto. destruct R as (R1 & _). unfold s in EM. rewrite <- EC' in EM. vm_compute in EM. injection EM as EM. rewrite <- EM in R1. cbn in R1. now repeat (injection R1 as R1). Qed.
