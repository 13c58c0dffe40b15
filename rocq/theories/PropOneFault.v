(** * PropOneFault: property C70 - a single fault anywhere in a verified state preparation circuit *)
From Verif Require Import VerifyModel PropPrep PropFault RreRef Z3Ref NamedData SynthProofs4 VerifProofs2.
From Verif Require Import OneFault6.
Local Open Scope nat_scope.

(** ** specification *)
(** all outcomes are 0 *)
Definition quietly (qc : qcirc) : list bool := repeat false (measurements (qc_ins qc)).
(** F is the circuit qc with a Pauli fault on the qubits of one of its instructions, directly before or after it ([with_faults] with one fault).  It is accepted if all measurements can read 0 ([possible], PropVerify) *)
Definition accepted_run (qc : qcirc) (F : list (ins + FlagPauli.pauli)) : Prop := possible (qc_nq qc) (execf F (quietly qc) (zero_ket (qc_nq qc))).
(** then the n data qubits are left in the prepared state with X error e and Z error f, and the ancillas in a basis state: amplitudes up to normalisation *)
Definition leaves_error (n : nat) (circ : list gate) (qc : qcirc) (F : list (ins + FlagPauli.pauli)) (e f : vec) : Prop :=
  length e = n /\ length f = n /\ exists (a : vec) (c1 c2 : Z), (0 < c1)%Z /\ c2 <> 0%Z /\
  forall data anc, length data = n -> length anc = qc_nc qc -> (c1 * execf F (quietly qc) (zero_ket (qc_nq qc)) (data ++ anc) = c2 * (if veqb anc a then FlagPauli.op_P (e, f) (run n circ) data else 0))%Z.
(** [near s x e] (OneFault6): some stabilizer of the prepared state brings the weight of the error of type x down to max_weight.
    The fault sets of the library leave out the faults before the first CNOT.  They matter on the qubits that a Hadamard acts on for Z errors, and on the others for X errors; here is the condition that such
    faults are light or equivalent to one of the set, up to stabilizers. *)
Definition early_faults_covered (s : spc) (x : bool) (hs : list nat) (nodes : list (nat * nat)) : Prop := forall q, q < sp_n s -> (if x then ~ In q hs else In q hs) ->
  near s x (fault_error (sp_n s) x nodes q 0) \/ exists b, In b (single_faults (sp_n s) x nodes) /\ span (sp_n s) (stabs_of s x) (vxor (fault_error (sp_n s) x nodes q 0) b).

(** ** proofs *)
Lemma execf_prep circ : forall R outs psi, execf (map inl (map ins_of circ) ++ R) outs psi = execf R outs (exec (map ins_of circ) [] psi).
Proof. induction circ as [|g circ IHc]; intros R outs psi; [reflexivity|]. destruct g as [q|c t]; cbn [map ins_of app execf exec]; apply IHc. Qed.
Lemma prep_measurements circ : measurements (map ins_of circ) = 0.
Proof. induction circ as [|[q|c t] circ IHc]; [reflexivity|exact IHc|exact IHc]. Qed.
Lemma no_error n k circ V outs : state_eq (n + k) (with_error n k circ V (vzero n) (vzero n) outs) (exec (map ins_of circ ++ V) outs (zero_ket (n + k))).
Proof. intros x Lx. unfold with_error. rewrite execf_prep. cbn [execf]. rewrite execf_inl. change outs with ([] ++ outs) at 2. rewrite exec_app by (now rewrite prep_measurements). apply (exec_ext (n + k)); auto. intros y Ly.
  assert (Z : vzero n ++ vzero k = vzero (n + k)) by (unfold vzero; now rewrite <- repeat_app). rewrite Z. now apply op_P_id. Qed.
Lemma dot_vzero_r' v k : dot v (vzero k) = false.
Proof. rewrite dot_comm. apply dot_vzero_l'. Qed.
Lemma xouts_quiet flips : xouts (repeat false (length flips)) flips = flips.
Proof. induction flips as [|b l IHl]; [reflexivity|]. cbn [length repeat xouts hd tl]. rewrite IHl. now rewrite xorb_false_l. Qed.
Lemma op_P_zero n psi : state_eq n (FlagPauli.op_P (vzero n, vzero n) psi) psi.
Proof. apply op_P_id. Qed.
Lemma eus_possible n a b : equal_up_to_sign n a b -> possible n a -> possible n b.
Proof. intros (c & _ & H) (x & Lx & NZ). exists x. split; auto. intros E. apply NZ. rewrite H by auto. rewrite E. apply Z.mul_0_r. Qed.
Lemma op_P_possible n p psi : p_ok n p -> possible n (FlagPauli.op_P p psi) -> possible n psi.
Proof. intros [L1 L2] (x & Lx & NZ). exists (vxor x (fst p)). split; [apply vxor_length'; auto|]. intros E. apply NZ. unfold FlagPauli.op_P, op_Z, op_X. rewrite E. now destruct (dot _ _). Qed.
Lemma fault_state s m1 m2 qc V F : reads_syndrome s m1 m2 qc V -> Forall (ins_ok (qc_nq qc)) (qc_ins qc) -> with_faults (qc_nq qc) 1 (qc_ins qc) F -> accepted_run qc F ->
  let r := frame F (p_id (qc_nq qc)) in quiet (snd r) /\ leaves_error (sp_n s) (sp_circ s) qc F (firstn (sp_n s) (fst (fst r))) (firstn (sp_n s) (snd (fst r))).
Proof. intros (R1 & R2 & R3 & R4 & R5) OK W A. cbv zeta. set (N := qc_nq qc) in *. set (n := sp_n s) in *. set (k := qc_nc qc) in *. pose proof (wf_fok N 1 _ F W OK) as FO.
  pose proof (frame_sound N F FO (p_id N) (quietly qc) (zero_ket N) (p_id_ok N)) as FS. rewrite (wf_instrs N 1 _ F W) in FS. pose proof (frame_flips F (p_id N)) as FL. rewrite (wf_instrs N 1 _ F W) in FL.
  assert (FS' : equal_up_to_sign N (execf F (quietly qc) (zero_ket N)) (FlagPauli.op_P (fst (frame F (p_id N))) (exec (qc_ins qc) (snd (frame F (p_id N))) (zero_ket N)))).
  { eapply eus_trans; [apply eus_sym; apply execf_eus; [exact FO|]; apply eus_refl, (op_P_id N)|]. unfold quietly in FS at 2. rewrite <- FL, xouts_quiet in FS. exact FS. }
  pose proof (frame_ok N F FO (p_id N) (p_id_ok N)) as PO. destruct (frame F (p_id N)) as [[px pz] flips]. cbn [fst snd] in *.
  destruct (R5 (vzero n) (vzero n) (vzero_length n) (vzero_length n)) as (U & c1 & c2 & C1 & C2 & ST). cbv zeta in U, ST.
  set (bit := fun b => if b <? length m1 then dot (nth b m1 []) (if sp_zero s then vzero n else vzero n) else if b <? length m1 + length m2 then dot (nth (b - length m1) m2 []) (if sp_zero s then vzero n else vzero n) else false) in *.
  assert (BZ : forall b, bit b = false). { intros b. unfold bit. destruct (b <? length m1); [destruct (sp_zero s); apply dot_vzero_r'|]. destruct (b <? length m1 + length m2); [destruct (sp_zero s); apply dot_vzero_r'|reflexivity]. }
  assert (CZ : map (fun qb : nat * nat => bit (snd qb)) (meas_bits V) = repeat false (measurements V)). { rewrite <- meas_bits_length. generalize (meas_bits V). intros l. induction l as [|x l IHl]; [reflexivity|]. cbn [map length repeat]. now rewrite BZ, IHl. }
  assert (BS : map bit (seq 0 k) = vzero k). { unfold vzero. rewrite <- (seq_length k 0) at 2. generalize (seq 0 k). intros l. induction l as [|x l IHl]; [reflexivity|]. cbn [map length repeat]. now rewrite BZ, IHl. }
  assert (U' : forall outs, length outs = measurements V -> possible (n + k) (with_error n k (sp_circ s) V (vzero n) (vzero n) outs) -> outs = map (fun qb : nat * nat => bit (snd qb)) (meas_bits V)) by exact U.
  assert (ST' : forall data anc : vec, length data = n -> length anc = k -> (c1 * with_error n k (sp_circ s) V (vzero n) (vzero n) (map (fun qb : nat * nat => bit (snd qb)) (meas_bits V)) (data ++ anc) = c2 * (if veqb anc (map bit (seq 0 k)) then FlagPauli.op_P (vzero n, vzero n) (run n (sp_circ s)) data else 0))%Z) by exact ST.
  clear U ST. rename U' into U. rename ST' into ST. rewrite CZ in U, ST. rewrite BS in ST.
  assert (MV : measurements (qc_ins qc) = measurements V) by (rewrite R1, measurements_app, prep_measurements; reflexivity).
  assert (FZ : flips = repeat false (measurements V)).
  { apply U; [congruence|]. assert (PP : possible N (exec (qc_ins qc) flips (zero_ket N))). { apply (op_P_possible N (px, pz)); auto. apply (eus_possible N (execf F (quietly qc) (zero_ket N))); auto. }
    destruct PP as (x & Lx & NZ). unfold N in *. rewrite R2 in *. exists x. split; auto. rewrite no_error by auto. rewrite <- R1. exact NZ. }
  split; [intros b Hb; rewrite FZ in Hb; now apply repeat_spec in Hb|]. destruct PO as [L1 L2]. cbn [fst snd] in *. assert (EN : N = n + k) by (unfold N; exact R2).
  split; [rewrite firstn_length; unfold vec in *; lia|]. split; [rewrite firstn_length; unfold vec in *; lia|].
  set (e := firstn n px). set (f := firstn n pz). set (a := skipn n px). set (b := skipn n pz). assert (Le : length e = n) by (unfold e; rewrite firstn_length; unfold vec in *; lia). assert (Lf : length f = n) by (unfold f; rewrite firstn_length; unfold vec in *; lia).
  assert (La : length a = k) by (unfold a; rewrite skipn_length; unfold vec in *; lia). assert (Lb : length b = k) by (unfold b; rewrite skipn_length; unfold vec in *; lia).
  assert (EX : px = e ++ a) by (unfold e, a; now rewrite firstn_skipn). assert (EZ : pz = f ++ b) by (unfold f, b; now rewrite firstn_skipn).
  destruct FS' as (sg & SG & FE). exists a, c1, (sg * (if dot b a then -1 else 1) * c2)%Z. split; auto. split; [destruct (dot b a), SG as [-> | ->]; lia|].
  intros data anc Ld Lc. assert (LD : length (data ++ anc) = N) by (rewrite app_length; unfold vec in *; lia). rewrite FE by auto. unfold FlagPauli.op_P at 1. cbn [fst snd]. unfold op_Z at 1. unfold op_X at 1. rewrite EX, EZ.
  assert (VX : vxor (data ++ anc) (e ++ a) = vxor data e ++ vxor anc a) by (apply vxor_app; congruence). rewrite VX. rewrite dot_app by congruence.
  assert (LV : length (vxor data e ++ vxor anc a) = N) by (rewrite <- VX; apply vxor_length'; auto; rewrite app_length; unfold vec in *; lia).
  specialize (ST (vxor data e) (vxor anc a) ltac:(now apply vxor_length') ltac:(now apply vxor_length')). rewrite (no_error n k (sp_circ s) V) in ST by (rewrite LV; exact EN). rewrite <- R1 in ST. rewrite FZ. rewrite EN.
  set (X := exec (qc_ins qc) (repeat false (measurements V)) (zero_ket (n + k)) (vxor data e ++ vxor anc a)) in *.
  assert (VE : veqb (vxor anc a) (vzero k) = veqb anc a).
  { destruct (veqb anc a) eqn:E1.
    - apply veqb_eq in E1. subst anc. apply veqb_eq. now apply vxor_self'.
    - destruct (veqb (vxor anc a) (vzero k)) eqn:E2; auto. apply veqb_eq in E2. assert (HA : anc = a). { rewrite <- (vxor_cancel_l k a anc) by auto. rewrite (vxor_comm a anc), E2. apply vxor_zero_r. unfold vec in *; lia. } apply veqb_eq in HA. congruence. }
  rewrite VE in ST. destruct (veqb anc a) eqn:EA.
  - apply veqb_eq in EA. subst anc. rewrite (op_P_zero n) in ST by (now apply vxor_length'). unfold FlagPauli.op_P, op_Z, op_X. cbn [fst snd].
    transitivity (sg * (if xorb (dot f data) (dot b a) then -1 else 1) * (c1 * X))%Z; [destruct (xorb _ _); ring|]. rewrite ST. destruct (dot f data), (dot b a); cbn [xorb]; ring.
  - assert (X = 0)%Z as -> by nia. destruct (xorb _ _); ring. Qed.
Definition h_of (g : gate) : list nat := match g with GH q => [q] | _ => [] end.
Lemma h_of_split hs l : flat_map h_of (map GH hs ++ map gcx l) = hs.
Proof. rewrite flat_map_app. assert (E : flat_map h_of (map gcx l) = []) by (induction l; auto). rewrite E, app_nil_r. induction hs as [|h hs IHh]; [reflexivity|]. cbn. now rewrite IHh. Qed.
Lemma prep_facts L distance Hx Hz xd zd c rre od fuel0 zs det circ hs nodes : opt_ok Hx -> opt_ok Hz -> rre_ok rre -> ldpc_ok L ->
  CSSCode L distance Hx Hz xd zd = Ret c -> heuristic_prep_circuit fuel0 rre c od zs = Some circ -> circ = map GH hs ++ map gcx nodes ->
  let n := sc_n (css_stab c) in let s := StatePrepCircuit n circ c zs det in
  NoDup hs /\ (forall q, In q hs -> q < n) /\ cn_ok n nodes /\ uniform_over n (span n (sp_xc s)) (run n circ).
Proof. intros OX OZ RR HL HC HP EC. cbv zeta. set (n := sc_n (css_stab c)). set (s := StatePrepCircuit n circ c zs det).
  assert (G : Forall (gate_ok n) circ) by (destruct zs; [exact (proj1 (C33_zero_state L distance Hx Hz xd zd c rre od fuel0 circ OX OZ RR HC HP))|exact (proj1 (C33_plus_state L distance Hx Hz xd zd c rre od fuel0 circ OX OZ RR HL HC HP))]).
  split; [|split; [|split]].
  - unfold heuristic_prep_circuit in HP. destruct (hloop _ _ _ _ _ _) as [st|]; [|discriminate]. injection HP as HP. destruct (build_hc (nd_cols (if zs then css_Hx c else css_Hz c)) (h_checks st) (h_cnots st) zs) as (hs' & EB & ND & _). rewrite EB in HP. unfold hc_circuit in HP.
    assert (EG : map (fun '(c, t) => GCX c t) (elim zs (h_cnots st)) = map gcx (elim zs (h_cnots st))) by (apply map_ext; intros [u v]; reflexivity). rewrite EG in HP. rewrite <- (h_of_split hs nodes), <- EC, <- HP, h_of_split. exact ND.
  - rewrite EC in G. apply Forall_app in G as [G _]. intros q Hq. apply (proj1 (Forall_forall _ _) G (GH q)). now apply in_map.
  - rewrite EC in G. apply Forall_app in G as [_ G]. apply Forall_forall. intros g Hg. exact (proj1 (Forall_forall _ _) G (gcx g) (in_map _ _ _ Hg)).
  - unfold s, StatePrepCircuit. cbn [sp_xc]. destruct zs; [exact (proj2 (C33_zero_state L distance Hx Hz xd zd c rre od fuel0 circ OX OZ RR HC HP))|].
    pose proof (proj2 (proj2 (C33_plus_state L distance Hx Hz xd zd c rre od fuel0 circ OX OZ RR HL HC HP))) as U. pose proof (StatePrepCircuit_ok L distance Hx Hz xd zd c circ false det OX OZ HL HC) as SO. fold n in SO. fold s in SO. assert (WX : wf n (css_Lx c ++ nd_rows (css_Hx c))) by apply SO.
    assert (WX2 : wf n (nd_rows (css_Hx c) ++ css_Lx c)) by (apply Forall_app in WX as [W1 W2]; apply Forall_app; auto).
    assert (EQ : forall v, span n (css_Lx c ++ nd_rows (css_Hx c)) v <-> span n (nd_rows (css_Hx c) ++ css_Lx c) v).
    { intros v. split; intros Hv; [apply (span_incl_in n (css_Lx c ++ nd_rows (css_Hx c)))|apply (span_incl_in n (nd_rows (css_Hx c) ++ css_Lx c))]; auto; intros r Hr; apply in_app_iff; apply in_app_iff in Hr; tauto. }
    intros x Lx. destruct (U x Lx) as [U1 U2]. split; intros H; [apply U1, EQ, H|apply U2; intros K; apply H, EQ, K]. Qed.
Lemma early_all L distance Hx Hz xd zd c rre od fuel0 zs det circ hs nodes x : opt_ok Hx -> opt_ok Hz -> rre_ok rre -> ldpc_ok L ->
  CSSCode L distance Hx Hz xd zd = Ret c -> heuristic_prep_circuit fuel0 rre c od zs = Some circ -> circ = map GH hs ++ map gcx nodes ->
  let n := sc_n (css_stab c) in let s := StatePrepCircuit n circ c zs det in early_faults_covered s x hs nodes -> others_covered s x nodes.
Proof. intros OX OZ RR HL HC HP EC n s EF q Hq. destruct (prep_facts L distance Hx Hz xd zd c rre od fuel0 zs det circ hs nodes OX OZ RR HL HC HP EC) as (ND & HS & CN & U).
  pose proof (StatePrepCircuit_ok L distance Hx Hz xd zd c circ zs det OX OZ HL HC) as SO. fold n in SO, HS, CN, U. fold s in SO, U.
  assert (DEC : (if x then In q hs else ~ In q hs) \/ (if x then ~ In q hs else In q hs)) by (destruct x; destruct (in_dec Nat.eq_dec q hs); auto). destruct DEC as [I|I]; [|now apply EF].
  assert (FH : Forall (fun q => q < n) hs) by (apply Forall_forall; auto).
  assert (NP : forall p : nat * nat, In p (firstn 0 nodes) -> source x p <> q) by (intros p []).
  left. pose proof (C35_remaining_faults L distance Hx Hz xd zd c circ zs det (fun l => l) x nodes hs OX OZ HL HC EC ND FH CN (reorder_refl nodes) U q 0 Hq (Nat.le_0_l _) NP) as [_ K].
  exists (fault_error n x nodes q 0). split; [exact (K I)|]. rewrite (vxor_self' n) by apply fault_error_length. rewrite weight_zeros. lia. Qed.
Lemma reorder_len l l' : reorder l l' -> length l = length l'.
Proof. induction 1; auto; [now rewrite !app_length|congruence]. Qed.
Lemma one_fault_core L distance Hx Hz xd zd c rre od fuel0 zs det circ lin (opt : cl_solver) full nodes hs l1 l2 qc :
  opt_ok Hx -> opt_ok Hz -> rre_ok rre -> ldpc_ok L -> optimizer_ok 1 opt -> 
  CSSCode L distance Hx Hz xd zd = Ret c -> heuristic_prep_circuit fuel0 rre c od zs = Some circ ->
  let n := sc_n (css_stab c) in let s := StatePrepCircuit n circ c zs det in
  circ = map GH hs ++ map gcx nodes -> reorder nodes (lin nodes) -> 1 <= max_errors s ->
  ((if zs then max_x_errors s else max_z_errors s) = 1 -> forall m, span n (orth_checks s (negb zs)) m -> weight m <> 1) ->
  early_faults_covered s zs hs nodes -> (full = true -> early_faults_covered s (negb zs) hs nodes) ->
  protects s zs (lin nodes) None l1 -> (if full then protects s (negb zs) (lin nodes) (Some (hook_errors (concat l1))) l2 else l2 = []) ->
  (if zs then measure_ft_stabs s (concat l2) (concat l1) full else measure_ft_stabs s (concat l1) (concat l2) full) = Ret qc ->
  exists V, reads_syndrome s (concat l1) (concat l2) qc V /\ ((full = true -> forall m, In m (concat l1) -> weight m <= 2 * max_weight s (negb zs) + 1) ->
    forall F, with_faults (qc_nq qc) 1 (qc_ins qc) F -> accepted_run qc F ->
      exists e f, leaves_error n circ qc F e f /\ near s zs (if zs then e else f) /\ (full = true -> near s (negb zs) (if zs then f else e))).
Proof. intros OX OZ RR HL OK HC HP n s EC RO M N1 EF1 EF2 P1 P2 EQ.
  destruct (prepared_stabilized L distance Hx Hz xd zd c rre od fuel0 zs det circ OX OZ RR HL HC HP) as (G & SO & _). fold n in SO. fold s in SO.
  assert (S1 : forall m, In m (concat l1) -> span n (orth_checks s zs) m) by (intros m Hm; exact (protects_span s zs (lin nodes) None l1 m P1 Hm)).
  assert (S2 : forall m, In m (concat l2) -> span n (orth_checks s (negb zs)) m). { destruct full; [intros m Hm; exact (protects_span s (negb zs) _ _ l2 m P2 Hm)|subst l2; intros m []]. }
  assert (HF : full = false -> concat l2 = []) by (intros ->; now subst l2).
  destruct (C66_syndrome L distance Hx Hz xd zd c rre od fuel0 zs det circ (concat l1) (concat l2) full qc OX OZ RR HL HC HP S1 S2 (fun T m Hm => N1 T m (S2 m Hm)) HF EQ) as (V & R). fold n in R. fold s in R.
  exists V. split; auto. intros HW F W A. destruct (prep_facts L distance Hx Hz xd zd c rre od fuel0 zs det circ hs nodes OX OZ RR HL HC HP EC) as (ND & HS & CN & U). fold n in HS, CN, U.
  destruct (one_fault_near opt s nodes (lin nodes) hs l1 l2 full qc OK SO M EC ND HS CN RO) as [OKI NEAR]; auto.
  { exact (early_all L distance Hx Hz xd zd c rre od fuel0 zs det circ hs nodes zs OX OZ RR HL HC HP EC EF1). }
  { intros T. exact (early_all L distance Hx Hz xd zd c rre od fuel0 zs det circ hs nodes (negb zs) OX OZ RR HL HC HP EC (EF2 T)). }
  destruct (fault_state s (concat l1) (concat l2) qc V F R OKI W A) as [Q LE]. destruct (NEAR F W Q) as [NR1 NR2]. change (sp_zero s) with zs in *.
  exists (firstn n (fst (fst (frame F (p_id (qc_nq qc)))))), (firstn n (snd (fst (frame F (p_id (qc_nq qc)))))). split; [exact LE|]. destruct zs; split; auto. Qed.
(** ** C70 *)
(** One Pauli fault before or after any instruction of the circuit of heuristic_verification_circuit - in the preparation, in the measurements of either layer, on ancillas or flags.  If all measurements can read 0, then the data is left in the
    prepared state with an error whose part of the first type (X for the zero state) is at most max_weight heavy up to stabilizers, and with full fault tolerance its other part too.  Needed: the early faults that the fault sets
    leave out are covered, and, for full fault tolerance, the operators of the first layer have weight at most 2 max_weight + 1 (their hook errors are not searched for properly, see C45). *)
Theorem C70_one_fault : forall L distance Hx Hz xd zd c rre od fuel0 zs det circ lin ord opt max_sets fcl full hist nodes hs fuel qc,
  opt_ok Hx -> opt_ok Hz -> rre_ok rre -> ldpc_ok L -> optimizer_ok 1 opt -> ord_ok ord ->
  CSSCode L distance Hx Hz xd zd = Ret c -> heuristic_prep_circuit fuel0 rre c od zs = Some circ ->
  let n := sc_n (css_stab c) in let s := StatePrepCircuit n circ c zs det in
  cnots_of (drop_front [] circ) = Ret nodes -> circ = map GH hs ++ map gcx nodes -> reorder nodes (lin nodes) -> nodes <> [] -> 1 <= max_errors s ->
  ((if zs then max_x_errors s else max_z_errors s) = 1 -> forall m, span n (orth_checks s (negb zs)) m -> weight m <> 1) ->
  early_faults_covered s zs hs nodes -> (full = true -> early_faults_covered s (negb zs) hs nodes) ->
  heuristic_verification_circuit fuel lin ord opt s max_sets fcl full (state_after lin opt s hist) = Done qc ->
  exists m1 m2 V, reads_syndrome s m1 m2 qc V /\ ((full = true -> forall m, In m m1 -> weight m <= 2 * max_weight s (negb zs) + 1) ->
    forall F, with_faults (qc_nq qc) 1 (qc_ins qc) F -> accepted_run qc F ->
      exists e f, leaves_error n circ qc F e f /\ near s zs (if zs then e else f) /\ (full = true -> near s (negb zs) (if zs then f else e))).
Proof. intros L distance Hx Hz xd zd c rre od fuel0 zs det circ lin ord opt max_sets fcl full hist nodes hs fuel qc OX OZ RR HL OK OO HC HP n s EN EC RO NN M N1 EF1 EF2 E.
  assert (NL : lin nodes <> []) by (intros K; apply NN; apply reorder_len in RO; rewrite K in RO; now destruct nodes).
  destruct (prepared_stabilized L distance Hx Hz xd zd c rre od fuel0 zs det circ OX OZ RR HL HC HP) as (G & SO & _). fold n in SO. fold s in SO.
  destruct (run_layers s _ full (state_after lin opt s hist) qc (kinv2 lin s nodes) (fun x additional layers => protects s x (lin nodes) additional layers)
    (heuristic_call lin ord opt s max_sets fcl nodes fuel OK OO SO EN NL M)) with (2 := state_after_inv lin opt s nodes hist OK SO EN) (3 := E) as (l1 & l2 & P1 & P2 & EQ).
  { intros x additional layers P. apply Forall_forall. intros m Hm. pose proof (protects_span s x (lin nodes) additional layers m P Hm) as SP. exact (span_length _ _ _ (orth_wf s x SO) SP). }
  change (sp_zero s) with zs in *. destruct (one_fault_core L distance Hx Hz xd zd c rre od fuel0 zs det circ lin opt full nodes hs l1 l2 qc OX OZ RR HL OK HC HP EC RO M N1 EF1 EF2 P1 P2 EQ) as (V & R & H).
  exists (concat l1), (concat l2), V. split; auto. Qed.
Print Assumptions C70_one_fault.
(** The same for gate_optimal_verification_circuit, if both its searches found measurements (on a timeout they return none, see C44). *)
Theorem C70_one_fault_optimal : forall L distance Hx Hz xd zd c rre od fuel0 zs det circ lin opt en tmin tmax max_anc full hist nodes hs fuel qc,
  opt_ok Hx -> opt_ok Hz -> rre_ok rre -> ldpc_ok L -> optimizer_ok 1 opt -> (forall x k, solver_ok 1 (e_solver (en x) k)) ->
  CSSCode L distance Hx Hz xd zd = Ret c -> heuristic_prep_circuit fuel0 rre c od zs = Some circ ->
  let n := sc_n (css_stab c) in let s := StatePrepCircuit n circ c zs det in
  cnots_of (drop_front [] circ) = Ret nodes -> circ = map GH hs ++ map gcx nodes -> reorder nodes (lin nodes) -> nodes <> [] -> 1 <= max_errors s ->
  ((if zs then max_x_errors s else max_z_errors s) = 1 -> forall m, span n (orth_checks s (negb zs)) m -> weight m <> 1) ->
  early_faults_covered s zs hs nodes -> (full = true -> early_faults_covered s (negb zs) hs nodes) ->
  gate_optimal_verification_circuit fuel lin opt en s tmin tmax max_anc full (state_after lin opt s hist) = Done qc ->
  exists l1 l2 V, reads_syndrome s (concat l1) (concat l2) qc V /\ (l1 <> [] -> (full = true -> l2 <> []) -> (full = true -> forall m, In m (concat l1) -> weight m <= 2 * max_weight s (negb zs) + 1) ->
    forall F, with_faults (qc_nq qc) 1 (qc_ins qc) F -> accepted_run qc F ->
      exists e f, leaves_error n circ qc F e f /\ near s zs (if zs then e else f) /\ (full = true -> near s (negb zs) (if zs then f else e))).
Proof. intros L distance Hx Hz xd zd c rre od fuel0 zs det circ lin opt en tmin tmax ma full hist nodes hs fuel qc OX OZ RR HL OK EOK HC HP n s EN EC RO NN M N1 EF1 EF2 E.
  assert (NL : lin nodes <> []) by (intros K; apply NN; apply reorder_len in RO; rewrite K in RO; now destruct nodes).
  destruct (prepared_stabilized L distance Hx Hz xd zd c rre od fuel0 zs det circ OX OZ RR HL HC HP) as (G & SO & _). fold n in SO. fold s in SO.
  assert (SPAN : forall x additional layers, layers = [] \/ protects s x (lin nodes) additional layers -> forall m, In m (concat layers) -> span n (orth_checks s x) m).
  { intros x additional layers [->|P] m Hm; [destruct Hm|exact (protects_span s x (lin nodes) additional layers m P Hm)]. }
  destruct (run_layers s _ full (state_after lin opt s hist) qc (kinv2 lin s nodes) (fun x additional layers => layers = [] \/ protects s x (lin nodes) additional layers)
    (optimal_call lin opt en s tmin tmax ma nodes fuel OK EOK SO EN NL M)) with (2 := state_after_inv lin opt s nodes hist OK SO EN) (3 := E) as (l1 & l2 & P1 & P2 & EQ).
  { intros x additional layers P. apply Forall_forall. intros m Hm. exact (span_length _ _ _ (orth_wf s x SO) (SPAN _ _ _ P m Hm)). }
  change (sp_zero s) with zs in *. exists l1, l2.
  assert (S1 : forall m, In m (concat l1) -> span n (orth_checks s zs) m) by (intros m Hm; exact (SPAN _ _ _ P1 m Hm)).
  assert (S2 : forall m, In m (concat l2) -> span n (orth_checks s (negb zs)) m). { destruct full; [intros m Hm; exact (SPAN _ _ _ P2 m Hm)|subst l2; intros m []]. }
  assert (HF : full = false -> concat l2 = []) by (intros ->; now subst l2).
  destruct (C66_syndrome L distance Hx Hz xd zd c rre od fuel0 zs det circ (concat l1) (concat l2) full qc OX OZ RR HL HC HP S1 S2 (fun T m Hm => N1 T m (S2 m Hm)) HF EQ) as (V & R). fold n in R. fold s in R.
  exists V. split; auto. intros Z1 Z2. assert (P1' : protects s zs (lin nodes) None l1) by (destruct P1; [contradiction|auto]).
  assert (P2' : if full then protects s (negb zs) (lin nodes) (Some (hook_errors (concat l1))) l2 else l2 = []) by (destruct full; auto; destruct P2; auto; exfalso; now apply Z2).
  destruct (one_fault_core L distance Hx Hz xd zd c rre od fuel0 zs det circ lin opt full nodes hs l1 l2 qc OX OZ RR HL OK HC HP EC RO M N1 EF1 EF2 P1' P2' EQ) as (_ & _ & H). exact H. Qed.
Print Assumptions C70_one_fault_optimal.
(** ** non-vacuity: the [[4,2,2]] code with full fault tolerance.  The fault Z0 X1 after the last CNOT is accepted and leaves just that error; the dangerous fault X2 after the first CNOT, which spreads to X2 X3, is not accepted. *)
Definition fault_422 (k : nat) (p : FlagPauli.pauli) (L : list ins) : list (ins + FlagPauli.pauli) := map inl (firstn k L) ++ inr p :: map inl (skipn k L).
Example C70_one_fault_nonvacuous :
  exists c, CSSCode ldpc_ref 2 checks_422 checks_422 None None = Ret c /\ heuristic_prep_circuit 50 rre_ref c true true = Some circ_422 /\
  let s := StatePrepCircuit 4 circ_422 c true false in let nodes := [(0, 2); (2, 3); (0, 1)] in
  sc_n (css_stab c) = 4 /\ max_errors s = 1 /\ (forall m, span 4 (orth_checks s false) m -> weight m <> 1) /\
  cnots_of (drop_front [] circ_422) = Ret nodes /\ circ_422 = map GH [0] ++ map gcx nodes /\ early_faults_covered s true [0] nodes /\ early_faults_covered s false [0] nodes /\ max_weight s false = 1 /\
  exists qc, heuristic_verification_circuit 50 (fun l => l) (fun l => l) cl_ref s 10 false true (state_after (fun l => l) cl_ref s []) = Done qc /\
    qc_ins qc = map ins_of circ_422 ++ [ICX 0 4; ICX 2 4; IM 4 0] /\ qc_nq qc = 5 /\
    (let F := fault_422 4 ([false;true;false;false;false], [true;false;false;false;false]) (qc_ins qc) in with_faults 5 1 (qc_ins qc) F /\ accepted_run qc F) /\
    (let F := fault_422 2 ([false;false;true;false;false], [false;false;false;false;false]) (qc_ins qc) in with_faults 5 1 (qc_ins qc) F /\ ~ accepted_run qc F).
Proof. assert (OC : opt_ok checks_422) by (cbn; repeat constructor).
  destruct (CSSCode ldpc_ref 2 checks_422 checks_422 None None) as [c|] eqn:EC; [|vm_compute in EC; discriminate]. exists c. split; auto. pose proof EC as EC'. vm_compute in EC'. injection EC' as EC'.
  assert (N4 : sc_n (css_stab c) = 4) by (now rewrite <- EC'). assert (HP : heuristic_prep_circuit 50 rre_ref c true true = Some circ_422) by (rewrite <- EC'; vm_compute; reflexivity). split; auto. cbv zeta.
  set (s := StatePrepCircuit 4 circ_422 c true false). assert (OX : orth_checks s false = [[true;true;true;true]]) by (unfold s; rewrite <- EC'; reflexivity).
  assert (W : forall m, span 4 (orth_checks s false) m -> weight m <> 1) by (rewrite OX; intros m (cs & Lc & <-); destruct cs as [|a [|? ?]]; try discriminate Lc; destruct a; cbn; lia).
  assert (SN : sp_n s = 4) by reflexivity. assert (MW : forall x, max_weight s x = 1) by (intros x; unfold s; rewrite <- EC'; destruct x; reflexivity).
  assert (LIGHT : forall x (v : vec), length v = 4 -> weight v <= 1 -> near s x v) by (intros x v Lv Wv; exists (vzero 4); split; [apply span_zero|]; rewrite (vxor_zero_r 4) by exact Lv; now rewrite MW).
  split; auto. split; [unfold s; rewrite <- EC'; reflexivity|]. split; auto. split; [reflexivity|]. split; [reflexivity|]. split; [|split; [|split; [apply MW|]]].
  - intros q Hq NI. rewrite SN in *. destruct q as [|[|[|[|q]]]]; [exfalso; apply NI; now left| | | |lia].
    + left. apply LIGHT; [reflexivity|cbn; lia].
    + right. exists [true;true;false;false]. split; [vm_compute; auto|]. assert (SX : stabs_of s true = [[true;true;true;true]]) by exact OX. rewrite SX. exists [true]. split; reflexivity.
    + left. apply LIGHT; [reflexivity|cbn; lia].
  - intros q Hq [<-|[]]. left. apply LIGHT; [reflexivity|cbn; lia].
  - assert (E : heuristic_verification_circuit 50 (fun l => l) (fun l => l) cl_ref s 10 false true (state_after (fun l => l) cl_ref s []) = Done (mkQc (map ins_of circ_422 ++ [ICX 0 4; ICX 2 4; IM 4 0]) 5 1)) by (unfold s; rewrite <- EC'; vm_compute; reflexivity).
    eexists. split; [exact E|]. split; [reflexivity|]. split; [reflexivity|]. split; (split; [unfold fault_422; cbn [firstn skipn map app qc_ins]|]).
    + apply wf_fine, wf_fine, wf_fine, wf_after; [split; reflexivity| |repeat constructor]. intros q Hq. destruct q as [|[|[|[|[|[|q]]]]]]; first [split; reflexivity|exfalso; apply Hq; cbn; auto].
    + exists [false;true;false;false;false]. split; [reflexivity|]. vm_compute. discriminate.
    + apply wf_fine, wf_after; [split; reflexivity| |repeat constructor]. intros q Hq. destruct q as [|[|[|[|[|[|q]]]]]]; first [split; reflexivity|exfalso; apply Hq; cbn; auto].
    + intros (x & Lx & NZ). apply NZ. clear NZ. cbn [qc_nq] in Lx. do 6 (destruct x as [|? x]; [try discriminate Lx|try discriminate Lx]). repeat match goal with b : bool |- _ => destruct b end; vm_compute; reflexivity. Qed.
