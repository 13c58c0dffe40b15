(** * PropPrep: properties C33, C34 (heuristic state preparation circuits) *)
From Verif Require Import PrepProofs3 RreRef.
Local Open Scope nat_scope.

(** ** C33 *)
(** The circuit for the zero state is a circuit of Hadamards and CNOTs on the n qubits of the code and prepares the uniform
    superposition of the products of X checks, i.e. the logical zero state. *)
Theorem C33_zero_state : forall L distance Hx Hz xd zd c rre od fuel circ, opt_ok Hx -> opt_ok Hz -> rre_ok rre ->
  CSSCode L distance Hx Hz xd zd = Ret c -> heuristic_prep_circuit fuel rre c od true = Some circ ->
  let n := sc_n (css_stab c) in
  Forall (gate_ok n) circ /\ uniform_over n (span n (nd_rows (css_Hx c))) (run n circ).
Proof. intros L distance Hx Hz xd zd c rre od fuel circ OX OZ RR HC H.
  destruct (CSSCode_inv L distance Hx Hz xd zd c OX OZ HC) as ((EX & EZ & WX & WZ & O & _ & _ & En & _ & _) & _).
  cbv zeta. rewrite En. unfold heuristic_prep_circuit in H. rewrite EX in H. rewrite EX. cbn [nd_cols nd_rows] in *. set (n := nd_cols (hx_of Hx Hz)) in *.
  destruct (hloop _ _ _ _ _ _) as [s|] eqn:E; [|discriminate]. injection H as <-.
  destruct (hloop_inv rre n _ od _ fuel RR WX _ _ (hinv_init n _ WX) E) as (HI & RD). pose proof (hinv_rank n _ _ s WX HI) as RK. destruct HI as (WC & LM & CN & T & SP). split.
  - unfold build_circuit. apply Forall_app. split; apply Forall_forall; intros g Hg; apply in_map_iff in Hg.
    + destruct Hg as (q & <- & Hq). apply filter_In in Hq as [Hq _]. apply in_seq in Hq. cbn. lia.
    + destruct Hg as ([i j] & <- & Hq). apply in_rev in Hq. pose proof (proj1 (Forall_forall _ _) CN _ Hq) as CQ. cbn in *. tauto.
  - apply build_zero; auto. rewrite RK. auto. Qed.
Print Assumptions C33_zero_state.

(** The circuit for the plus state prepares the uniform superposition of all strings orthogonal to the Z checks, i.e. of
    the products of X checks and logical X operators. *)
Theorem C33_plus_state : forall L distance Hx Hz xd zd c rre od fuel circ, opt_ok Hx -> opt_ok Hz -> rre_ok rre -> ldpc_ok L ->
  CSSCode L distance Hx Hz xd zd = Ret c -> heuristic_prep_circuit fuel rre c od false = Some circ ->
  let n := sc_n (css_stab c) in
  Forall (gate_ok n) circ /\ uniform_over n (in_kernel n (nd_rows (css_Hz c))) (run n circ) /\
  uniform_over n (span n (nd_rows (css_Hx c) ++ css_Lx c)) (run n circ).
Proof. intros L distance Hx Hz xd zd c rre od fuel circ OX OZ RR HL HC H.
  destruct (CSSCode_inv L distance Hx Hz xd zd c OX OZ HC) as ((EX & EZ & WX & WZ & O & ELx & ELz & En & _ & _) & _).
  cbv zeta. rewrite En. unfold heuristic_prep_circuit in H. rewrite EZ in H. rewrite EZ, EX. cbn [nd_cols nd_rows] in *. set (n := nd_cols (hx_of Hx Hz)) in *.
  destruct (hloop _ _ _ _ _ _) as [s|] eqn:E; [|discriminate]. injection H as <-.
  destruct (hloop_inv rre n _ od _ fuel RR WZ _ _ (hinv_init n _ WZ) E) as (HI & RD). pose proof (hinv_rank n _ _ s WZ HI) as RK. destruct HI as (WC & LM & CN & T & SP). split; [|].
  - unfold build_circuit. apply Forall_app. split; apply Forall_forall; intros g Hg; apply in_map_iff in Hg.
    + destruct Hg as (q & <- & Hq). apply filter_In in Hq as [Hq _]. apply in_seq in Hq. cbn. lia.
    + destruct Hg as ([i j] & <- & Hq). apply in_rev in Hq. pose proof (proj1 (Forall_forall _ _) CN _ Hq) as CQ. cbn in *. intuition.
  - assert (U : uniform_over n (in_kernel n (nd_rows (hz_of Hx Hz))) (run n (build_circuit n (h_cnots s) (h_checks s) false))) by (apply build_plus; auto; rewrite RK; auto).
    split; auto. intros x Hx0. destruct (U x Hx0) as [U1 U2].
    assert (EQ : span n (nd_rows (hx_of Hx Hz) ++ css_Lx c) x <-> in_kernel n (nd_rows (hz_of Hx Hz)) x).
    { pose proof (orthogonal_kernel n _ _ WX (orthogonal_sym _ _ O)) as OK.
      destruct (compute_logical_spec L n _ _ HL WZ WX OK) as (WL & KL & (WB & _ & SB) & _). rewrite <- ELx in *.
      destruct HL as (HN & HB & _). destruct (HN n _ WZ) as (_ & _ & SK). destruct (HB n _ WX) as (WI & _ & SI).
      rewrite <- SK, <- SB. split; apply span_incl; auto; try (apply wf_app; auto).
      - intros r Hr. apply in_app_iff in Hr as [Hr|Hr]; [|apply span_in; auto; apply in_app_iff; auto]. apply span_app_l; auto. apply SI. now apply span_in.
      - intros r Hr. apply in_app_iff in Hr as [Hr|Hr]; [|apply span_in; [apply wf_app; auto|apply in_app_iff; auto]]. apply span_app_l; auto. apply SI. now apply span_in. }
    rewrite EQ. auto. Qed.
Print Assumptions C33_plus_state.

(** Hence the prepared state is fixed by every X check, every Z check and every logical Z (X) operator. *)
Theorem C33_stabilized : forall L distance Hx Hz xd zd c rre od fuel zero_state circ, opt_ok Hx -> opt_ok Hz -> rre_ok rre -> ldpc_ok L ->
  CSSCode L distance Hx Hz xd zd = Ret c -> heuristic_prep_circuit fuel rre c od zero_state = Some circ ->
  let n := sc_n (css_stab c) in let psi := run n circ in
  (exists x, length x = n /\ psi x <> 0%Z) /\
  (forall g, In g (nd_rows (css_Hx c)) -> state_eq n (op_X g psi) psi) /\
  (forall z, In z (nd_rows (css_Hz c)) -> state_eq n (op_Z z psi) psi) /\
  (if zero_state then forall z, In z (css_Lz c) -> state_eq n (op_Z z psi) psi else forall g, In g (css_Lx c) -> state_eq n (op_X g psi) psi).
Proof. intros L distance Hx Hz xd zd c rre od fuel zs circ OX OZ RR HL HC H.
  assert (GEN : exists S, wf (sc_n (css_stab c)) S /\ uniform_over (sc_n (css_stab c)) (span (sc_n (css_stab c)) S) (run (sc_n (css_stab c)) circ) /\
     (forall g, In g (nd_rows (css_Hx c)) -> In g S) /\ (forall z, In z (nd_rows (css_Hz c)) -> forall g, In g S -> dot z g = false) /\
     (if zs then forall z, In z (css_Lz c) -> forall g, In g S -> dot z g = false else forall g, In g (css_Lx c) -> In g S)).
  { destruct (CSSCode_inv L distance Hx Hz xd zd c OX OZ HC) as ((EX & EZ & WX & WZ & O & ELx & ELz & En & _ & _) & _).
    pose proof (orthogonal_kernel _ _ _ WX (orthogonal_sym _ _ O)) as OK1. destruct (compute_logical_spec L _ _ _ HL WZ WX OK1) as (WL & KL & _). rewrite <- ELx in *.
    pose proof (orthogonal_kernel _ _ _ WZ O) as OK2. destruct (compute_logical_spec L _ _ _ HL WX WZ OK2) as (WL2 & KL2 & _). rewrite <- ELz in *.
    destruct zs.
    - destruct (C33_zero_state L distance Hx Hz xd zd c rre od fuel circ OX OZ RR HC H) as (_ & U). rewrite En in *. exists (nd_rows (css_Hx c)).
      rewrite EX in *. rewrite EZ. cbn [nd_rows] in *. split; auto. split; auto. split; auto. split; [intros; rewrite dot_comm; now apply O|].
      intros z Hz0 g Hg. rewrite dot_comm. now apply (KL2 z Hz0).
    - destruct (C33_plus_state L distance Hx Hz xd zd c rre od fuel circ OX OZ RR HL HC H) as (_ & _ & U). rewrite En in *. exists (nd_rows (css_Hx c) ++ css_Lx c).
      rewrite EX in *. rewrite EZ. cbn [nd_rows] in *. split; [apply wf_app; auto|]. split; auto. split; [intros; apply in_app_iff; auto|]. split; [|intros; apply in_app_iff; auto].
      intros z Hz0 g Hg. apply in_app_iff in Hg as [Hg|Hg]; [rewrite dot_comm; now apply O|]. now apply (KL g Hg). }
  destruct GEN as (G & WG & U & GX & GZ & GL). cbv zeta. set (n := sc_n (css_stab c)) in *.
  assert (PX : forall g, In g G -> state_eq n (op_X g (run n circ)) (run n circ)).
  { intros g Hg x Hx0. unfold op_X. assert (Lg : length g = n) by exact (wf_in n G g WG Hg). assert (LX : length (vxor x g) = n) by now apply vxor_length'.
    assert (EQ : span n G x <-> span n G (vxor x g)).
    { split; intros HS.
      - apply span_vxor; auto. now apply span_in.
      - rewrite <- (vxor_cancel_l n g x) by auto. rewrite (vxor_comm g x). apply span_vxor; auto. now apply span_in. }
    destruct (U x Hx0) as [A B], (U _ LX) as [C D]. destruct (span_dec n G x) as [I|I]; [rewrite A, C; auto; now apply EQ|]. rewrite B, D; auto. rewrite <- EQ. auto. }
  assert (PZ : forall z, (forall g, In g G -> dot z g = false) -> state_eq n (op_Z z (run n circ)) (run n circ)).
  { intros z Hz0 x Hx0. unfold op_Z. destruct (U x Hx0) as [A B]. destruct (span_dec n G x) as [I|I]; [|rewrite B by auto; apply Z.mul_0_r].
    rewrite (dot_span_zero n G z WG Hz0 x I). apply Z.mul_1_l. }
  split.
  - exists (vzero n). split; [apply vzero_length|]. rewrite (proj1 (U (vzero n) (vzero_length n)) (span_zero n G)). discriminate.
  - split; [auto|]. split; [auto|]. destruct zs; auto. Qed.
Print Assumptions C33_stabilized.

(** ** C34 *)
(** The elimination always ends, for every code, both states and with or without depth optimisation. *)
Theorem C34_terminates : forall L distance Hx Hz xd zd c rre od zero_state, opt_ok Hx -> opt_ok Hz -> rre_ok rre ->
  CSSCode L distance Hx Hz xd zd = Ret c -> exists fuel circ, forall fuel', fuel <= fuel' -> heuristic_prep_circuit fuel' rre c od zero_state = Some circ.
Proof. intros L distance Hx Hz xd zd c rre od zs OX OZ RR HC.
  destruct (CSSCode_inv L distance Hx Hz xd zd c OX OZ HC) as ((EX & EZ & WX & WZ & O & _ & _ & En & _ & _) & _).
  set (H := if zs then css_Hx c else css_Hz c). assert (WH : wf (nd_cols H) (nd_rows H)) by (unfold H; destruct zs; rewrite ?EX, ?EZ; auto).
  set (s0 := mkH (nd_rows H) (init_costs (nd_cols H) (nd_rows H)) [] []).
  destruct (hloop_terminates rre (nd_cols H) (length (nd_rows H)) od (nd_rows H) RR WH (S (meas (nd_cols H) s0)) s0) as (fuel & s' & E & _); [lia|now apply hinv_init|].
  assert (MONO : forall f s r, hloop f rre (nd_cols H) (rk (nd_cols H) (nd_rows H)) od s = Some r -> forall f', f <= f' -> hloop f' rre (nd_cols H) (rk (nd_cols H) (nd_rows H)) od s = Some r).
  { clear. induction f as [|f IH]; intros s r HS f' Hf; [discriminate|]. destruct f' as [|f']; [lia|]. cbn [hloop] in *. destruct (hstep _ _ _ _ s); auto. apply IH; auto. lia. }
  exists fuel, (build_circuit (nd_cols H) (h_cnots s') (h_checks s') zs). intros f' Hf. unfold heuristic_prep_circuit. fold H. cbv zeta. fold s0. rewrite (MONO _ _ _ E f' Hf). reflexivity. Qed.
Print Assumptions C34_terminates.

(** the states the loop goes through *)
Inductive reach (rre : nat -> mat -> mat) (n r : nat) (od : bool) (s0 : hstate) : hstate -> Prop :=
| reach_refl : reach rre n r od s0 s0
| reach_step s s' : reach rre n r od s0 s -> hstep rre n r od s = Some s' -> reach rre n r od s0 s'.

(** In every state the loop reaches, the cost table holds for all pairs of distinct columns what adding the first to the
    second would change in the number of ones; and every turn either adds, among the columns not used in the current layer,
    one column to another with the greatest possible saving, strictly lowering the number of ones, or leaves the matrix
    alone, or (with nothing to gain anywhere) makes the matrix triangular. *)
Theorem C34_costs_and_turns : forall rre od n H s, rre_ok rre -> wf n H ->
  reach rre n (rk n H) od (mkH H (init_costs n H) [] []) s ->
  (forall i j, i < n -> j < n -> i <> j ->
     zget (h_costs s) i j = (Z.of_nat (weight (vxor (col (h_checks s) i) (col (h_checks s) j))) - Z.of_nat (weight (col (h_checks s) j)))%Z) /\
  (forall s', hstep rre n (rk n H) od s = Some s' ->
     (exists i j, i < n /\ j < n /\ i <> j /\ h_cnots s' = h_cnots s ++ [(i, j)] /\ h_checks s' = coladd i j (h_checks s) /\
        colones n (h_checks s') < colones n (h_checks s) /\
        (forall a b, a < n -> b < n -> a <> b -> ~ In a (h_used s) -> ~ In b (h_used s) -> (zget (h_costs s) i j <= zget (h_costs s) a b)%Z)) \/
     (h_checks s' = h_checks s /\ h_cnots s' = h_cnots s /\ h_used s <> [] /\ h_used s' = []) \/
     (h_checks s' = rre n (h_checks s) /\ h_cnots s' = h_cnots s /\ forall i j, i < n -> j < n -> i <> j -> (0 <= zget (h_costs s) i j)%Z)).
Proof. intros rre od n H s RR W HR.
  assert (HI : hinv n (length H) H s).
  { induction HR as [|s s' HR IH HS]; [now apply hinv_init|]. apply (hstep_turn rre n (length H) (rk n H) od H s s' RR W IH HS). }
  pose proof HI as (WC & LM & CN & T & SP).
  assert (CT : forall i j, i < n -> j < n -> i <> j -> zget (h_costs s) i j = (wtsum (h_checks s) i j - wtc (h_checks s) j)%Z).
  { intros i j Hi Hj N. rewrite T by auto. destruct (Nat.eqb_spec i j); [contradiction|auto]. }
  split; [exact CT|]. intros s' HS. destruct (hstep_turn rre n (length H) (rk n H) od H s s' RR W HI HS) as (_ & TU & _).
  destruct TU as [i j Hi Hj N Hw MIN E1 E2|U1 U2 E1 E2|U1 U2 ST E1 E2].
  - left. exists i, j. repeat split; auto.
    + rewrite E1. now apply colones_coladd.
    + intros a b Ha Hb Nab Ua Ub. rewrite !CT by auto. auto.
  - right. left. auto.
  - right. right. split; auto. split; auto. intros i j Hi Hj N. rewrite CT by auto. unfold wtsum, wtc. specialize (ST i j Hi Hj N). lia. Qed.
Print Assumptions C34_costs_and_turns.

(** The layers: without depth optimization no qubit is ever set aside; with it, the qubits set aside are exactly those of the CNOTs of the current layer - the last CNOTs chosen - which act on
    different qubits, and the turns that do not add a CNOT start a new layer or leave the (empty) layer. *)
Theorem C34_layers : forall rre od n H s, rre_ok rre -> wf n H -> reach rre n (rk n H) od (mkH H (init_costs n H) [] []) s ->
  (od = false -> h_used s = []) /\
  (od = true -> exists earlier layer, h_cnots s = earlier ++ layer /\ h_used s = flat_map (fun p => [fst p; snd p]) layer /\ NoDup (flat_map (fun p => [fst p; snd p]) layer)).
Proof. intros rre od n H s RR W HR.
  assert (HI : hinv n (length H) H s).
  { induction HR as [|s s' HR IH HS]; [now apply hinv_init|]. apply (hstep_turn rre n (length H) (rk n H) od H s s' RR W IH HS). }
  induction HR as [|s s' HR IH HS]; [split; auto; intros _; exists [], []; repeat split; constructor|].
  assert (HI0 : hinv n (length H) H s). { clear IH HS HI. induction HR as [|s s2 HR IH HS]; [now apply hinv_init|]. apply (hstep_turn rre n (length H) (rk n H) od H s s2 RR W IH HS). }
  specialize (IH HI0). destruct IH as [IH0 IH1]. pose proof HI0 as (WC & LM & CN & T & SP).
  unfold hstep in HS. destruct (is_reduced n (rk n H) (h_checks s)); [discriminate|].
  destruct (forallb _ _ || _) eqn:EF.
  - destruct (h_used s) eqn:EU; injection HS as <-; cbn [h_used h_cnots] in *.
    + split; auto.
    + split; auto. intros _. exists (h_cnots s), []. rewrite app_nil_r. repeat split; constructor.
  - destruct (unmasked n (h_used s)) as [|p um] eqn:EM; [injection HS as <-; auto|].
    destruct (argmin (h_costs s) p um) as [i j] eqn:EA. injection HS as <-. cbn [h_used h_cnots].
    destruct od; [|split; [intros _; apply IH0; auto|discriminate]]. split; [discriminate|]. intros _. destruct (IH1 eq_refl) as (e & l & E1 & E2 & ND).
    pose proof (argmin_in (h_costs s) um p) as AI. pose proof (argmin_le (h_costs s) um p) as AM. rewrite EA in AI, AM. cbn [fst snd] in AM. rewrite <- EM in AI. unfold unmasked in AI. apply filter_In in AI as [PI AI]. apply andb_true_iff in AI as [Ni Nj]. apply negb_true_iff in Ni, Nj.
    assert (NI : forall q, existsb (Nat.eqb q) (h_used s) = false -> ~ In q (h_used s)). { intros q E I. assert (existsb (Nat.eqb q) (h_used s) = true); [|congruence]. apply existsb_exists. exists q. split; auto. apply Nat.eqb_refl. }
    assert (NE : i <> j).
    { intros ->. apply orb_false_iff in EF as [EF _]. assert (X : forallb (fun '(i, j) => (0 <=? zget (h_costs s) i j)%Z) (unmasked n (h_used s)) = true); [|rewrite EM in X; congruence].
      apply forallb_forall. rewrite EM. intros [a b] I. specialize (AM (a, b) I). cbn [fst snd] in AM. unfold pairs in PI. apply in_flat_map in PI as (q & Hq & PI). apply in_map_iff in PI as (r & [= -> ->] & Hr). apply in_seq in Hr. assert (Hj : j < n) by lia. rewrite T in AM by auto. rewrite Nat.eqb_refl in AM. apply Z.leb_le. lia. }
    exists e, (l ++ [(i, j)]). rewrite E1, flat_map_app, <- E2. cbn [flat_map fst snd app]. split; [now rewrite app_assoc|]. split; auto. rewrite <- E2 in ND.
    apply (Permutation.Permutation_NoDup (l := i :: j :: h_used s)); [rewrite <- (Permutation.Permutation_app_comm [i; j]); reflexivity|].
    constructor; [intros [I|I]; [congruence|exact (NI i Ni I)]|]. constructor; [exact (NI j Nj)|exact ND]. Qed.
Print Assumptions C34_layers.

(** ** non-vacuity: the Steane code with an executable echelon form *)
Definition steane7 : nd := mkNd 7 [[true;false;false;true;false;true;true];[false;true;false;true;true;false;true];[false;false;true;false;true;true;true]].
Example C33_steane : exists c circ, CSSCode ldpc_ref 3 (Some steane7) (Some steane7) None None = Ret c /\
  heuristic_prep_circuit 50 rre_ref c true true = Some circ /\ length circ = 11 /\ rre_ok rre_ref /\ ldpc_ok ldpc_ref.
Proof. destruct (CSSCode ldpc_ref 3 (Some steane7) (Some steane7) None None) as [c|] eqn:E; [|vm_compute in E; discriminate].
  vm_compute in E. injection E as <-. eexists _, _. split; [reflexivity|]. split; [vm_compute; reflexivity|]. split; [reflexivity|]. split; [apply rre_ref_ok|apply ldpc_ref_ok]. Qed.
