(** * PropVerif: properties C37 (coset leaders), C38 (verification stabilizers), C39 (set cover) *)
From Verif Require Import VerifProofs6 RreRef Z3Ref NamedData PropPrep PropFault. From Verif Require Import VerifProofs2.
Local Open Scope nat_scope.

(** ** C37 *)
(** For every error and generators and every z3 optimizer that keeps its contract: the coset leader differs from the error by a product of generators
    and no member of the coset is lighter. *)
Theorem C37_coset_leader : forall opt n error gens, optimizer_ok 1 opt -> length error = n -> wf n gens ->
  let leader := coset_leader opt error gens in
  length leader = n /\ span n gens (vxor error leader) /\ forall w, span n gens w -> weight leader <= weight (vxor error w).
Proof. intros opt n error gens OK L WG. destruct (coset_leader_ok opt n error gens OK L WG) as (A & B & C). split; [exact B|]. split; [exact A|exact C]. Qed.
Print Assumptions C37_coset_leader.
Example C37_nonvacuous : optimizer_ok 1 cl_ref /\ coset_leader cl_ref [true;true;true] [[true;true;false]] = [false;false;true].
Proof. split; [apply ref_optimizer_ok; lia|vm_compute; reflexivity]. Qed.

(** ** C38: verification_stabilizers *)
(** [common n m e]: the number of qubits on which both act *)
Definition common (n : nat) (m e : vec) : nat := length (filter (fun q => nth q m false && nth q e false) (seq 0 n)).
(** What is returned: exactly the requested number of products of checks, within the CNOT budget, such that every fault anticommutes with one of them. *)
Theorem C38_returned : forall solver n gens faults num_anc num_cnots ms, solver_ok 1 solver -> wf n gens -> gens <> [] -> wf n faults ->
  verification_stabilizers solver n gens faults num_anc num_cnots = Some ms ->
  length ms = num_anc /\ list_sum (map weight ms) <= num_cnots /\ (forall m, In m ms -> span n gens m) /\
  (forall e, In e faults -> exists m, In m ms /\ dot m e = true /\ common n m e = 1).
Proof. intros solver n gens faults a c ms OK WG NE WF H. destruct (vs_sound n gens WG NE solver faults a c ms OK WF H) as (A & B & C & D). split; [exact A|]. split; [exact D|]. split; [exact B|].
  intros e He. destruct (C e He) as (m & Hm & O). exists m. split; auto. split; [|exact O]. apply (overlap_dot n); auto; [exact (span_length n gens m WG (B m Hm))|exact (wf_in n faults e WF He)]. Qed.
Print Assumptions C38_returned.
(** What a failure means: no family of that size and weight meets every fault in exactly one qubit (which is more than detecting it). *)
Theorem C38_none : forall solver n gens faults num_anc num_cnots, solver_ok 1 solver -> wf n gens -> gens <> [] -> wf n faults ->
  verification_stabilizers solver n gens faults num_anc num_cnots = None ->
  forall ms, length ms = num_anc -> (forall m, In m ms -> span n gens m) -> list_sum (map weight ms) <= num_cnots -> exists e, In e faults /\ forall m, In m ms -> common n m e <> 1.
Proof. intros solver n gens faults a c OK WG NE WF H. exact (vs_complete n gens WG NE solver faults a c OK WF H). Qed.
Print Assumptions C38_none.
(** The lightest representatives that fault sets are made of can always be met in one qubit, so with one ancilla per fault and enough CNOTs the search succeeds. *)
Theorem C38_enough_ancillas : forall L distance Hx Hz xd zd c circ zs det solver x faults num_anc num_cnots,
  opt_ok Hx -> opt_ok Hz -> ldpc_ok L -> CSSCode L distance Hx Hz xd zd = Ret c ->
  let n := sc_n (css_stab c) in let s := StatePrepCircuit n circ c zs det in
  solver_ok 1 solver -> orth_checks s x <> [] ->
  (forall f, In f faults -> length f = n /\ 0 < weight f /\ forall w, span n (stabs_of s x) w -> weight f <= weight (vxor f w)) ->
  length faults <= num_anc -> n * num_anc <= num_cnots -> verification_stabilizers solver n (orth_checks s x) faults num_anc num_cnots <> None.
Proof. intros L distance Hx Hz xd zd c circ zs det solver x faults na nc OX OZ HL HC n s SOK NE HF NA NC H.
  assert (SO : spc_ok s) by exact (StatePrepCircuit_ok L distance Hx Hz xd zd c circ zs det OX OZ HL HC). pose proof (orth_wf s x SO) as WO. change (sp_n s) with n in WO.
  assert (WF : wf n faults) by (apply Forall_forall; intros f Hf; now apply HF).
  assert (EX : exists ms, length ms = length faults /\ (forall m, In m ms -> span n (orth_checks s x) m) /\ forall e, In e faults -> exists m, In m ms /\ overlap n m e = 1).
  { clear - HF SO. induction faults as [|f fs IH]; [exists []; split; auto; split; intros ? []|]. destruct IH as (ms & L1 & S1 & D1); [intros g Hg; apply HF; now right|].
    destruct (HF f (or_introl eq_refl)) as (Lf & Wf & Mf). assert (EI : exists i, i < n /\ nth i f false = true).
    { destruct (Nat.eq_dec (weight f) 0) as [Z|]; [lia|]. destruct (existsb (fun i => nth i f false) (seq 0 n)) eqn:E; [apply existsb_exists in E as (i & Hi & E); apply in_seq in Hi; exists i; split; auto; lia|].
      exfalso. apply n0. apply weight_zero_iff. intros i. destruct (Nat.lt_ge_cases i n) as [Hi|Hi]; [|apply nth_overflow; unfold vec in *; lia]. destruct (nth i f false) eqn:Ei; auto. rewrite <- E. symmetry. apply existsb_exists. exists i. split; auto. apply in_seq. lia. }
    destruct EI as (i & Hi & Fi). destruct (single_out s x f i SO Lf Mf Hi Fi) as (m & Sm & Om). exists (m :: ms). split; [cbn; auto|]. split; [intros m' [<-|Hm]; auto|].
    intros e [<-|He]; [exists m; cbn; auto|]. destruct (D1 e He) as (m' & Hm' & O'). exists m'. cbn. auto. }
  destruct EX as (ms & LM & SM & DM). set (zs' := repeat (vzero n) (na - length faults)).
  destruct (vs_complete n (orth_checks s x) WO NE solver faults na nc SOK WF H (ms ++ zs')) as (e & He & N).
  - rewrite app_length, LM. unfold zs'. rewrite repeat_length. lia.
  - intros m Hm. apply in_app_iff in Hm as [Hm|Hm]; auto. apply repeat_spec in Hm. subst. apply span_zero.
  - assert (LE : forall l : mat, (forall m, In m l -> length m = n) -> list_sum (map weight l) <= n * length l).
    { clear. induction l as [|m l IH]; intros HL; [cbn; lia|]. cbn [map list_sum fold_right length]. change (fold_right Nat.add 0 (map weight l)) with (list_sum (map weight l)). specialize (IH (fun m Hm => HL m (or_intror Hm))).
      pose proof (weight_bound m) as W. rewrite (HL m (or_introl eq_refl)) in W. lia. }
    etransitivity; [apply LE|].
    + intros m Hm. apply in_app_iff in Hm as [Hm|Hm]; [exact (span_length n _ m WO (SM m Hm))|]. apply repeat_spec in Hm. subst. apply vzero_length.
    + rewrite app_length, LM. unfold zs'. rewrite repeat_length. replace (length faults + (na - length faults)) with na by lia. exact NC.
  - destruct (DM e He) as (m & Hm & O). apply (N m); auto. apply in_app_iff. auto. Qed.
Print Assumptions C38_enough_ancillas.
(** But a failure does not show that no detecting family exists: the check ZZZ detects the fault XXX, and yet nothing is found for it. *)
Theorem C38_incomplete_refuted : forall solver, solver_ok 1 solver ->
  dot [true;true;true] [true;true;true] = true /\ verification_stabilizers solver 3 [[true;true;true]] [[true;true;true]] 1 3 = None.
Proof. intros solver OK. split; [reflexivity|]. destruct (verification_stabilizers _ _ _ _ _ _) as [ms|] eqn:E; auto. exfalso.
  assert (W : wf 3 [[true;true;true]]) by (repeat constructor). assert (NE : ([[true;true;true]] : mat) <> []) by discriminate.
  destruct (vs_sound 3 [[true;true;true]] W NE solver _ _ _ _ OK W E) as (_ & S & D & _). destruct (D _ (or_introl eq_refl)) as (m & Hm & O). destruct (S m Hm) as (c & Lc & <-).
  destruct c as [|b [|? ?]]; try discriminate Lc. destruct b; vm_compute in O; discriminate. Qed.
Print Assumptions C38_incomplete_refuted.

(** ** C38: heuristic_verification_stabilizers *)
(** [layers] protect against up to max_errors errors: there is one layer per number j of errors, made of products of the opposite checks, and layer j detects every XOR of j base
    faults (propagated single faults, single-qubit errors at the end, additional faults) that no stabilizer makes as light as the threshold. *)
Definition protects (s : spc) (x : bool) (nodes : list (nat * nat)) (additional : option mat) (layers : list (list vec)) : Prop :=
  length layers = max_errors s /\
  forall j, 1 <= j <= max_errors s -> exists layer, nth_error layers (j - 1) = Some layer /\ (forall m, In m layer -> span (sp_n s) (orth_checks s x) m) /\
    let combined := ksum (sp_n s) (fun b => (In b (single_faults (sp_n s) x nodes) \/ In b (identity (sp_n s))) \/ exists l, additional = Some l /\ In b l) j in
    forall e, combined e -> (forall w, span (sp_n s) (stabs_of s x) w -> max_weight s x * j < weight (vxor e w)) -> exists m, In m layer /\ dot m e = true.
Lemma select_gen lin opt s x additional nodes kk0 : optimizer_ok 1 opt -> spc_ok s -> cnots_of (drop_front [] (sp_circ s)) = Ret nodes -> lin nodes <> [] -> 1 <= max_errors s ->
  (forall l, additional = Some l -> wf (sp_n s) l) -> kinv2 lin s nodes kk0 ->
  exists kk sets, fault_sets_for lin opt s x additional kk0 = Ret (kk, sets) /\ kinv2 lin s nodes kk /\ let sel := firstn (max_errors s) (skipn 1 sets) in
  (forall y, In y sel -> exists F, y = Some F /\ wf (sp_n s) F /\ forall f, In f F -> exists c, In c (orth_checks s x) /\ dot c f = true) /\
  forall layers, layers_ok (sp_n s) (orth_checks s x) sel layers -> protects s x (lin nodes) additional layers.
Proof. intros OK SO EN NL M WA KI. pose proof (orth_wf s x SO) as WO. pose proof (stabs_wf s x SO) as WS. set (n := sp_n s) in *.
  destruct (sets_ok lin opt s nodes OK SO EN NL x additional _ KI M WA) as (kk & sets & ES & KI' & HS). exists kk, sets. split; auto. split; auto. cbv zeta. set (sel := firstn (max_errors s) (skipn 1 sets)).
  assert (LS : max_errors s < length sets) by (destruct (HS (max_errors s) ltac:(lia)) as (F & HF & _); apply nth_error_Some; congruence).
  assert (LSEL : length sel = max_errors s) by (unfold sel; rewrite firstn_length, skipn_length; lia).
  assert (SELN : forall i, i < max_errors s -> nth_error sel i = nth_error sets (S i)).
  { intros i Hi. unfold sel. destruct sets as [|s0 sets']; [cbn in LS; lia|]. cbn [skipn nth_error]. rewrite nth_error_firstn_lt by auto. reflexivity. }
  split.
  - intros y Hy. apply In_nth_error in Hy as (i & Hi). assert (I : i < max_errors s) by (rewrite <- LSEL; apply nth_error_Some; congruence). rewrite SELN in Hi by auto.
    destruct (HS (S i) ltac:(lia)) as (F & HF & FO & _). rewrite HF in Hi. injection Hi as <-. exists F. split; auto. split; [apply Forall_forall; intros f Hf; now apply FO|].
    intros f Hf. destruct (FO f Hf) as (Lf & Wf & _ & Mf). apply detectable; auto. intros SF. specialize (Mf f SF). rewrite (vxor_self' (sp_n s)) in Mf by auto. rewrite weight_zeros in Mf. lia.
  - intros layers (LL & LO). split; [lia|]. intros j Hj. destruct (HS j Hj) as (F & HF & FS & FC). destruct (LO (j - 1) F) as (layer & NE & SPAN & DET); [rewrite SELN by lia; replace (S (j - 1)) with j by lia; auto|].
    exists layer. split; auto. split; auto. cbv zeta. intros e He HW. destruct (FC e) as (f & Hf' & SE); auto.
    destruct (DET f Hf') as (m & Hm & D). exists m. split; auto. rewrite <- D. apply (dot_equiv s x m e f SO); auto; [|now apply FS].
    apply ksum_length with (B := all_base lin s nodes x additional) (k := j); auto. intros b [Hb|(l & -> & Hb)]; [|exact (wf_in n l b (WA l eq_refl) Hb)]. destruct Hb as [Hb|Hb]; [exact (wf_in n _ b (single_faults_wf n x (lin nodes)) Hb)|exact (wf_in n _ b (identity_wf n) Hb)]. Qed.

Lemma select_ok lin opt s x additional nodes hist : optimizer_ok 1 opt -> spc_ok s -> cnots_of (drop_front [] (sp_circ s)) = Ret nodes -> lin nodes <> [] -> 1 <= max_errors s ->
  (forall l, additional = Some l -> wf (sp_n s) l) ->
  exists kk sets, fault_sets_for lin opt s x additional (state_after lin opt s hist) = Ret (kk, sets) /\ let sel := firstn (max_errors s) (skipn 1 sets) in
  (forall y, In y sel -> exists F, y = Some F /\ wf (sp_n s) F /\ forall f, In f F -> exists c, In c (orth_checks s x) /\ dot c f = true) /\
  forall layers, layers_ok (sp_n s) (orth_checks s x) sel layers -> protects s x (lin nodes) additional layers.
Proof. intros OK SO EN NL M WA. destruct (select_gen lin opt s x additional nodes _ OK SO EN NL M WA (state_after_inv lin opt s nodes hist OK SO EN)) as (kk & sets & A & _ & B). exists kk, sets. auto. Qed.

(** For every code, circuit, order of set iteration, z3 optimizer, earlier calls and additional faults: the heuristic always comes to an end, and its layers protect. *)
Theorem C38_heuristic : forall L distance Hx Hz xd zd c circ zs det lin ord opt x max_sets fcl additional hist nodes,
  opt_ok Hx -> opt_ok Hz -> ldpc_ok L -> optimizer_ok 1 opt -> ord_ok ord -> CSSCode L distance Hx Hz xd zd = Ret c ->
  let n := sc_n (css_stab c) in let s := StatePrepCircuit n circ c zs det in
  cnots_of (drop_front [] circ) = Ret nodes -> lin nodes <> [] -> 1 <= max_errors s -> (forall l, additional = Some l -> wf n l) ->
  exists F0, forall fuel, F0 <= fuel -> exists kk layers,
  heuristic_verification_stabilizers fuel lin ord opt s x max_sets fcl additional (state_after lin opt s hist) = Done (kk, layers) /\
  protects s x (lin nodes) additional layers.
Proof. intros L distance Hx Hz xd zd c circ zs det lin ord opt x max_sets fcl additional hist nodes OX OZ HL OK OO HC n s EN NL M WA.
  assert (SO : spc_ok s) by exact (StatePrepCircuit_ok L distance Hx Hz xd zd c circ zs det OX OZ HL HC). pose proof (orth_wf s x SO) as WO.
  destruct (select_ok lin opt s x additional nodes hist OK SO EN NL M WA) as (kk & sets & ES & INSEL & FIN). cbv zeta in INSEL, FIN. set (sel := firstn (max_errors s) (skipn 1 sets)) in *.
  destruct (heuristic_layers_terminate ord opt (sp_n s) (orth_checks s x) fcl max_sets WO OO sel INSEL) as (F0 & TERM). exists F0. intros fuel Hf. destruct (TERM fuel Hf) as (layers & EL). exists kk, layers.
  unfold heuristic_verification_stabilizers. rewrite ES. cbn [of_py obind fst snd]. fold sel. rewrite EL. cbn [obind]. split; [reflexivity|]. apply FIN.
  apply (heuristic_layers_sound fuel ord opt (sp_n s) (orth_checks s x) fcl max_sets WO OO OK sel layers); auto. intros F HF. destruct (INSEL _ HF) as (F' & E & W & _). now injection E as <-. Qed.
Print Assumptions C38_heuristic.

(** ** C38: gate_optimal_verification_stabilizers *)
(** Whatever the solver answers (as long as each answer is right) and whichever calls run into the time limit: the result is empty, or its layers protect. *)
Theorem C38_gate_optimal : forall L distance Hx Hz xd zd c circ zs det lin opt e x tmin tmax max_anc additional hist nodes fuel kk layers,
  opt_ok Hx -> opt_ok Hz -> ldpc_ok L -> optimizer_ok 1 opt -> (forall k, solver_ok 1 (e_solver e k)) -> CSSCode L distance Hx Hz xd zd = Ret c ->
  let n := sc_n (css_stab c) in let s := StatePrepCircuit n circ c zs det in
  cnots_of (drop_front [] circ) = Ret nodes -> lin nodes <> [] -> 1 <= max_errors s -> (forall l, additional = Some l -> wf n l) ->
  gate_optimal_verification_stabilizers fuel lin opt e s x tmin tmax max_anc additional (state_after lin opt s hist) = Done (kk, layers) ->
  layers = [] \/ protects s x (lin nodes) additional layers.
Proof. intros L distance Hx Hz xd zd c circ zs det lin opt e x tmin tmax ma additional hist nodes fuel kk layers OX OZ HL OK EOK HC n s EN NL M WA.
  assert (SO : spc_ok s) by exact (StatePrepCircuit_ok L distance Hx Hz xd zd c circ zs det OX OZ HL HC). pose proof (orth_wf s x SO) as WO.
  destruct (select_ok lin opt s x additional nodes hist OK SO EN NL M WA) as (kk' & sets & ES & INSEL & FIN). cbv zeta in INSEL, FIN. set (sel := firstn (max_errors s) (skipn 1 sets)) in *.
  unfold gate_optimal_verification_stabilizers. rewrite ES. cbn [of_py obind fst snd]. fold sel. destruct (optimal_layers _ _ _ _ _ _ _ sel 0) as [[k [ls|]]| |] eqn:EL; cbn [obind fst snd]; try discriminate; intros [= _ <-]; auto.
  right. apply FIN. eapply optimal_layers_sound; [exact WO|exact EOK| |exact EL]. intros F HF. destruct (INSEL _ HF) as (F' & E & W & _). now injection E as <-. Qed.
Print Assumptions C38_gate_optimal.
(** ** non-vacuity for C38: the heuristic circuit of the Shor code *)
Definition vs_var_dec : forall a b : vs_var, {a = b} + {a <> b}. Proof. repeat decide equality. Defined.
Example C38_nonvacuous : solver_ok 1 (ref_solve vs_var_dec empty_dec 1) /\ ord_ok (fun l => l) /\
  verification_stabilizers (ref_solve vs_var_dec empty_dec 1) 3 [[true;true;false];[false;true;true]] [[true;true;false];[false;true;true]] 1 2 = Some [[true;false;true]] /\
  exists c, CSSCode ldpc_ref 3 (Some shor_hx) (Some shor_hz) None None = Ret c /\
  let s := StatePrepCircuit (sc_n (css_stab c)) shor_circ c true false in max_errors s = 1 /\ (exists nodes, cnots_of (drop_front [] shor_circ) = Ret nodes /\ nodes <> []) /\
  forall layers, (exists nodes, cnots_of (drop_front [] shor_circ) = Ret nodes /\ protects s true nodes None layers) -> exists layer, layers = [layer] /\ layer <> [].
Proof. split; [apply ref_solver_ok; lia|]. split; [intros l; apply Permutation_refl|]. split; [vm_compute; reflexivity|].
  destruct (CSSCode ldpc_ref 3 (Some shor_hx) (Some shor_hz) None None) as [c|] eqn:EC; [|vm_compute in EC; discriminate]. exists c. split; auto. cbv zeta.
  vm_compute in EC. injection EC as EC. assert (N9 : sc_n (css_stab c) = 9) by (rewrite <- EC; reflexivity).
  set (s := StatePrepCircuit (sc_n (css_stab c)) shor_circ c true false).
  assert (ME : max_errors s = 1) by (unfold s; rewrite <- EC; reflexivity). assert (XC : sp_xc s = nd_rows shor_hx) by (unfold s; rewrite <- EC; reflexivity).
  assert (MW : max_weight s true = 1) by (unfold s; rewrite <- EC; reflexivity). assert (SN : sp_n s = 9) by exact N9.
  split; auto. split; [eexists; split; [reflexivity|discriminate]|]. intros layers (nodes & EN & LL & P). injection EN as EN. rewrite ME in *. destruct layers as [|layer [|? ?]]; try discriminate LL.
  destruct (P 1 ltac:(lia)) as (layer' & [= <-] & _ & D). exists layer. split; auto. intros ->. cbv zeta in D. rewrite SN in D.
  destruct (D (fault_error 9 true [(2,6);(0,3);(6,8);(3,4);(2,0);(6,7);(4,5);(3,2);(0,1)] 6 3)) as (m & [] & _).
  - exists (vzero 9), (fault_error 9 true [(2,6);(0,3);(6,8);(3,4);(2,0);(6,7);(4,5);(3,2);(0,1)] 6 3). split; [reflexivity|]. split; [|reflexivity]. left. left. rewrite <- EN. vm_compute. tauto.
  - intros w (cs & Lc & <-). rewrite MW. change (stabs_of s true) with (sp_xc s) in *. rewrite XC in *. destruct cs as [|a [|b [|? ?]]]; try discriminate Lc. destruct a, b; vm_compute; lia. Qed.

(** ** C39: _set_cover.  Sets of 0..n-1 are given by their characteristic vectors; [cands] lists the family in the order in which it is visited. *)
Definition covered (cover : list fset) (i : nat) : Prop := exists c, In c cover /\ nth i c false = true.
(** The result consists of members of the family and covers everything; the members were chosen one by one, each covering at least one new element and as many new
    elements as any member of the family could. *)
Theorem C39_cover : forall fuel n cands mp cover, Forall (fun c => length c = n) cands -> set_cover fuel n cands mp = Done cover ->
  incl cover cands /\ (forall i, i < n -> covered cover i) /\
  forall pre c post, cover = pre ++ c :: post ->
    let new (c' : fset) := filter (fun i => nth i c' false && negb (existsb (fun d => nth i d false) pre)) (seq 0 n) in
    new c <> [] /\ forall c', In c' cands -> length (new c') <= length (new c).
Proof. intros fuel n cands mp cover FC H. destruct (set_cover_sound n cands mp FC fuel _ [] cover (rest_init n)) as (A & B & C); auto. { intros x []. } { intros pre c post E. destruct pre; discriminate. }
  split; auto. split.
  - intros i Hi. specialize (C i Hi). unfold uncovered in C. apply negb_false_iff in C. apply existsb_exists in C. exact C.
  - intros pre c post E. destruct (B pre c post E) as [G1 G2]. cbv zeta. assert (EQ : forall c', length (filter (fun i => nth i c' false && negb (existsb (fun d => nth i d false) pre)) (seq 0 n)) = gain n pre c').
    { intros c'. unfold gain, uncovered. f_equal. apply filter_ext. intros i. apply andb_comm. }
    split; [|intros c' Hc'; rewrite !EQ; auto]. intros Z. specialize (EQ c). rewrite Z in EQ. cbn in EQ. lia. Qed.
Print Assumptions C39_cover.
(** It ends with a result if and only if the family covers everything (n turns suffice); otherwise it runs forever, or raises when the family is empty. *)
Theorem C39_terminates_iff : forall n cands mp, Forall (fun c => length c = n) cands ->
  ((exists fuel cover, set_cover fuel n cands mp = Done cover) <-> (forall i, i < n -> covered cands i)) /\
  ((forall i, i < n -> covered cands i) -> exists cover, set_cover n n cands mp = Done cover) /\
  (~ (forall i, i < n -> covered cands i) -> cands <> [] -> forall fuel, set_cover fuel n cands mp = Unfinished) /\
  (cands = [] -> 0 < n -> forall fuel, 0 < fuel -> set_cover fuel n cands mp = Failed ValueError).
Proof. intros n cands mp FC. assert (T : (forall i, i < n -> covered cands i) -> exists cover, set_cover n n cands mp = Done cover) by (intros H; apply (set_cover_complete n); auto; [apply repeat_length|rewrite weight_repeat; auto]).
  split; [|split; [exact T|split]].
  - split; [|intros H; exists n; auto]. intros (fuel & cover & H) i Hi. destruct (C39_cover fuel n cands mp cover FC H) as (I & C & _). destruct (C i Hi) as (c & Hc & E). exists c. auto.
  - intros N NE fuel. destruct (existsb (fun i => negb (existsb (fun c => nth i c false) cands)) (seq 0 n)) eqn:E.
    + apply existsb_exists in E as (i & Hi & E). apply in_seq in Hi. apply negb_true_iff in E. apply (set_cover_diverges n cands mp i); auto; [lia|]. intros c Hc. destruct (nth i c false) eqn:X; auto. rewrite <- E. symmetry. apply existsb_exists. eauto.
    + exfalso. apply N. intros i Hi. destruct (existsb (fun c => nth i c false) cands) eqn:X; [apply existsb_exists in X; exact X|]. exfalso. assert (Y : existsb (fun i => negb (existsb (fun c => nth i c false) cands)) (seq 0 n) = true) by (apply existsb_exists; exists i; split; [apply in_seq; lia|now rewrite X]). congruence.
  - intros -> Hn [|fuel] Hf; [lia|]. unfold set_cover. cbn [set_cover_loop]. rewrite weight_repeat. destruct n; [lia|]. reflexivity. Qed.
Print Assumptions C39_terminates_iff.
Example C39_nonvacuous : exists cover, set_cover 3 3 [[true;false;false];[false;true;true];[true;true;false]] (fun c => [c]) = Done cover /\ length cover = 2.
Proof. eexists. split; [vm_compute; reflexivity|reflexivity]. Qed.
