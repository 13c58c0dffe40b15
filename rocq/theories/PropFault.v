(** * PropFault: properties C35, C36 (fault sets of preparation circuits) *)
From Verif Require Import FaultSem2 RreRef Z3Ref NamedData PropPrep.
Local Open Scope nat_scope.

(** ** C35 *)
(** Meaning of [fault_error]: a Pauli X (Z) on qubit q between the first i CNOTs and the others has, on every state, the same effect
    as the error [fault_error n x l q i] after all CNOTs. *)
Theorem C35_fault_meaning : forall n x l q i psi, cn_ok n l ->
  state_eq n (cx_run (skipn i l) (op_P x (unitv n q) (cx_run (firstn i l) psi))) (op_P x (fault_error n x l q i) (cx_run l psi)).
Proof. intros n x l q i psi CN. assert (CS : cn_ok n (skipn i l)).
  { apply Forall_forall. intros p Hp. apply (proj1 (Forall_forall _ _) CN). rewrite <- (firstn_skipn i l). apply in_app_iff. auto. }
  assert (E : cx_run l psi = cx_run (skipn i l) (cx_run (firstn i l) psi)). { unfold cx_run. rewrite <- fold_left_app, <- map_app. now rewrite firstn_skipn. }
  rewrite E. unfold fault_error. apply propagate_semantics; auto. apply unitv_length. Qed.
Print Assumptions C35_fault_meaning.

(** For every code, circuit, execution order of its CNOTs and history of earlier calls: each member of the returned set for one error is a
    lightest stabilizer-equivalent of a real single fault, heavier than the threshold; and every real single fault that stays above the
    threshold whatever stabilizer is added is equivalent to a member, provided the faulty qubit was already used as a control (X
    errors; target for Z errors) of an earlier CNOT.  The proviso is what is missing from the full property (see C35_refuted). *)
Theorem C35_single_faults_partial : forall L distance Hx Hz xd zd c circ zs det lin opt x reduce hist nodes k' F,
  opt_ok Hx -> opt_ok Hz -> ldpc_ok L -> optimizer_ok 1 opt -> CSSCode L distance Hx Hz xd zd = Ret c ->
  let n := sc_n (css_stab c) in let s := StatePrepCircuit n circ c zs det in
  cnots_of (drop_front [] circ) = Ret nodes -> cn_ok n nodes -> reorder nodes (lin nodes) ->
  compute_fault_set lin opt s x reduce 1 (cache_of x (state_after lin opt s hist)) = Ret (k', F) ->
  (forall f, In f F -> max_weight s x < weight f /\ (forall w, span n (stabs_of s x) w -> weight f <= weight (vxor f w)) /\
     exists q i, q < n /\ i <= length nodes /\ span n (stabs_of s x) (vxor (fault_error n x (lin nodes) q i) f)) /\
  (forall q i p, q < n -> i <= length (lin nodes) -> In p (firstn i (lin nodes)) -> source x p = q ->
     (forall w, span n (stabs_of s x) w -> max_weight s x < weight (vxor (fault_error n x (lin nodes) q i) w)) ->
     exists f, In f F /\ span n (stabs_of s x) (vxor (fault_error n x (lin nodes) q i) f)).
Proof. intros L distance Hx Hz xd zd c circ zs det lin opt x reduce hist nodes k' F OX OZ HL OK HC n s EN CN RO HF.
  assert (SO : spc_ok s) by exact (StatePrepCircuit_ok L distance Hx Hz xd zd c circ zs det OX OZ HL HC). assert (EN' : cnots_of (drop_front [] (sp_circ s)) = Ret nodes) by exact EN.
  pose proof (state_after_inv lin opt s nodes hist OK SO EN') as KI. pose proof (reorder_ok n _ _ RO CN) as CL.
  assert (CI : cache_inv lin s x nodes (cache_of x (state_after lin opt s hist))) by (destruct KI as ((? & _) & (? & _)); destruct x; auto).
  destruct (compute_inv lin opt s x nodes OK (stabs_wf s x SO) (max_weight_pos s x SO) EN' 1 reduce _ _ _ CI HF) as (_ & (FS & FC) & _). change (sp_n s) with n in *.
  assert (LEN : length (lin nodes) = length nodes) by (now apply reorder_length). unfold mat, vec in LEN.
  split.
  - intros f Hf. destruct (FS f Hf) as (Lf & Wf & (e & He & Ee) & Mf). rewrite Nat.mul_1_r in Wf. split; auto. split; auto.
    pose proof (ksum1 lin s x nodes e) as K1. apply K1 in He. destruct He as [He|He].
    + destruct (single_fault_is n x (lin nodes) e CL He) as (q & i & Hq & Hi & ->). exists q, i. split; auto. split; [rewrite <- LEN; exact Hi|exact Ee].
    + unfold identity in He. apply in_map_iff in He as (q & <- & Hq). apply in_seq in Hq. exists q, (length (lin nodes)). split; [exact (proj2 Hq)|]. split; [rewrite LEN; auto|]. unfold fault_error. rewrite skipn_all. exact Ee.
  - intros q i p Hq Hi Hp Sp HW. apply FC; [|intros w Hw; rewrite Nat.mul_1_r; auto]. apply (proj2 (ksum1 lin s x nodes (fault_error n x (lin nodes) q i))). left.
    destruct (fault_cases n x (lin nodes) q i CL Hi) as [(p' & _ & _ & H)|(N & _)]; auto. exfalso. now apply (N p Hp). Qed.
Print Assumptions C35_single_faults_partial.

(** All other faults act like a fault before the first CNOT; when the qubit starts in a state that the fault does not change (|+> for X
    errors: a Hadamard acts on it; |0> for Z errors), such a fault is a stabilizer of the prepared state and there is nothing to detect.  Hence the
    set covers every single fault of a circuit whose sources all start that way. *)
Theorem C35_remaining_faults : forall L distance Hx Hz xd zd c circ zs det lin x nodes hs,
  opt_ok Hx -> opt_ok Hz -> ldpc_ok L -> CSSCode L distance Hx Hz xd zd = Ret c ->
  let n := sc_n (css_stab c) in let s := StatePrepCircuit n circ c zs det in
  circ = map GH hs ++ map gcx nodes -> NoDup hs -> Forall (fun q => q < n) hs -> cn_ok n nodes -> reorder nodes (lin nodes) ->
  uniform_over n (span n (sp_xc s)) (run n circ) ->
  forall q i, q < n -> i <= length (lin nodes) -> (forall p, In p (firstn i (lin nodes)) -> source x p <> q) ->
  fault_error n x (lin nodes) q i = fault_error n x nodes q 0 /\
  ((if x then In q hs else ~ In q hs) -> span n (stabs_of s x) (fault_error n x (lin nodes) q i)).
Proof. intros L distance Hx Hz xd zd c circ zs det lin x nodes hs OX OZ HL HC n s EC ND FH CN RO U q i Hq Hi N.
  assert (SO : spc_ok s) by exact (StatePrepCircuit_ok L distance Hx Hz xd zd c circ zs det OX OZ HL HC). pose proof (reorder_ok n _ _ RO CN) as CL.
  assert (E : fault_error n x (lin nodes) q i = fault_error n x nodes q 0).
  { destruct (fault_cases n x (lin nodes) q i CL Hi) as [(p & Hp & Sp & _)|(_ & ->)]; [exfalso; now apply (N p Hp)|]. unfold fault_error. cbn [skipn]. symmetry. apply (reorder_prop n); auto. apply unitv_length. }
  split; auto. intros ST. rewrite E. apply (stable_stab s x (fault_error n x nodes q 0) (run n circ)); auto; [apply fault_error_length|]. rewrite EC. apply stable_fault; auto.
  - intros ->. auto. - intros ->. auto. Qed.
Print Assumptions C35_remaining_faults.

(** *** the full property is false: the circuit the library's heuristic builds for the Shor code *)
Lemma no_member n stabs (bs : mat) e (F : mat) : wf n stabs -> wf n bs -> length e = n -> (forall f, In f F -> length f = n /\ exists b, In b bs /\ span n stabs (vxor b f)) ->
  forallb (fun b => negb (forallb (fun k => negb (dot (vxor e b) k)) (kernel n stabs))) bs = true -> forall f, In f F -> ~ span n stabs (vxor e f).
Proof. intros WS WB Le_ HF C f Hf SE. destruct (HF f Hf) as (Lf & b & Hb & SB). rewrite forallb_forall in C. specialize (C b Hb). apply negb_true_iff in C.
  assert (Lb : length b = n) by exact (wf_in n bs b WB Hb). assert (H : span n stabs (vxor e b)).
  { pose proof (span_vxor n stabs _ _ WS SE SB) as H. rewrite (vxor_comm b f), <- vxor_assoc, (vxor_cancel_l n) in H; auto. }
  apply span_kernel_dec in H; auto; [congruence|now apply vxor_length']. Qed.
Definition shor_circ : list gate := map GH [0; 2] ++ map gcx [(2,6);(0,3);(6,8);(3,4);(2,0);(6,7);(4,5);(3,2);(0,1)].
Definition shor_fault : vec := [false;false;false;false;true;true;false;false;false].
(** An X on qubit 4 right after the CNOT from 3 to 4 becomes X4 X5, which is at distance two from every stabilizer, and yet no member
    of the fault set (whatever the execution order, the z3 optimizer and the history of calls) is equivalent to it.  Moreover the single product Z1 Z3 Z7 of checks
    notices every member of the fault set, but not this fault: a verified circuit measuring it accepts the faulty state. *)
Theorem C35_refuted : exists c nodes, CSSCode ldpc_ref 3 (Some shor_hx) (Some shor_hz) None None = Ret c /\
  heuristic_prep_circuit 50 rre_ref c true true = Some shor_circ /\ cnots_of (drop_front [] shor_circ) = Ret nodes /\
  let s := StatePrepCircuit 9 shor_circ c true false in
  nth_error nodes 3 = Some (3, 4) /\ fault_error 9 true nodes 4 4 = shor_fault /\
  (forall w, span 9 (sp_xc s) w -> max_weight s true < weight (vxor shor_fault w)) /\
  forall lin opt reduce hist k' F, optimizer_ok 1 opt -> reorder nodes (lin nodes) ->
    compute_fault_set lin opt s true reduce 1 (fst (state_after lin opt s hist)) = Ret (k', F) ->
    (forall f, In f F -> ~ span 9 (sp_xc s) (vxor shor_fault f)) /\
    exists m, span 9 (sp_zc s) m /\ (forall f, In f F -> dot m f = true) /\ dot m shor_fault = false.
Proof. destruct (CSSCode ldpc_ref 3 (Some shor_hx) (Some shor_hz) None None) as [c|] eqn:EC; [|vm_compute in EC; discriminate]. pose proof EC as EC0.
  assert (SO : forall circ, spc_ok (StatePrepCircuit 9 circ c true false)).
  { intros circ. assert (E9 : sc_n (css_stab c) = 9) by (vm_compute in EC; injection EC as <-; reflexivity). rewrite <- E9. apply (StatePrepCircuit_ok ldpc_ref 3 (Some shor_hx) (Some shor_hz) None None); auto using ldpc_ref_ok; repeat constructor. }
  vm_compute in EC. injection EC as EC.
  exists c, [(2,6);(0,3);(6,8);(3,4);(2,0);(6,7);(4,5);(3,2);(0,1)]. split; [reflexivity|]. split; [rewrite <- EC; vm_compute; reflexivity|]. split; [reflexivity|]. cbv zeta. split; [reflexivity|]. split; [reflexivity|].
  specialize (SO shor_circ). set (s := StatePrepCircuit 9 shor_circ c true false) in *.
  assert (MW : max_weight s true = 1) by (unfold s; rewrite <- EC; reflexivity).
  assert (XC : sp_xc s = nd_rows shor_hx) by (unfold s; rewrite <- EC; reflexivity).
  assert (ZC : sp_zc s = [[true;false;false;true;false;false;true;false;false]] ++ nd_rows shor_hz \/ sp_zc s = sp_zc s) by (right; reflexivity). clear ZC.
  assert (LW : forall w, span 9 (sp_xc s) w -> max_weight s true < weight (vxor shor_fault w)).
  { intros w (cs & Lc & <-). rewrite MW, XC in *. destruct cs as [|a [|b [|? ?]]]; try discriminate Lc. destruct a, b; vm_compute; lia. }
  split; auto. intros lin opt reduce hist k' F OK RO HF.
  set (nodes := [(2,6);(0,3);(6,8);(3,4);(2,0);(6,7);(4,5);(3,2);(0,1)]) in *.
  assert (EN : cnots_of (drop_front [] (sp_circ s)) = Ret nodes) by reflexivity.
  assert (CN : cn_ok 9 nodes) by (repeat constructor; cbn; lia).
  destruct (state_after_inv lin opt s nodes hist OK SO EN) as ((CI & _) & _).
  destruct (compute_inv lin opt s true nodes OK (stabs_wf s true SO) (max_weight_pos s true SO) EN 1 reduce _ _ _ CI HF) as (_ & (FS & _) & _).
  assert (BASE : forall f, In f F -> length f = 9 /\ 1 < weight f /\ (forall w, span 9 (sp_xc s) w -> weight f <= weight (vxor f w)) /\ exists b, In b (single_faults 9 true nodes ++ identity 9) /\ span 9 (sp_xc s) (vxor b f)).
  { intros f Hf. destruct (FS f Hf) as (Lf & Wf & (e & He & Ee) & Mf). rewrite MW in Wf. split; [exact Lf|]. split; [lia|]. split; [exact Mf|]. exists e. split; [|exact Ee]. apply ksum1 in He. apply in_app_iff. destruct He as [He|He]; [left|right]; auto.
    apply (reorder_single 9 true nodes (lin nodes) e RO CN). exact He. }
  assert (WB : wf 9 (single_faults 9 true nodes ++ identity 9)) by (apply wf_app; split; [apply single_faults_wf|apply identity_wf]).
  assert (WX : wf 9 (sp_xc s)) by apply SO. split.
  - apply (no_member 9 (sp_xc s) (single_faults 9 true nodes ++ identity 9) shor_fault F); auto.
    + intros f Hf. destruct (BASE f Hf) as (A & _ & _ & B). auto.
    + rewrite XC. vm_compute. reflexivity.
  - set (m := [false;true;false;true;false;false;false;true;false]). exists m.
    assert (SM : span 9 (sp_zc s) m). { apply span_kernel_dec; [apply SO|reflexivity|]. unfold s. rewrite <- EC. vm_compute. reflexivity. }
    split; auto. split; [|reflexivity]. intros f Hf. destruct (BASE f Hf) as (Lf & Wf & Mf & b & Hb & SB).
    assert (DB : dot m f = dot m b). { symmetry. apply (dot_equiv s true m b f SO); auto. exact (wf_in 9 _ b WB Hb). }
    rewrite DB. assert (ALL : forallb (fun b => dot m b || existsb (fun w => weight (vxor b w) <=? 1) (map (fun cs => lincomb 9 cs (nd_rows shor_hx)) [[false;false];[true;false];[false;true];[true;true]])) (single_faults 9 true nodes ++ identity 9) = true) by (vm_compute; reflexivity).
    rewrite forallb_forall in ALL. specialize (ALL b Hb). apply orb_true_iff in ALL as [H|H]; auto. exfalso. apply existsb_exists in H as (w & Hw & LE). apply Nat.leb_le in LE.
    assert (SW : span 9 (sp_xc s) w). { rewrite XC. apply in_map_iff in Hw as (cs & <- & Hcs). exists cs. split; auto. cbn in Hcs. intuition (subst; reflexivity). }
    pose proof (wf_in 9 _ b WB Hb) as Lb. pose proof (span_length 9 _ w WX SW) as Lw. specialize (Mf (vxor (vxor b f) w) (span_vxor 9 _ _ _ WX SB SW)).
    replace (vxor f (vxor (vxor b f) w)) with (vxor b w) in Mf; [lia|]. rewrite (vxor_comm b f), <- vxor_assoc. symmetry. apply (vxor_cancel_l 9); auto. now apply vxor_length'. Qed.
Print Assumptions C35_refuted.

(** ** C36 *)
(** compute_fault_set(j), in any history of calls, with any execution order: the errors of XORs of exactly j base faults (single propagated faults
    or single-qubit errors at the end) are represented exactly up to stabilizers, once those that a stabilizer makes light are left out; with
    reduce and nothing cached yet, no two members are equivalent. *)
Theorem C36_multi_faults : forall L distance Hx Hz xd zd c circ zs det lin opt x reduce hist nodes j,
  opt_ok Hx -> opt_ok Hz -> ldpc_ok L -> optimizer_ok 1 opt -> CSSCode L distance Hx Hz xd zd = Ret c ->
  let n := sc_n (css_stab c) in let s := StatePrepCircuit n circ c zs det in let kk := state_after lin opt s hist in
  cnots_of (drop_front [] circ) = Ret nodes -> lin nodes <> [] -> 1 <= j <= max_errors s ->
  exists k' F, compute_fault_set lin opt s x reduce j (cache_of x kk) = Ret (k', F) /\
  let combined := ksum n (fun b => In b (single_faults n x (lin nodes)) \/ In b (identity n)) j in
  let threshold := max_weight s x * j in
  (forall f, In f F -> length f = n /\ threshold < weight f /\ (exists e, combined e /\ span n (stabs_of s x) (vxor e f)) /\
     (forall w, span n (stabs_of s x) w -> weight f <= weight (vxor f w))) /\
  (forall e, combined e -> (forall w, span n (stabs_of s x) w -> threshold < weight (vxor e w)) -> exists f, In f F /\ span n (stabs_of s x) (vxor e f)) /\
  (nth_error (k_sets (cache_of x kk)) j = Some None -> reduce = true -> forall pre a mid b post, F = pre ++ a :: mid ++ b :: post -> ~ span n (stabs_of s x) (vxor a b)).
Proof. intros L distance Hx Hz xd zd c circ zs det lin opt x reduce hist nodes j OX OZ HL OK HC n s kk EN NL Hj.
  assert (SO : spc_ok s) by exact (StatePrepCircuit_ok L distance Hx Hz xd zd c circ zs det OX OZ HL HC). assert (EN' : cnots_of (drop_front [] (sp_circ s)) = Ret nodes) by exact EN.
  pose proof (state_after_inv lin opt s nodes hist OK SO EN') as KI.
  assert (CI : cache_inv lin s x nodes (cache_of x kk)) by (destruct KI as ((? & _) & (? & _)); unfold kk; destruct x; auto).
  destruct (compute_total lin opt s x nodes OK (stabs_wf s x SO) (max_weight_pos s x SO) EN' j reduce (cache_of x kk) NL CI Hj) as ([k' F] & E). exists k', F. split; auto.
  destruct (compute_inv lin opt s x nodes OK (stabs_wf s x SO) (max_weight_pos s x SO) EN' j reduce _ _ _ CI E) as (_ & (FS & FC) & _). split; [exact FS|]. split; [exact FC|].
  intros E0 ->. exact (compute_reduced lin opt s x nodes OK (stabs_wf s x SO) (max_weight_pos s x SO) EN' j _ _ _ E0 CI E). Qed.
Print Assumptions C36_multi_faults.

(** combine_faults with any additional faults returns, for every number j of errors, the same kind of set for XORs of exactly j members of base and
    additional faults. *)
Theorem C36_combine_faults : forall L distance Hx Hz xd zd c circ zs det lin opt x hist nodes additional,
  opt_ok Hx -> opt_ok Hz -> ldpc_ok L -> optimizer_ok 1 opt -> CSSCode L distance Hx Hz xd zd = Ret c ->
  let n := sc_n (css_stab c) in let s := StatePrepCircuit n circ c zs det in
  cnots_of (drop_front [] circ) = Ret nodes -> lin nodes <> [] -> 1 <= max_errors s -> wf n additional ->
  exists kk sets, compute_fault_sets lin opt s true (state_after lin opt s hist) = Ret kk /\ combine_faults opt s x additional (cache_of x kk) = Ret sets /\
  forall j, 1 <= j <= max_errors s -> exists F, nth_error sets j = Some (Some F) /\
  let combined := ksum n (fun b => (In b (single_faults n x (lin nodes)) \/ In b (identity n)) \/ In b additional) j in
  let threshold := max_weight s x * j in
  (forall f, In f F -> length f = n /\ threshold < weight f /\ (exists e, combined e /\ span n (stabs_of s x) (vxor e f)) /\
     (forall w, span n (stabs_of s x) w -> weight f <= weight (vxor f w))) /\
  (forall e, combined e -> (forall w, span n (stabs_of s x) w -> threshold < weight (vxor e w)) -> exists f, In f F /\ span n (stabs_of s x) (vxor e f)).
Proof. intros L distance Hx Hz xd zd c circ zs det lin opt x hist nodes additional OX OZ HL OK HC n s EN NL M WA.
  assert (SO : spc_ok s) by exact (StatePrepCircuit_ok L distance Hx Hz xd zd c circ zs det OX OZ HL HC). assert (EN' : cnots_of (drop_front [] (sp_circ s)) = Ret nodes) by exact EN.
  destruct (compute_sets_ok lin opt s nodes OK SO EN' NL true _ (state_after_inv lin opt s nodes hist OK SO EN') M) as (kk & E & KI & FS). exists kk.
  assert (CI : cache_inv lin s x nodes (cache_of x kk)) by (destruct KI as ((? & _) & (? & _)); destruct x; auto).
  destruct additional as [|a0 l0] eqn:EA.
  - exists (k_sets (cache_of x kk)). split; auto. split; [reflexivity|]. intros j Hj. destruct (FS x j Hj) as (F & HF & FO). exists F. split; auto. destruct FO as [A B].
    assert (X : forall e, ksum n (fun b => (In b (single_faults n x (lin nodes)) \/ In b (identity n)) \/ In b []) j e <-> ksum n (base lin s x nodes) j e) by (intros e; apply ksum_ext; intros b; unfold base; cbn; tauto).
    split; [|intros e He; apply B; now apply X]. intros f Hf. destruct (A f Hf) as (A1 & A2 & (e & A3 & A4) & A5). split; [exact A1|]. split; [exact A2|]. split; [|exact A5]. exists e. split; auto. now apply X.
  - rewrite <- EA in *. destruct (combine_ok lin opt s x nodes OK (stabs_wf s x SO) (max_weight_pos s x SO) additional (cache_of x kk)) as (sets & ES & HS); auto.
    + rewrite EA. discriminate. + intros j Hj. destruct (FS x j Hj) as (F & HF & _). eauto.
    + exists sets. auto. Qed.
Print Assumptions C36_combine_faults.

(** Once a set is cached the reduce flag of later calls has no effect; asking for more errors than the code's budget, or any set of a code of
    distance 1 (budget 0), raises IndexError; a circuit that is only Hadamards raises ValueError. *)
Theorem C36_edge_cases : forall lin opt s x reduce reduce' j k k' F,
  (compute_fault_set lin opt s x reduce j k = Ret (k', F) -> nth_error (k_sets k) j = Some (Some F) -> compute_fault_set lin opt s x reduce' j k = Ret (k, F)) /\
  (length (k_sets k) <= j -> compute_fault_set lin opt s x reduce j k = Raise IndexError) /\
  (max_errors s = 0 -> compute_fault_set lin opt s x reduce (max_errors s) k = Raise IndexError) /\
  (cnots_of (drop_front [] (sp_circ s)) = Ret [] -> lin [] = [] -> nth_error (k_sets k) 1 = Some None -> compute_fault_set lin opt s x reduce 1 k = Raise ValueError).
Proof. intros lin opt s x reduce reduce' j k k' F. split; [|split; [|split]].
  - intros H E. destruct j as [|j]; [discriminate|]. cbn [compute_fault_set]. now rewrite E.
  - intros H. destruct j as [|j]; [reflexivity|]. cbn [compute_fault_set]. rewrite (proj2 (nth_error_None _ _) H). reflexivity.
  - intros ->. reflexivity.
  - intros H1 H2 H3. cbn [compute_fault_set]. rewrite H3, H1. cbn [pbind]. now rewrite H2. Qed.
Print Assumptions C36_edge_cases.

(** ** non-vacuity: the contracts are met by a brute-force optimizer; the heuristic circuit of the Shor code has a budget of one error and a non-empty fault set *)
Definition cl_var_dec : forall a b : cl_var, {a = b} + {a <> b}. Proof. repeat decide equality. Defined.
Definition empty_dec : forall a b : Empty_set, {a = b} + {a <> b}. Proof. intros []. Defined.
Definition cl_ref : cl_solver := ref_opt cl_var_dec empty_dec 1.
Example C35_C36_nonvacuous : optimizer_ok 1 cl_ref /\ exists c, CSSCode ldpc_ref 3 (Some shor_hx) (Some shor_hz) None None = Ret c /\
  let s := StatePrepCircuit (sc_n (css_stab c)) shor_circ c true false in sc_n (css_stab c) = 9 /\ max_errors s = 1 /\ max_weight s true = 1 /\
  exists nodes, cnots_of (drop_front [] shor_circ) = Ret nodes /\ cn_ok 9 nodes /\ reorder nodes nodes /\ uniform_over 9 (span 9 (sp_xc s)) (run 9 shor_circ) /\
  shor_circ = map GH [0; 2] ++ map gcx nodes /\ NoDup [0; 2] /\
  exists k F, compute_fault_set (fun l => l) cl_ref s true true 1 (fst (state_after (fun l => l) cl_ref s [])) = Ret (k, F) /\ F <> [] /\
  (* the X on qubit 6 after the CNOT from 2 to 6 and 6 to 8 became X6 X7 *) exists f, In f F /\ span 9 (sp_xc s) (vxor (fault_error 9 true nodes 6 3) f).
Proof. split; [apply ref_optimizer_ok; lia|]. destruct (CSSCode ldpc_ref 3 (Some shor_hx) (Some shor_hz) None None) as [c|] eqn:EC; [|vm_compute in EC; discriminate]. pose proof EC as EC0. exists c. split; auto. cbv zeta.
  vm_compute in EC. injection EC as EC. assert (N9 : sc_n (css_stab c) = 9) by (rewrite <- EC; reflexivity).
  assert (OX : opt_ok (Some shor_hx)) by (cbn; repeat constructor). assert (OZ : opt_ok (Some shor_hz)) by (cbn; repeat constructor).
  set (s := StatePrepCircuit (sc_n (css_stab c)) shor_circ c true false).
  assert (XC : sp_xc s = nd_rows shor_hx) by (unfold s; rewrite <- EC; reflexivity).
  assert (MW : max_weight s true = 1) by (unfold s; rewrite <- EC; reflexivity). assert (ME : max_errors s = 1) by (unfold s; rewrite <- EC; reflexivity).
  split; auto. split; auto. split; auto. eexists. split; [reflexivity|]. split; [repeat constructor; cbn; lia|]. split; [apply reorder_refl|]. split.
  { rewrite XC. destruct (C33_zero_state ldpc_ref 3 (Some shor_hx) (Some shor_hz) None None c rre_ref true 50 shor_circ OX OZ rre_ref_ok EC0) as (_ & U); [rewrite <- EC; vm_compute; reflexivity|]. rewrite N9 in U. rewrite <- EC in U. exact U. }
  split; [reflexivity|]. split; [repeat constructor; cbn; intuition lia|].
  destruct (C36_multi_faults ldpc_ref 3 (Some shor_hx) (Some shor_hz) None None c shor_circ true false (fun l => l) cl_ref true true [] _ 1 OX OZ ldpc_ref_ok (ref_optimizer_ok cl_var_dec empty_dec 1 ltac:(lia)) EC0 eq_refl) as (k & F & E & _ & FC & _).
  - discriminate. - fold s. lia. - fold s in E, FC. exists k, F. split; [exact E|]. rewrite N9 in FC. assert (G : exists f, In f F /\ span 9 (sp_xc s) (vxor (fault_error 9 true [(2,6);(0,3);(6,8);(3,4);(2,0);(6,7);(4,5);(3,2);(0,1)] 6 3) f)).
    { apply FC.
      - exists (vzero 9), (fault_error 9 true [(2,6);(0,3);(6,8);(3,4);(2,0);(6,7);(4,5);(3,2);(0,1)] 6 3). split; [reflexivity|]. split; [|reflexivity]. left. vm_compute. tauto.
      - intros w (cs & Lc & <-). rewrite MW. change (stabs_of s true) with (sp_xc s) in *. rewrite XC in *. destruct cs as [|a [|b [|? ?]]]; try discriminate Lc. destruct a, b; vm_compute; lia. }
    split; [|exact G]. intros ->. destruct G as (? & [] & _). Qed.
