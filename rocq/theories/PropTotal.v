(** * PropTotal: properties C38 and C66, continued - the heuristic search measures nothing in vain, and heuristic_verification_circuit comes to an end *)
From Verif Require Import VerifyProofs2 VerifyModel VerifProofs6 PropPrep PropFault PropVerif PropVerify RreRef Z3Ref NamedData VerifProofs2 PropFlag FlagHook.
Local Open Scope nat_scope.

(** ** proofs *)
(** as [select_gen], with what the fault sets consist of *)
Lemma select_useful lin opt s x additional nodes kk0 : optimizer_ok 1 opt -> spc_ok s -> cnots_of (drop_front [] (sp_circ s)) = Ret nodes -> lin nodes <> [] -> 1 <= max_errors s ->
  (forall l, additional = Some l -> wf (sp_n s) l) -> kinv2 lin s nodes kk0 ->
  exists kk sets, fault_sets_for lin opt s x additional kk0 = Ret (kk, sets) /\
  forall i F f, nth_error (firstn (max_errors s) (skipn 1 sets)) i = Some (Some F) -> In f F -> i < max_errors s /\ length f = sp_n s /\ (forall w, span (sp_n s) (stabs_of s x) w -> weight f <= weight (vxor f w)) /\ exists e,
    combination s x (lin nodes) (match additional with Some l => l | None => [] end) (S i) e /\ (forall w, span (sp_n s) (stabs_of s x) w -> max_weight s x * S i < weight (vxor e w)) /\ span (sp_n s) (stabs_of s x) (vxor e f) /\
    forall m, span (sp_n s) (orth_checks s x) m -> dot m e = dot m f.
Proof. intros OK SO EN NL M WA KI. destruct (sets_ok lin opt s nodes OK SO EN NL x additional _ KI M WA) as (kk & sets & ES & KI' & HS). exists kk, sets. split; auto.
  intros i F f HN Hf. assert (Hi : i < max_errors s). { assert (i < length (firstn (max_errors s) (skipn 1 sets))) by (apply nth_error_Some; congruence). rewrite firstn_length in *. lia. }
  split; auto. destruct (HS (S i) ltac:(lia)) as (F' & HF & FO & _). assert (F' = F).
  { rewrite nth_error_firstn_lt in HN by auto. destruct sets as [|s0 sets']; [destruct i; discriminate HN|]. cbn [skipn nth_error] in *. rewrite HN in HF. congruence. }
  subst F'. destruct (FO f Hf) as (Lf & Wf & (e & He & SE) & Mf).
  assert (Ce : combination s x (lin nodes) (match additional with Some l => l | None => [] end) (S i) e).
  { revert He. apply ksum_ext. intros b. unfold all_base, base. destruct additional as [l|].
    - split; [intros [K|K]; [auto|right; exists l; auto]|intros [K|(l' & [= <-] & K)]; auto].
    - split; [intros [K|[]]; auto|intros [K|(l' & K & _)]; [auto|discriminate]]. }
  assert (Le : length e = sp_n s). { apply (combination_length s x (lin nodes) (match additional with Some l => l | None => [] end) (S i)); auto. destruct additional as [l|]; [now apply WA|apply Forall_nil]. }
  split; auto. split; auto. exists e. split; auto. split; [|split; auto; intros m Hm; apply (dot_equiv s x m e f SO); auto].
  intros w Hw. pose proof (stabs_wf s x SO) as WS. pose proof (span_length _ _ _ WS Hw) as Lw. pose proof (span_vxor _ _ _ _ WS SE Hw) as SV. specialize (Mf _ SV). clear SE.
  assert (EQ : vxor f (vxor (vxor e f) w) = vxor e w) by (rewrite vxor_assoc, (vxor_comm e f), (vxor_cancel_l (sp_n s)) by auto; reflexivity).
  rewrite EQ in Mf. lia. Qed.
Lemma heuristic_useful lin ord (opt : cl_solver) s x max_sets fcl nodes fuel additional kk kk' layers : optimizer_ok 1 opt -> ord_ok ord -> spc_ok s -> cnots_of (drop_front [] (sp_circ s)) = Ret nodes -> lin nodes <> [] -> 1 <= max_errors s ->
  kinv2 lin s nodes kk -> (forall l, additional = Some l -> wf (sp_n s) l) -> heuristic_verification_stabilizers fuel lin ord opt s x max_sets fcl additional kk = Done (kk', layers) ->
  forall i layer m, nth_error layers i = Some layer -> In m layer -> i < max_errors s /\ span (sp_n s) (orth_checks s x) m /\ exists e,
    combination s x (lin nodes) (match additional with Some l => l | None => [] end) (S i) e /\ (forall w, span (sp_n s) (stabs_of s x) w -> max_weight s x * S i < weight (vxor e w)) /\ dot m e = true.
Proof. intros OK OO SO EN NL M KI WA E i layer m NE Hm. pose proof (orth_wf s x SO) as WO.
  destruct (select_gen lin opt s x additional nodes kk OK SO EN NL M WA KI) as (k1 & sets & ES & K1 & INSEL & FIN). cbv zeta in INSEL, FIN.
  destruct (select_useful lin opt s x additional nodes kk OK SO EN NL M WA KI) as (k2 & sets2 & ES2 & US). rewrite ES in ES2. injection ES2 as <- <-.
  unfold heuristic_verification_stabilizers in E. rewrite ES in E. cbn [of_py obind fst snd] in E. set (sel := firstn (max_errors s) (skipn 1 sets)) in *.
  destruct (heuristic_layers fuel ord opt (orth_checks s x) fcl max_sets sel) as [ls| |] eqn:EL; cbn [obind] in E; try discriminate. injection E as <- <-.
  assert (WF : forall F, In (Some F) sel -> wf (sp_n s) F) by (intros F HF; destruct (INSEL _ HF) as (F' & EF & W & _); now injection EF as <-).
  destruct (heuristic_layers_useful fuel ord opt (sp_n s) (orth_checks s x) fcl max_sets WO OO OK sel ls WF EL i layer m NE Hm) as (F & f & HF & Hf & D).
  destruct (heuristic_layers_sound fuel ord opt (sp_n s) (orth_checks s x) fcl max_sets WO OO OK sel ls WF EL) as [_ LO]. destruct (LO i F HF) as (layer' & NE' & SP & _). assert (layer' = layer) by congruence. subst layer'.
  destruct (US i F f HF Hf) as (Hi & _ & _ & e & C & W & _ & DE). split; auto. split; [now apply SP|]. exists e. split; auto. split; auto. rewrite DE; auto. Qed.
Lemma heuristic_total lin ord (opt : cl_solver) s x max_sets fcl nodes additional kk : optimizer_ok 1 opt -> ord_ok ord -> spc_ok s -> cnots_of (drop_front [] (sp_circ s)) = Ret nodes -> lin nodes <> [] -> 1 <= max_errors s ->
  kinv2 lin s nodes kk -> (forall l, additional = Some l -> wf (sp_n s) l) -> exists F0, forall fuel, F0 <= fuel -> exists kk' layers,
    heuristic_verification_stabilizers fuel lin ord opt s x max_sets fcl additional kk = Done (kk', layers).
Proof. intros OK OO SO EN NL M KI WA. pose proof (orth_wf s x SO) as WO. destruct (select_gen lin opt s x additional nodes kk OK SO EN NL M WA KI) as (k1 & sets & ES & K1 & INSEL & FIN). cbv zeta in INSEL.
  destruct (heuristic_layers_terminate ord opt (sp_n s) (orth_checks s x) fcl max_sets WO OO _ INSEL) as (F0 & TERM). exists F0. intros fuel Hf. destruct (TERM fuel Hf) as (layers & EL). exists k1, layers.
  unfold heuristic_verification_stabilizers. rewrite ES. cbn [of_py obind fst snd]. rewrite EL. reflexivity. Qed.
Lemma heuristic_nonzero lin ord (opt : cl_solver) s x max_sets fcl nodes fuel additional kk kk' layers : optimizer_ok 1 opt -> ord_ok ord -> spc_ok s -> cnots_of (drop_front [] (sp_circ s)) = Ret nodes -> lin nodes <> [] -> 1 <= max_errors s ->
  kinv2 lin s nodes kk -> (forall l, additional = Some l -> wf (sp_n s) l) -> heuristic_verification_stabilizers fuel lin ord opt s x max_sets fcl additional kk = Done (kk', layers) ->
  forall m, In m (concat layers) -> span (sp_n s) (orth_checks s x) m /\ weight m <> 0.
Proof. intros OK OO SO EN NL M KI WA E m Hm. apply in_concat in Hm as (layer & Hl & Hm). apply In_nth_error in Hl as (i & Hi).
  destruct (heuristic_useful lin ord opt s x max_sets fcl nodes fuel additional kk kk' layers OK OO SO EN NL M KI WA E i layer m Hi Hm) as (_ & SP & e & _ & _ & D). split; auto.
  intros Z. pose proof (span_length _ _ _ (orth_wf s x SO) SP) as Lm. assert (EZ : m = vzero (sp_n s)).
  { apply nth_ext with (d := false) (d' := false); [now rewrite vzero_length|]. intros i' _. rewrite nth_vzero. now apply weight_zero_iff. }
  rewrite EZ in D. rewrite dot_zero_l in D. discriminate. Qed.
(** a loop of gadgets runs through, or one of them raises *)
Lemma meas_loop_cases one a0 b0 ms : forall i qc, (exists qc', meas_loop one a0 b0 i ms qc = Ret qc') \/ (exists m qc1 a b e, In m ms /\ one qc1 (support m) a b = Raise e /\ meas_loop one a0 b0 i ms qc = Raise e).
Proof. induction ms as [|m ms IHm]; intros i qc; cbn [meas_loop]; [eauto|]. destruct (one qc (support m) (a0 + i) (b0 + i)) as [qc1|e] eqn:E1; cbn [pbind].
  - destruct (IHm (S i) qc1) as [(qc' & E)|(m' & q & a & b & e & Hm & R & E)]; [left; eauto|right]. exists m', q, a, b, e. split; [now right|auto].
  - right. exists m, qc, (a0 + i), (b0 + i), e. split; [now left|auto]. Qed.
Lemma measure_ft_cases z qc ms t flags : (forall m, In m ms -> weight m <> 0) ->
  (exists qc', measure_ft z qc ms t flags = Ret qc') \/ flags = true /\ exists m qc1 a b e, In m ms /\ measure_flagged qc1 (support m) a b t z = Raise e /\ measure_ft z qc ms t flags = Raise e.
Proof. intros NZ. assert (NE : forall m, In m ms -> support m <> []). { intros m Hm E. apply (NZ m Hm). rewrite <- support_weight, E. reflexivity. }
  destruct z; cbn [measure_ft]; unfold measure_ft_z, measure_ft_x; (destruct ms as [|m0 ms0] eqn:EMS; [left; eauto|]); rewrite <- EMS in *.
  - destruct (meas_loop_cases (fun qc s a b => if flags then measure_flagged qc s a b t true else match s with [] => Raise CircuitError | _ => Ret (emit qc (map (fun q => ICX q a) s)) end) (qc_nq qc) (qc_nc qc) ms 0 (add_regs qc (length ms)))
      as [(qc' & E)|(m & qc1 & a & b & e & Hm & R & E)]; rewrite E; cbn [pbind]; [left; eauto|]. destruct flags; [right; split; auto; exists m, qc1, a, b, e; auto|]. destruct (support m) eqn:ES; [now apply NE in Hm|discriminate].
  - destruct (meas_loop_cases (fun qc s a b => if flags then measure_flagged qc s a b t false else measure_stab_unflagged qc s a b false) (qc_nq qc) (qc_nc qc) ms 0 (add_regs qc (length ms)))
      as [(qc' & E)|(m & qc1 & a & b & e & Hm & R & E)]; rewrite E; [left; eauto|]. destruct flags; [right; split; auto; exists m, qc1, a, b, e; auto|]. destruct (support m) eqn:ES; [now apply NE in Hm|discriminate]. Qed.

(** more fuel does not change an answer *)
Lemma set_cover_mono cands mp : forall f u cov r, set_cover_loop f cands mp u cov = Done r -> forall f', f <= f' -> set_cover_loop f' cands mp u cov = Done r.
Proof. induction f as [|f IHf]; intros u cov r H f' L; destruct f' as [|f']; cbn [set_cover_loop] in *; try lia; destruct (weight u =? 0); auto; try discriminate.
  destruct cands as [|c cs]; try discriminate. apply IHf; auto. lia. Qed.
Lemma improve_mono ord nf max_sets : forall f cands mp cover cst r, improve f ord nf max_sets cands mp cover cst = Done r -> forall f', f <= f' -> improve f' ord nf max_sets cands mp cover cst = Done r.
Proof. induction f as [|f IHf]; intros cands mp cover cst r H f' L; destruct f' as [|f']; cbn [improve] in *; try lia; destruct (max_sets <=? length cands); auto; try discriminate.
  destruct (extend_covering_sets cands max_sets mp) as [cs' mp1]. cbv zeta in *. destruct (set_cover (S f) nf (ord cs') mp1) as [nc| |] eqn:SC; try discriminate. unfold set_cover in *. rewrite (set_cover_mono _ _ _ _ _ _ SC) by lia.
  destruct (cost_lt _ _); auto. apply IHf; auto. lia. Qed.
Lemma layer_mono f f' ord opt F checks fcl max_sets r : f <= f' -> heuristic_layer f ord opt F checks fcl max_sets = Done r -> heuristic_layer f' ord opt F checks fcl max_sets = Done r.
Proof. intros L. unfold heuristic_layer. cbv zeta. destruct (fold_left _ _ _) as [cs mp]. destruct (set_cover f _ _ mp) as [cover| |] eqn:SC; try discriminate. unfold set_cover in *. rewrite (set_cover_mono _ _ _ _ _ _ SC) by auto.
  destruct (improve f ord _ max_sets (ord cs) mp cover (cost mp cover)) as [[c m]| |] eqn:IM; try discriminate. now rewrite (improve_mono _ _ _ _ _ _ _ _ _ IM) by auto. Qed.
Lemma layers_mono f f' ord opt checks fcl max_sets : f <= f' -> forall sets r, heuristic_layers f ord opt checks fcl max_sets sets = Done r -> heuristic_layers f' ord opt checks fcl max_sets sets = Done r.
Proof. intros L. induction sets as [|[F|] sets IHs]; intros r; cbn [heuristic_layers]; auto.
  destruct (match F with [] => Done [] | _ => heuristic_layer f ord opt F checks fcl max_sets end) as [l| |] eqn:E1; cbn [obind]; try discriminate.
  assert (E1' : match F with [] => Done [] | _ => heuristic_layer f' ord opt F checks fcl max_sets end = Done l) by (destruct F; auto; now apply (layer_mono f)). rewrite E1'. cbn [obind].
  destruct (heuristic_layers f ord opt checks fcl max_sets sets) as [ls| |] eqn:E2; cbn [obind]; try discriminate. now rewrite (IHs ls eq_refl). Qed.
Lemma heuristic_mono f f' lin ord (opt : cl_solver) s x max_sets fcl additional kk r : f <= f' -> heuristic_verification_stabilizers f lin ord opt s x max_sets fcl additional kk = Done r -> heuristic_verification_stabilizers f' lin ord opt s x max_sets fcl additional kk = Done r.
Proof. intros L. unfold heuristic_verification_stabilizers. destruct (of_py _) as [r1| |]; cbn [obind]; auto. destruct (heuristic_layers f _ _ _ _ _ _) as [ls| |] eqn:E; cbn [obind]; try discriminate. now rewrite (layers_mono f f' _ _ _ _ _ L _ _ E). Qed.

(** ** C38, continued *)
(** Whenever the heuristic returns: every stabilizer it wants measured in layer j - a product of the opposite checks - detects some XOR of j base faults that no stabilizer makes as light as the threshold.  In
    particular no measurement is superfluous in its layer's sense and none is the identity. *)
Theorem C38_useful : forall L distance Hx Hz xd zd c circ zs det lin ord opt x max_sets fcl additional hist nodes fuel kk layers,
  opt_ok Hx -> opt_ok Hz -> ldpc_ok L -> optimizer_ok 1 opt -> ord_ok ord -> CSSCode L distance Hx Hz xd zd = Ret c ->
  let n := sc_n (css_stab c) in let s := StatePrepCircuit n circ c zs det in
  cnots_of (drop_front [] circ) = Ret nodes -> lin nodes <> [] -> 1 <= max_errors s -> (forall l, additional = Some l -> wf n l) ->
  heuristic_verification_stabilizers fuel lin ord opt s x max_sets fcl additional (state_after lin opt s hist) = Done (kk, layers) ->
  forall j layer m, nth_error layers j = Some layer -> In m layer -> span n (orth_checks s x) m /\ exists e,
    combination s x (lin nodes) (match additional with Some l => l | None => [] end) (S j) e /\ (forall w, span n (stabs_of s x) w -> max_weight s x * S j < weight (vxor e w)) /\ dot m e = true.
Proof. intros L distance Hx Hz xd zd c circ zs det lin ord opt x max_sets fcl additional hist nodes fuel kk layers OX OZ HL OK OO HC n s EN NL M WA E j layer m NE Hm.
  assert (SO : spc_ok s) by exact (StatePrepCircuit_ok L distance Hx Hz xd zd c circ zs det OX OZ HL HC).
  destruct (heuristic_useful lin ord opt s x max_sets fcl nodes fuel additional _ kk layers OK OO SO EN NL M (state_after_inv lin opt s nodes hist OK SO EN) WA E j layer m NE Hm) as (_ & A & B). auto. Qed.
Print Assumptions C38_useful.

(** ** C66, continued *)
(** heuristic_verification_circuit comes to an end for every code, circuit, order of set iteration, z3 optimizer and earlier calls: with a circuit - or with the exception of a gadget of the second, flagged layer:
    t is the number of errors the first layer's type tolerates, and only t = 1, and t = 2 for weights 1, 2, 4, 5, 6 and 8, are implemented. *)
Theorem C66_terminates : forall L distance Hx Hz xd zd c circ zs det lin ord opt max_sets fcl full hist nodes,
  opt_ok Hx -> opt_ok Hz -> ldpc_ok L -> optimizer_ok 1 opt -> ord_ok ord -> CSSCode L distance Hx Hz xd zd = Ret c ->
  let n := sc_n (css_stab c) in let s := StatePrepCircuit n circ c zs det in let t := if zs then max_x_errors s else max_z_errors s in
  cnots_of (drop_front [] circ) = Ret nodes -> lin nodes <> [] -> 1 <= max_errors s ->
  exists F0, forall fuel, F0 <= fuel -> let r := heuristic_verification_circuit fuel lin ord opt s max_sets fcl full (state_after lin opt s hist) in
    (exists qc, r = Done qc) \/
    full = true /\ t = 2 /\ (exists m, span n (orth_checks s (negb zs)) m /\ (weight m = 3 /\ r = Failed AssertionError \/ (weight m = 7 \/ 9 <= weight m) /\ r = Failed IndexError)) \/
    full = true /\ t <> 1 /\ t <> 2 /\ r = Failed NotImplementedErr.
Proof. intros L distance Hx Hz xd zd c circ zs det lin ord opt max_sets fcl full hist nodes OX OZ HL OK OO HC n s t EN NL M.
  assert (SO : spc_ok s) by exact (StatePrepCircuit_ok L distance Hx Hz xd zd c circ zs det OX OZ HL HC). pose proof (state_after_inv lin opt s nodes hist OK SO EN) as KI. set (kk := state_after lin opt s hist) in *.
  assert (WN : forall l : mat, None = Some l -> wf (sp_n s) l) by discriminate.
  destruct (heuristic_total lin ord opt s zs max_sets fcl nodes None kk OK OO SO EN NL M KI WN) as (F1 & T1). destruct (T1 F1 (le_n _)) as (k1 & l1 & E1). clear T1.
  destruct (heuristic_call lin ord opt s max_sets fcl nodes F1 OK OO SO EN NL M zs None kk k1 l1 KI WN E1) as [KI1 _].
  pose proof (heuristic_nonzero lin ord opt s zs max_sets fcl nodes F1 None kk k1 l1 OK OO SO EN NL M KI WN E1) as N1.
  assert (WH : forall l : mat, Some (hook_errors (concat l1)) = Some l -> wf (sp_n s) l) by (intros l [= <-]; apply hook_wf; apply Forall_forall; intros m Hm; exact (span_length _ _ _ (orth_wf s zs SO) (proj1 (N1 m Hm)))).
  destruct (heuristic_total lin ord opt s (negb zs) max_sets fcl nodes (Some (hook_errors (concat l1))) k1 OK OO SO EN NL M KI1 WH) as (F2 & T2). destruct (T2 F2 (le_n _)) as (k2 & l2 & E2). clear T2.
  pose proof (heuristic_nonzero lin ord opt s (negb zs) max_sets fcl nodes F2 _ k1 k2 l2 OK OO SO EN NL M KI1 WH E2) as N2.
  exists (F1 + F2). intros fuel Hf. cbv zeta. unfold heuristic_verification_circuit, verification_circuit_run. change (sp_zero s) with zs.
  rewrite (heuristic_mono F1 fuel _ _ _ _ _ _ _ _ _ _ ltac:(lia) E1). cbn [obind fst snd].
  set (m2 := if full then concat l2 else []).
  replace (if full then obind _ _ else Done []) with (Done m2 : outcome (list vec)) by (unfold m2; destruct full; auto; rewrite (heuristic_mono F2 fuel _ _ _ _ _ _ _ _ _ _ ltac:(lia) E2); reflexivity). cbn [obind].
  set (qc0 := mkQc (map ins_of circ) n 0).
  assert (EQ : (if zs then measure_ft_stabs s m2 (concat l1) full else measure_ft_stabs s (concat l1) m2 full) = pbind (measure_ft zs qc0 (concat l1) t false) (fun qc1 => measure_ft (negb zs) qc1 m2 t full)).
  { unfold measure_ft_stabs. change (sp_zero s) with zs. change (sp_circ s) with circ. change (sp_n s) with n. fold qc0. unfold t, m2. destruct zs, full; cbn [negb measure_ft]; auto. all: destruct (_ qc0 _ _ false); auto. }
  rewrite EQ. clear EQ. destruct (measure_ft_cases zs qc0 (concat l1) t false (fun m Hm => proj2 (N1 m Hm))) as [(qc1 & R1)|[D _]]; [|discriminate D]. rewrite R1. cbn [pbind].
  assert (N2' : forall m, In m m2 -> weight m <> 0) by (unfold m2; destruct full; [intros m Hm; now apply N2|intros m []]).
  destruct (measure_ft_cases (negb zs) qc1 m2 t full N2') as [(qc2 & R2)|(FT & m & qc3 & a & b & e & Hm & R3 & R2)]; rewrite R2; cbn [of_py]; [left; eauto|right].
  unfold m2 in Hm. rewrite FT in Hm. destruct (N2 m Hm) as [SP NZ]. destruct (C42_outcome qc3 (support m) a b t (negb zs)) as (O1 & _ & _ & O4 & O5 & O6). rewrite support_weight in *.
  destruct (Nat.eq_dec t 1) as [T1|T1]; [destruct O1 as (q & O1); [left; split; [auto|lia]|congruence]|].
  destruct (Nat.eq_dec t 2) as [T2|T2]; [|right; split; [auto|split; [auto|split; [auto|]]]; rewrite (O6 T1 T2) in R3; congruence].
  left. split; auto. split; auto. exists m. split; auto.
  destruct (Nat.eq_dec (weight m) 3) as [W3|W3]; [left; split; auto; rewrite (O4 T2 W3) in R3; congruence|].
  assert (W : (weight m = 7 \/ 9 <= weight m) \/ In (weight m) [1; 2; 4; 5; 6; 8]) by (cbn [In]; lia). destruct W as [W|W]; [right; split; auto; rewrite (O5 T2 W) in R3; congruence|].
  destruct O1 as (q & O1); [right; auto|congruence]. Qed.
Print Assumptions C66_terminates.
(** Without the second layer, and for codes that tolerate one error, there always is a verified circuit, with the guarantees of C66_heuristic. *)
Corollary C66_total : forall L distance Hx Hz xd zd c rre od fuel0 zs det circ lin ord opt max_sets fcl full hist nodes,
  opt_ok Hx -> opt_ok Hz -> rre_ok rre -> ldpc_ok L -> optimizer_ok 1 opt -> ord_ok ord ->
  CSSCode L distance Hx Hz xd zd = Ret c -> heuristic_prep_circuit fuel0 rre c od zs = Some circ ->
  let n := sc_n (css_stab c) in let s := StatePrepCircuit n circ c zs det in let t := if zs then max_x_errors s else max_z_errors s in
  cnots_of (drop_front [] circ) = Ret nodes -> lin nodes <> [] -> 1 <= max_errors s -> (full = true -> t = 1) ->
  (t = 1 -> forall m, span n (orth_checks s (negb zs)) m -> weight m <> 1) ->
  exists F0, forall fuel, F0 <= fuel -> exists qc m1 m2 V, heuristic_verification_circuit fuel lin ord opt s max_sets fcl full (state_after lin opt s hist) = Done qc /\
    reads_syndrome s m1 m2 qc V /\
    forall e f j, 1 <= j <= max_errors s -> length e = n -> length f = n -> accepted s qc V e f ->
      (combination s zs (lin nodes) [] j (if zs then e else f) -> exists w, span n (stabs_of s zs) w /\ weight (vxor (if zs then e else f) w) <= max_weight s zs * j) /\
      (full = true -> combination s (negb zs) (lin nodes) (hook_errors m1) j (if zs then f else e) -> exists w, span n (stabs_of s (negb zs)) w /\ weight (vxor (if zs then f else e) w) <= max_weight s (negb zs) * j).
Proof. intros L distance Hx Hz xd zd c rre od fuel0 zs det circ lin ord opt max_sets fcl full hist nodes OX OZ RR HL OK OO HC HP n s t EN NL M FT N1.
  destruct (C66_terminates L distance Hx Hz xd zd c circ zs det lin ord opt max_sets fcl full hist nodes OX OZ HL OK OO HC EN NL M) as (F0 & H). exists F0. intros fuel Hf.
  destruct (H fuel Hf) as [(qc & E)|[(A & B & _)|(A & B & _)]]; [|exfalso; specialize (FT A); fold n in B; fold s in B; fold t in B; congruence|exfalso; specialize (FT A); fold n in B; fold s in B; fold t in B; congruence].
  destruct (C66_heuristic L distance Hx Hz xd zd c rre od fuel0 zs det circ lin ord opt max_sets fcl full hist nodes fuel qc OX OZ RR HL OK OO HC HP EN NL M N1 E) as (m1 & m2 & V & R & _ & _ & G).
  exists qc, m1, m2, V. split; [exact E|]. split; [exact R|exact G]. Qed.
Print Assumptions C66_total.
