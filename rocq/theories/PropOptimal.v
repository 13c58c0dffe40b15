(** * PropOptimal: property C75 - how many CNOTs and ancillas the gate-optimal verification uses; and C66: gate_optimal_verification_circuit comes to an end *)
From Verif Require Import VerifyProofs2 VerifyModel VerifProofs6 PropPrep PropFault PropVerif PropVerify PropTotal OptimalProofs RreRef Z3Ref NamedData PropFlag FlagHook VerifProofs2 Z3Model.
Local Open Scope nat_scope.

(** ** specification *)
(** in how many positions a measured operator and an error meet; the CNOTs a list of measured operators takes *)
Definition common (m f : vec) : nat := length (filter (fun q => nth q m false && nth q f false) (seq 0 (length m))).
Definition cnots (ms : list vec) : nat := list_sum (map weight ms).
(** f is as light as any error equivalent to it, and equivalent to some XOR e of j base faults that no stabilizer makes as light as the threshold *)
Definition dangerous (s : spc) (x : bool) (nodes : list (nat * nat)) (additional : mat) (j : nat) (f : vec) : Prop :=
  length f = sp_n s /\ (forall w, span (sp_n s) (stabs_of s x) w -> weight f <= weight (vxor f w)) /\ exists e,
    combination s x nodes additional j e /\ (forall w, span (sp_n s) (stabs_of s x) w -> max_weight s x * j < weight (vxor e w)) /\ span (sp_n s) (stabs_of s x) (vxor e f).
(** products of checks such that every dangerous error meets one of them in exactly one position.  (The search asks for exactly one, although every odd number is detected; for errors of weight one and two that is
    the same.) *)
Definition meets_once (s : spc) (x : bool) nodes additional j (ms : list vec) : Prop :=
  (forall m, In m ms -> span (sp_n s) (orth_checks s x) m) /\ forall f, dangerous s x nodes additional j f -> exists m, In m ms /\ common m f = 1.
(** ** proofs *)
Lemma common_overlap n m f : length m = n -> common m f = VerifProofs2.overlap n m f.
Proof. intros <-. reflexivity. Qed.
Definition faults_of (additional : option mat) : mat := match additional with Some l => l | None => [] end.
Definition ancillas (s : spc) (x : bool) (ma : option nat) : nat := match ma with Some a => a | None => length (orth_checks s x) end.
Lemma optimal_total lin (opt : cl_solver) e s x tmin tmax ma nodes additional kk : optimizer_ok 1 opt -> (forall k, solver_ok 1 (e_solver e k)) -> spc_ok s -> cnots_of (drop_front [] (sp_circ s)) = Ret nodes -> lin nodes <> [] -> 1 <= max_errors s ->
  kinv2 lin s nodes kk -> (forall l, additional = Some l -> wf (sp_n s) l) -> (forall c, In c (orth_checks s x) -> weight c <> 0) -> (1 <= tmin)%Z -> exists kk' layers F0, forall fuel, F0 <= fuel ->
    gate_optimal_verification_stabilizers fuel lin opt e s x tmin tmax ma additional kk = Done (kk', layers).
Proof. intros OK SOK SO EN NL M KI WA NZ T1. pose proof (orth_wf s x SO) as WO. destruct (select_gen lin opt s x additional nodes kk OK SO EN NL M WA KI) as (k1 & sets & ES & K1 & INSEL & FIN). cbv zeta in INSEL.
  destruct (optimal_layers_total (sp_n s) (orth_checks s x) e WO (ancillas s x ma) tmin tmax NZ T1 _ INSEL 0) as ([k ls] & F0 & H).
  exists k1, (match ls with Some layers => layers | None => [] end), F0. intros fuel Hf. unfold gate_optimal_verification_stabilizers. rewrite ES. cbn [of_py obind fst snd]. fold (ancillas s x ma). rewrite H by auto. reflexivity. Qed.
Lemma optimal_quality lin (opt : cl_solver) e s x tmin tmax ma nodes additional kk fuel kk' layers : optimizer_ok 1 opt -> (forall k, solver_ok 1 (e_solver e k)) -> spc_ok s -> cnots_of (drop_front [] (sp_circ s)) = Ret nodes -> lin nodes <> [] -> 1 <= max_errors s ->
  kinv2 lin s nodes kk -> (forall l, additional = Some l -> wf (sp_n s) l) -> (forall c, In c (orth_checks s x) -> weight c <> 0) -> (forall k t, e_late e k t = false) -> (tmin <= tmax)%Z ->
  gate_optimal_verification_stabilizers fuel lin opt e s x tmin tmax ma additional kk = Done (kk', layers) ->
  let alternative j ms := meets_once s x (lin nodes) (faults_of additional) j ms in
  (layers = [] /\ exists j, 1 <= j <= max_errors s /\ forall ms, alternative j ms -> length ms <= ancillas s x ma -> cnots (orth_checks s x) < cnots ms) \/
  length layers = max_errors s /\ forall i layer, nth_error layers i = Some layer -> length layer <= ancillas s x ma /\ (forall m, In m layer -> weight m <> 0) /\
    (forall ms, alternative (S i) ms -> length ms <= length layer -> cnots layer <= cnots ms) /\
    (forall ms, alternative (S i) ms -> cnots ms <= cnots layer -> length layer <= length ms) /\
    (forall ms, alternative (S i) ms -> length ms <= ancillas s x ma -> (forall c, In c (orth_checks s x) -> cnots layer <= weight c) \/ cnots layer <= 2 * cnots ms - 1).
Proof. intros OK SOK SO EN NL M KI WA NZ NLATE T2 E alternative. pose proof (orth_wf s x SO) as WO.
  destruct (select_gen lin opt s x additional nodes kk OK SO EN NL M WA KI) as (k1 & sets & ES & K1 & INSEL & FIN). cbv zeta in INSEL, FIN.
  destruct (select_useful lin opt s x additional nodes kk OK SO EN NL M WA KI) as (k2 & sets2 & ES2 & US). rewrite ES in ES2. injection ES2 as <- <-.
  unfold gate_optimal_verification_stabilizers in E. rewrite ES in E. cbn [of_py obind fst snd] in E. fold (ancillas s x ma) in E. set (sel := firstn (max_errors s) (skipn 1 sets)) in *.
  assert (ALT : forall i F ms, nth_error sel i = Some (Some F) -> alternative (S i) ms -> meets_all (sp_n s) (orth_checks s x) F ms).
  { intros i F ms HN [A B]. split; auto. intros f Hf. destruct (US i F f HN Hf) as (_ & Lf & Mf & e' & C & W & SE & _). destruct (B f) as (m & Hm & Cm); [split; auto; split; auto; exists e'; auto|].
    exists m. split; auto. rewrite <- common_overlap; auto. exact (span_length _ _ _ WO (A m Hm)). }
  destruct (optimal_layers fuel e (sp_n s) (orth_checks s x) (ancillas s x ma) tmin tmax sel 0) as [[k o]| |] eqn:EL; cbn [obind fst snd] in E; try discriminate. injection E as _ <-.
  pose proof (optimal_layers_spec (sp_n s) (orth_checks s x) e WO SOK (ancillas s x ma) tmin tmax NZ NLATE T2 fuel sel 0 k o INSEL EL) as SP. destruct o as [layers|].
  - right. destruct SP as [L Q].
    assert (LS : length sel = max_errors s).
    { destruct (sets_ok lin opt s nodes OK SO EN NL x additional _ KI M WA) as (k3 & sets3 & ES3 & _ & HS). rewrite ES in ES3. injection ES3 as <- <-. destruct (HS (max_errors s) ltac:(lia)) as (F & HF & _).
      assert (LT : max_errors s < length sets) by (apply nth_error_Some; congruence). unfold sel. rewrite firstn_length, skipn_length. lia. }
    split; [congruence|]. intros i layer Hl. assert (LI : i < length sel) by (rewrite <- L; apply nth_error_Some; congruence). destruct (nth_error sel i) as [y|] eqn:HN; [|apply nth_error_None in HN; lia].
    destruct (INSEL y (nth_error_In _ _ HN)) as (F & -> & _). destruct (Q i F layer HN Hl) as (A & B & C & D & G). split; auto. split; auto. split; [|split].
    + intros ms Hms. apply C. now apply (ALT i).
    + intros ms Hms. apply D. now apply (ALT i).
    + intros ms Hms. apply G. now apply (ALT i).
  - left. split; auto. destruct SP as (i & F & HN & H). assert (Hi : i < max_errors s). { assert (i < length sel) by (apply nth_error_Some; congruence). unfold sel in *. rewrite firstn_length in *. lia. }
    exists (S i). split; [lia|]. intros ms Hms. apply H. now apply (ALT i). Qed.
(** ** C75 *)
(** Without time-outs, for every code, circuit, order of set iteration, earlier calls and right solver (whichever of several right answers it picks): gate_optimal_verification_stabilizers returns [] only if for some number
    of errors no alternative within max_ancillas measurements and as many CNOTs as all checks together exists.  Otherwise each layer measures no identity, stays within max_ancillas, takes the least number
    of CNOTs among all alternatives with at most as many ancillas, the least number of ancillas among all alternatives with at most as many CNOTs - and, among all alternatives within max_ancillas, less than twice the
    least number of CNOTs, unless it takes no more than the lightest check has. *)
Theorem C75_quality : forall L distance Hx Hz xd zd c circ zs det lin opt e x tmin tmax max_anc additional hist nodes fuel kk layers,
  opt_ok Hx -> opt_ok Hz -> ldpc_ok L -> optimizer_ok 1 opt -> (forall k, solver_ok 1 (e_solver e k)) -> CSSCode L distance Hx Hz xd zd = Ret c ->
  let n := sc_n (css_stab c) in let s := StatePrepCircuit n circ c zs det in
  cnots_of (drop_front [] circ) = Ret nodes -> lin nodes <> [] -> 1 <= max_errors s -> (forall l, additional = Some l -> wf n l) ->
  (forall r, In r (orth_checks s x) -> weight r <> 0) -> (forall k t, e_late e k t = false) -> (tmin <= tmax)%Z ->
  gate_optimal_verification_stabilizers fuel lin opt e s x tmin tmax max_anc additional (state_after lin opt s hist) = Done (kk, layers) ->
  let allowed := match max_anc with Some a => a | None => length (orth_checks s x) end in
  let alternative := meets_once s x (lin nodes) (match additional with Some l => l | None => [] end) in
  (layers = [] /\ exists j, 1 <= j <= max_errors s /\ forall ms, alternative j ms -> length ms <= allowed -> cnots (orth_checks s x) < cnots ms) \/
  length layers = max_errors s /\ forall i layer, nth_error layers i = Some layer -> length layer <= allowed /\ (forall m, In m layer -> weight m <> 0) /\
    (forall ms, alternative (S i) ms -> length ms <= length layer -> cnots layer <= cnots ms) /\
    (forall ms, alternative (S i) ms -> cnots ms <= cnots layer -> length layer <= length ms) /\
    (forall ms, alternative (S i) ms -> length ms <= allowed -> (forall r, In r (orth_checks s x) -> cnots layer <= weight r) \/ cnots layer <= 2 * cnots ms - 1).
Proof. intros L distance Hx Hz xd zd c circ zs det lin opt e x tmin tmax ma additional hist nodes fuel kk layers OX OZ HL OK SOK HC n s EN NL M WA NZ NLATE T2 E allowed alternative.
  assert (SO : spc_ok s) by exact (StatePrepCircuit_ok L distance Hx Hz xd zd c circ zs det OX OZ HL HC).
  exact (optimal_quality lin opt e s x tmin tmax ma nodes additional _ fuel kk layers OK SOK SO EN NL M (state_after_inv lin opt s nodes hist OK SO EN) WA NZ NLATE T2 E). Qed.
Print Assumptions C75_quality.
(** If every dangerous error is equivalent to one on at most two qubits, an alternative is nothing but a list of products of checks that detects every dangerous combination. *)
Theorem C75_light : forall L distance Hx Hz xd zd c circ zs det x nodes additional j ms, opt_ok Hx -> opt_ok Hz -> ldpc_ok L -> CSSCode L distance Hx Hz xd zd = Ret c ->
  let n := sc_n (css_stab c) in let s := StatePrepCircuit n circ c zs det in wf n additional ->
  (forall f, dangerous s x nodes additional j f -> weight f <= 2) -> (forall m, In m ms -> span n (orth_checks s x) m) ->
  (meets_once s x nodes additional j ms <-> forall e, combination s x nodes additional j e -> (forall w, span n (stabs_of s x) w -> max_weight s x * j < weight (vxor e w)) -> exists m, In m ms /\ dot m e = true).
Proof. intros L distance Hx Hz xd zd c circ zs det x nodes additional j ms OX OZ HL HC n s WA LW SP.
  assert (SO : spc_ok s) by exact (StatePrepCircuit_ok L distance Hx Hz xd zd c circ zs det OX OZ HL HC). pose proof (orth_wf s x SO) as WO. pose proof (stabs_wf s x SO) as WS.
  assert (DC : forall m f, length m = n -> length f = n -> dot m f = Nat.odd (common m f)) by (intros m f Lm Lf; rewrite (dot_seq n) by auto; unfold common; now rewrite Lm).
  split.
  - intros [_ B] e C W. pose proof (combination_length s x nodes additional j e WA C) as Le. change (sp_n s) with n in *.
    (* a lightest equivalent of e *)
    assert (OKR : optimizer_ok 1 cl_ref) by (apply ref_optimizer_ok; lia). destruct (coset_leader_ok cl_ref n e (stabs_of s x) OKR Le WS) as (SL & LL & ML). set (f := coset_leader cl_ref e (stabs_of s x)) in *.
    assert (D : dangerous s x nodes additional j f).
    { split; auto. split; [|exists e; auto]. intros w Hw. pose proof (span_length _ _ _ WS Hw) as Lw. specialize (ML (vxor (vxor e f) w) (span_vxor _ _ _ _ WS SL Hw)).
      assert (EQ : vxor e (vxor (vxor e f) w) = vxor f w) by (rewrite vxor_assoc, (vxor_cancel_l n) by auto; reflexivity). rewrite EQ in ML. exact ML. }
    destruct (B f D) as (m & Hm & Cm). exists m. split; auto. pose proof (span_length _ _ _ WO (SP m Hm)) as Lm. rewrite (dot_equiv s x m e f SO); auto. rewrite DC, Cm by auto. reflexivity.
  - intros D. split; [exact SP|]. intros f (Lf & Mf & e & C & W & SE). destruct (D e C W) as (m & Hm & Dm). exists m. split; auto. pose proof (span_length _ _ _ WO (SP m Hm)) as Lm.
    pose proof (combination_length s x nodes additional j e WA C) as Le. rewrite (dot_equiv s x m e f SO) in Dm; auto. change (sp_n s) with n in *. rewrite DC in Dm by auto.
    assert (common m f <= weight f). { rewrite (weight_seq n) by auto. unfold common. rewrite Lm. clear. induction (seq 0 n) as [|q l IHl]; cbn [filter]; auto. destruct (nth q m false), (nth q f false); cbn [andb length]; lia. }
    assert (weight f <= 2) by (apply LW; split; auto; split; auto; exists e; auto).
    destruct (common m f) as [|[|[|k]]]; auto; try discriminate. lia. Qed.
Print Assumptions C75_light.
(** With the default max_ancillas, and dangerous errors on at most two qubits, the search without time-outs never comes back empty-handed, and its layers protect. *)
Theorem C75_found : forall L distance Hx Hz xd zd c circ zs det lin opt e x tmin tmax additional hist nodes,
  opt_ok Hx -> opt_ok Hz -> ldpc_ok L -> optimizer_ok 1 opt -> (forall k, solver_ok 1 (e_solver e k)) -> CSSCode L distance Hx Hz xd zd = Ret c ->
  let n := sc_n (css_stab c) in let s := StatePrepCircuit n circ c zs det in let faults := match additional with Some l => l | None => [] end in
  cnots_of (drop_front [] circ) = Ret nodes -> lin nodes <> [] -> 1 <= max_errors s -> (forall l, additional = Some l -> wf n l) ->
  (forall r, In r (orth_checks s x) -> weight r <> 0) -> (forall k t, e_late e k t = false) -> (1 <= tmin <= tmax)%Z ->
  (forall j f, 1 <= j <= max_errors s -> dangerous s x (lin nodes) faults j f -> weight f <= 2) ->
  exists F0, forall fuel, F0 <= fuel -> exists kk layers, gate_optimal_verification_stabilizers fuel lin opt e s x tmin tmax None additional (state_after lin opt s hist) = Done (kk, layers) /\
    protects s x (lin nodes) additional layers.
Proof. intros L distance Hx Hz xd zd c circ zs det lin opt e x tmin tmax additional hist nodes OX OZ HL OK SOK HC n s faults EN NL M WA NZ NLATE [T1 T2] LW.
  assert (SO : spc_ok s) by exact (StatePrepCircuit_ok L distance Hx Hz xd zd c circ zs det OX OZ HL HC). pose proof (orth_wf s x SO) as WO. pose proof (state_after_inv lin opt s nodes hist OK SO EN) as KI.
  destruct (optimal_total lin opt e s x tmin tmax None nodes additional _ OK SOK SO EN NL M KI WA NZ T1) as (kk & layers & F0 & H). exists F0. intros fuel Hf. exists kk, layers. specialize (H fuel Hf). split; auto.
  destruct (C38_gate_optimal L distance Hx Hz xd zd c circ zs det lin opt e x tmin tmax None additional hist nodes fuel kk layers OX OZ HL OK SOK HC EN NL M WA H) as [EL|P]; [exfalso|exact P].
  assert (WF : wf n faults) by (unfold faults; destruct additional as [l|]; [now apply WA|apply Forall_nil]).
  destruct (C75_quality L distance Hx Hz xd zd c circ zs det lin opt e x tmin tmax None additional hist nodes fuel kk layers OX OZ HL OK SOK HC EN NL M WA NZ NLATE T2 H) as [(_ & j & Hj & A)|[LL _]].
  - fold n in Hj, A. fold s in Hj, A. fold faults in A. assert (SP : forall m, In m (orth_checks s x) -> span n (orth_checks s x) m) by (intros m Hm; now apply span_in).
    assert (MO : meets_once s x (lin nodes) faults j (orth_checks s x)).
    { apply (proj2 (C75_light L distance Hx Hz xd zd c circ zs det x (lin nodes) faults j (orth_checks s x) OX OZ HL HC WF (fun f => LW j f Hj) SP)).
      intros e' C W. pose proof (combination_length s x (lin nodes) faults j e' WF C) as Le. apply (detectable s x e' SO Le). intros SE. specialize (W e' SE). rewrite (vxor_self' (sp_n s)) in W by auto. rewrite weight_zeros in W. lia. }
    specialize (A _ MO (le_n _)). lia.
  - fold n in LL. fold s in LL. rewrite EL in LL. cbn [length] in LL. lia. Qed.
Print Assumptions C75_found.

(** ** C66, continued *)
Definition outcome_of_flags (r : outcome qcirc) (full : bool) (t : nat) (allowed : vec -> Prop) : Prop :=
  (exists qc, r = Done qc) \/
  full = true /\ t = 2 /\ (exists m, allowed m /\ (weight m = 3 /\ r = Failed AssertionError \/ (weight m = 7 \/ 9 <= weight m) /\ r = Failed IndexError)) \/
  full = true /\ t <> 1 /\ t <> 2 /\ r = Failed NotImplementedErr.
Lemma measured_outcome s m1 m2 full (checks2 : mat) : (forall m, In m m1 -> weight m <> 0) -> (forall m, In m m2 -> span (sp_n s) checks2 m /\ weight m <> 0) -> (full = false -> m2 = []) ->
  outcome_of_flags (of_py (if sp_zero s then measure_ft_stabs s m2 m1 full else measure_ft_stabs s m1 m2 full)) full (if sp_zero s then max_x_errors s else max_z_errors s) (span (sp_n s) checks2).
Proof. intros N1 N2 HF. set (t := if sp_zero s then max_x_errors s else max_z_errors s). set (qc0 := mkQc (map ins_of (sp_circ s)) (sp_n s) 0). unfold outcome_of_flags.
  assert (EQ : (if sp_zero s then measure_ft_stabs s m2 m1 full else measure_ft_stabs s m1 m2 full) = pbind (measure_ft (sp_zero s) qc0 m1 t false) (fun qc1 => measure_ft (negb (sp_zero s)) qc1 m2 t full)).
  { unfold measure_ft_stabs. fold qc0. unfold t. destruct (sp_zero s), full; cbn [negb measure_ft]; auto; rewrite HF by auto; (destruct (_ qc0 _ _ false); auto). }
  rewrite EQ. clear EQ. destruct (measure_ft_cases (sp_zero s) qc0 m1 t false N1) as [(qc1 & R1)|[D _]]; [|discriminate D]. rewrite R1. cbn [pbind].
  destruct (measure_ft_cases (negb (sp_zero s)) qc1 m2 t full (fun m Hm => proj2 (N2 m Hm))) as [(qc2 & R2)|(FT & m & qc3 & a & b & e & Hm & R3 & R2)]; rewrite R2; cbn [of_py]; [left; eauto|right].
  destruct (N2 m Hm) as [SP NZ]. destruct (C42_outcome qc3 (support m) a b t (negb (sp_zero s))) as (O1 & _ & _ & O4 & O5 & O6). rewrite support_weight in *.
  destruct (Nat.eq_dec t 1) as [T1|T1]; [destruct O1 as (q & O1); [left; split; [auto|lia]|congruence]|].
  destruct (Nat.eq_dec t 2) as [T2|T2]; [|right; split; [auto|split; [auto|split; [auto|]]]; rewrite (O6 T1 T2) in R3; congruence].
  left. split; auto. split; auto. exists m. split; auto.
  destruct (Nat.eq_dec (weight m) 3) as [W3|W3]; [left; split; auto; rewrite (O4 T2 W3) in R3; congruence|].
  assert (W : (weight m = 7 \/ 9 <= weight m) \/ In (weight m) [1; 2; 4; 5; 6; 8]) by (cbn [In]; lia). destruct W as [W|W]; [right; split; auto; rewrite (O5 T2 W) in R3; congruence|].
  destruct O1 as (q & O1); [right; auto|congruence]. Qed.
(** gate_optimal_verification_circuit comes to an end as well, whatever runs into the time limit, as long as no check is the identity and min_timeout is at least 1; without time-outs the outcomes are those of
    C66_terminates.  (After a time-out a layer may contain an identity, for which no circuit is built.) *)
Theorem C66_gate_optimal_terminates : forall L distance Hx Hz xd zd c circ zs det lin opt en tmin tmax max_anc full hist nodes,
  opt_ok Hx -> opt_ok Hz -> ldpc_ok L -> optimizer_ok 1 opt -> (forall x k, solver_ok 1 (e_solver (en x) k)) -> CSSCode L distance Hx Hz xd zd = Ret c ->
  let n := sc_n (css_stab c) in let s := StatePrepCircuit n circ c zs det in let t := if zs then max_x_errors s else max_z_errors s in
  cnots_of (drop_front [] circ) = Ret nodes -> lin nodes <> [] -> 1 <= max_errors s -> (forall x r, In r (orth_checks s x) -> weight r <> 0) -> (1 <= tmin)%Z ->
  exists F0, forall fuel, F0 <= fuel -> let r := gate_optimal_verification_circuit fuel lin opt en s tmin tmax max_anc full (state_after lin opt s hist) in
    r <> Unfinished /\ ((forall x k u, e_late (en x) k u = false) -> (tmin <= tmax)%Z ->
    (exists qc, r = Done qc) \/
    full = true /\ t = 2 /\ (exists m, span n (orth_checks s (negb zs)) m /\ (weight m = 3 /\ r = Failed AssertionError \/ (weight m = 7 \/ 9 <= weight m) /\ r = Failed IndexError)) \/
    full = true /\ t <> 1 /\ t <> 2 /\ r = Failed NotImplementedErr).
Proof. intros L distance Hx Hz xd zd c circ zs det lin opt en tmin tmax ma full hist nodes OX OZ HL OK SOK HC n s t EN NL M NZ T1.
  assert (SO : spc_ok s) by exact (StatePrepCircuit_ok L distance Hx Hz xd zd c circ zs det OX OZ HL HC). pose proof (state_after_inv lin opt s nodes hist OK SO EN) as KI. set (kk := state_after lin opt s hist) in *.
  assert (WN : forall l : mat, None = Some l -> wf (sp_n s) l) by discriminate.
  assert (SPN : forall x additional kk kk' layers fuel, kinv2 lin s nodes kk -> (forall l, additional = Some l -> wf (sp_n s) l) -> gate_optimal_verification_stabilizers fuel lin opt (en x) s x tmin tmax ma additional kk = Done (kk', layers) ->
    forall m, In m (concat layers) -> span (sp_n s) (orth_checks s x) m).
  { intros x additional kk0 kk' layers fuel KI0 WA E m Hm. destruct (optimal_call lin opt en s tmin tmax ma nodes fuel OK SOK SO EN NL M x additional kk0 kk' layers KI0 WA E) as [_ [->|P]]; [destruct Hm|exact (protects_span s x (lin nodes) additional layers m P Hm)]. }
  assert (QN : forall x additional kk kk' layers fuel, kinv2 lin s nodes kk -> (forall l, additional = Some l -> wf (sp_n s) l) -> (forall x k u, e_late (en x) k u = false) -> (tmin <= tmax)%Z ->
    gate_optimal_verification_stabilizers fuel lin opt (en x) s x tmin tmax ma additional kk = Done (kk', layers) -> forall m, In m (concat layers) -> weight m <> 0).
  { intros x additional kk0 kk' layers fuel KI0 WA NLATE T2 E m Hm.
    destruct (optimal_quality lin opt (en x) s x tmin tmax ma nodes additional kk0 fuel kk' layers OK (SOK x) SO EN NL M KI0 WA (NZ x) (NLATE x) T2 E) as [[-> _]|[_ Q]]; [destruct Hm|].
    apply in_concat in Hm as (layer & Hl & Hm). apply In_nth_error in Hl as (i & Hi). now apply (Q i layer Hi). }
  destruct (optimal_total lin opt (en zs) s zs tmin tmax ma nodes None kk OK (SOK zs) SO EN NL M KI WN (NZ zs) T1) as (k1 & l1 & F1 & E1).
  destruct (optimal_call lin opt en s tmin tmax ma nodes F1 OK SOK SO EN NL M zs None kk k1 l1 KI WN (E1 F1 (le_n _))) as [KI1 _].
  assert (WH : forall l : mat, Some (hook_errors (concat l1)) = Some l -> wf (sp_n s) l).
  { intros l [= <-]. apply hook_wf. apply Forall_forall. intros m Hm. exact (span_length _ _ _ (orth_wf s zs SO) (SPN zs None kk k1 l1 F1 KI WN (E1 F1 (le_n _)) m Hm)). }
  destruct (optimal_total lin opt (en (negb zs)) s (negb zs) tmin tmax ma nodes (Some (hook_errors (concat l1))) k1 OK (SOK _) SO EN NL M KI1 WH (NZ _) T1) as (k2 & l2 & F2 & E2).
  exists (F1 + F2). intros fuel Hf. cbv zeta. unfold gate_optimal_verification_circuit, verification_circuit_run. change (sp_zero s) with zs. rewrite E1 by lia. cbn [obind fst snd].
  set (m2 := if full then concat l2 else []).
  replace (if full then obind _ _ else Done []) with (Done m2 : outcome (list vec)) by (unfold m2; destruct full; auto; rewrite E2 by lia; reflexivity). cbn [obind]. split.
  - match goal with |- of_py ?p <> _ => destruct p; cbn [of_py]; discriminate end.
  - intros NLATE T2. apply (measured_outcome s (concat l1) m2 full (orth_checks s (negb zs))).
    + exact (QN zs None kk k1 l1 F1 KI WN NLATE T2 (E1 F1 (le_n _))).
    + unfold m2. destruct full; [|intros m []]. intros m Hm. split; [exact (SPN (negb zs) _ k1 k2 l2 F2 KI1 WH (E2 F2 (le_n _)) m Hm)|exact (QN (negb zs) _ k1 k2 l2 F2 KI1 WH NLATE T2 (E2 F2 (le_n _)) m Hm)].
    + unfold m2. intros ->. reflexivity. Qed.
Print Assumptions C66_gate_optimal_terminates.

(** ** C75: the name promises more *)
(** With more than one ancilla allowed the layer need not take the fewest CNOTs: after the first alternative is found, only those with at most as many ancillas are looked at.  A code on seven qubits, with three
    additional errors: the product g = Z3Z4Z5Z6 catches all three with four CNOTs, and so do Z0 and Z1Z2 together with three; z3 may answer with g when asked for at most four CNOTs and three ancillas. *)
Definition h7x := mkNd 7 [bv "0110000"; bv "0001100"; bv "0000110"; bv "0000011"].
Definition h7z := mkNd 7 [bv "0110000"; bv "0001111"].
Definition circ7 : list gate := [GH 1; GCX 1 2; GH 3; GCX 3 4; GCX 4 5; GCX 5 6].
Definition extra7 : mat := [bv "1001000"; bv "0101000"; bv "1101000"].
(** a solver that prefers to measure the third check alone *)
Definition pref7 : z3model vs_var Empty_set := mkZm (fun v => if vs_var_dec v (Mv 0 2) then Some true else None) (fun _ => None).
Definition solver7 (fs : list (expr vs_var Empty_set)) : option (z3model vs_var Empty_set) :=
  if forallb (eval (completion pref7)) fs && existsb (fun v => if vs_var_dec v (Mv 0 2) then true else false) (flat_map bvs fs) then Some pref7 else ref_solve vs_var_dec empty_dec 1 fs.
Lemma solver7_ok : solver_ok 1 solver7.
Proof. intros fs. unfold solver7. destruct (_ && _) eqn:E; [|exact (ref_solver_ok vs_var_dec empty_dec 1 ltac:(lia) fs)]. apply andb_true_iff in E as [A B]. split; [now apply forallb_forall|]. split; [intros []|].
  intros v Hv. apply existsb_exists in B as (v' & Hin & E). destruct (vs_var_dec v' (Mv 0 2)) as [->|]; [|discriminate]. unfold pref7 in Hv. cbn [zm_bool] in Hv. destruct (vs_var_dec v (Mv 0 2)) as [->|]; [|congruence].
  apply in_flat_map in Hin as (f & Hf & Hv'). exists f. split; auto. now apply occurs_bvs. Qed.
(** meets_once can be decided for one error: by the finitely many base faults and stabilizers *)
Definition meets_once_b (n : nat) (base stabs ms : mat) (w : nat) : bool :=
  forallb (fun e => forallb (fun cs => let f := vxor e (lincomb n cs stabs) in
    implb (forallb (fun cs' => weight f <=? weight (vxor f (lincomb n cs' stabs))) (all_vecs (length stabs)) && forallb (fun cs' => w <? weight (vxor e (lincomb n cs' stabs))) (all_vecs (length stabs)))
      (existsb (fun m => common m f =? 1) ms)) (all_vecs (length stabs))) base.
Lemma meets_once_by s x nodes additional ms : wf (sp_n s) (stabs_of s x) -> wf (sp_n s) additional -> (forall m, In m ms -> span (sp_n s) (orth_checks s x) m) ->
  meets_once_b (sp_n s) (single_faults (sp_n s) x nodes ++ identity (sp_n s) ++ additional) (stabs_of s x) ms (max_weight s x * 1) = true -> meets_once s x nodes additional 1 ms.
Proof. intros WS WA SP H. split; auto. intros f (Lf & Mf & e & C & W & SE). pose proof (combination_length s x nodes additional 1 e WA C) as Le. unfold meets_once_b in H. rewrite forallb_forall in H.
  assert (He : In e (single_faults (sp_n s) x nodes ++ identity (sp_n s) ++ additional)).
  { destruct C as (a & b & -> & Hb & ->). rewrite (vxor_zero_l (sp_n s)); [rewrite !in_app_iff; tauto|].
    destruct Hb as [[Hb|Hb]|Hb]; [exact (wf_in _ _ b (single_faults_wf (sp_n s) x nodes) Hb)|exact (wf_in _ _ b (identity_wf (sp_n s)) Hb)|exact (wf_in _ _ b WA Hb)]. }
  specialize (H e He). rewrite forallb_forall in H. destruct SE as (cs & Lc & Ecs). specialize (H cs (proj1 (all_vecs_in _ cs) Lc)). cbv zeta in H.
  assert (EF : vxor e (lincomb (sp_n s) cs (stabs_of s x)) = f) by (rewrite Ecs, (vxor_cancel_l (sp_n s)); auto). rewrite EF in H.
  replace (forallb _ _ && forallb _ _) with true in H.
  - cbn [implb] in H. apply existsb_exists in H as (m & Hm & E). exists m. split; auto. now apply Nat.eqb_eq.
  - symmetry. apply andb_true_iff. split; apply forallb_forall; intros cs' Hc'; apply all_vecs_in in Hc'.
    + apply Nat.leb_le, Mf. exists cs'. auto.
    + apply Nat.ltb_lt, W. exists cs'. auto. Qed.
Theorem C75_exact_refuted : opt_ok (Some h7x) /\ opt_ok (Some h7z) /\ ldpc_ok ldpc_ref /\ optimizer_ok 1 cl_ref /\ solver_ok 1 solver7 /\ wf 7 extra7 /\ exists c, CSSCode ldpc_ref 3 (Some h7x) (Some h7z) None None = Ret c /\ sc_n (css_stab c) = 7 /\
  let s := StatePrepCircuit 7 circ7 c true false in let e := mkEnv (fun _ => solver7) (fun _ _ => false) in max_errors s = 1 /\ length (orth_checks s true) = 3 /\ (forall r, In r (orth_checks s true) -> weight r <> 0) /\
  exists nodes, cnots_of (drop_front [] circ7) = Ret nodes /\ nodes <> [] /\ exists kk layer,
    gate_optimal_verification_stabilizers 10 (fun l => l) cl_ref e s true 1 100 None (Some extra7) (state_after (fun l => l) cl_ref s []) = Done (kk, [layer]) /\
    layer = [bv "0001111"] /\ meets_once s true nodes extra7 1 [bv "1000000"; bv "0110000"] /\ cnots [bv "1000000"; bv "0110000"] < cnots layer.
Proof. split; [cbn; repeat constructor|]. split; [cbn; repeat constructor|]. split; [apply ldpc_ref_ok|]. split; [apply ref_optimizer_ok; lia|]. split; [apply solver7_ok|]. split; [repeat constructor|].
  destruct (CSSCode ldpc_ref 3 (Some h7x) (Some h7z) None None) as [c|] eqn:EC; [|vm_compute in EC; discriminate]. exists c. split; auto. vm_compute in EC. injection EC as EC.
  split; [now rewrite <- EC|]. cbv zeta. set (s := StatePrepCircuit 7 circ7 c true false). assert (OZ : orth_checks s true = [bv "1000000"; bv "0110000"; bv "0001111"]) by (unfold s; rewrite <- EC; reflexivity).
  split; [unfold s; rewrite <- EC; reflexivity|]. split; [now rewrite OZ|]. split; [rewrite OZ; intros r [<-|[<-|[<-|[]]]]; vm_compute; discriminate|].
  eexists. split; [reflexivity|]. split; [discriminate|].
  assert (R : match gate_optimal_verification_stabilizers 10 (fun l => l) cl_ref (mkEnv (fun _ => solver7) (fun _ _ => false)) s true 1 100 None (Some extra7) (state_after (fun l => l) cl_ref s []) with Done (_, l) => Some l | _ => None end = Some [[bv "0001111"]])
    by (unfold s; rewrite <- EC; vm_compute; reflexivity).
  destruct (gate_optimal_verification_stabilizers 10 _ _ _ _ _ _ _ _ _ _) as [[kk l]| |]; try discriminate R. injection R as ->. exists kk, [bv "0001111"]. split; auto. split; auto. split; [|vm_compute; lia].
  assert (SN : sp_n s = 7) by reflexivity. assert (ST : stabs_of s true = nd_rows h7x) by (unfold s; rewrite <- EC; reflexivity). assert (MW : max_weight s true = 1) by (unfold s; rewrite <- EC; reflexivity).
  apply meets_once_by; [rewrite ST, SN; repeat constructor|rewrite SN; repeat constructor| |rewrite SN, ST, MW; vm_compute; reflexivity].
  rewrite OZ, SN. intros m [<-|[<-|[]]]; [exists [true;false;false]|exists [false;true;false]]; split; reflexivity. Qed.
Print Assumptions C75_exact_refuted.
(** C75_exact_refuted meets the hypotheses of C75_quality; the [[4,2,2]] code of C66_nonvacuous meets those of C75_light, C75_found, C66_terminates and C66_gate_optimal_terminates *)
Example C75_nonvacuous : opt_ok checks_422 /\ ldpc_ok ldpc_ref /\ optimizer_ok 1 cl_ref /\ solver_ok 1 (ref_solve vs_var_dec empty_dec 1) /\
  exists c, CSSCode ldpc_ref 2 checks_422 checks_422 None None = Ret c /\ sc_n (css_stab c) = 4 /\
  let s := StatePrepCircuit 4 circ_422 c true false in let e := mkEnv (fun _ => ref_solve vs_var_dec empty_dec 1) (fun _ _ => false) in
  max_errors s = 1 /\ (forall x r, In r (orth_checks s x) -> weight r <> 0) /\ (forall j f, dangerous s true [(0,2);(2,3);(0,1)] [] j f -> weight f <= 2) /\
  cnots_of (drop_front [] circ_422) = Ret [(0,2);(2,3);(0,1)] /\
  (exists kk, gate_optimal_verification_stabilizers 10 (fun l => l) cl_ref e s true 1 100 None None (state_after (fun l => l) cl_ref s []) = Done (kk, [[[true;false;true;false]]])) /\
  dangerous s true [(0,2);(2,3);(0,1)] [] 1 [true;true;false;false].
Proof. split; [cbn; repeat constructor|]. split; [apply ldpc_ref_ok|]. split; [apply ref_optimizer_ok; lia|]. split; [apply ref_solver_ok; lia|].
  destruct (CSSCode ldpc_ref 2 checks_422 checks_422 None None) as [c|] eqn:EC; [|vm_compute in EC; discriminate]. exists c. split; auto. vm_compute in EC. injection EC as EC. split; [now rewrite <- EC|]. cbv zeta.
  set (s := StatePrepCircuit 4 circ_422 c true false). assert (SN : sp_n s = 4) by reflexivity. assert (ST : stabs_of s true = [[true;true;true;true]]) by (unfold s; rewrite <- EC; reflexivity). assert (MW : max_weight s true = 1) by (unfold s; rewrite <- EC; reflexivity).
  split; [unfold s; rewrite <- EC; reflexivity|]. split; [|split; [|split; [reflexivity|split]]].
  - intros x r Hr. assert (OZ : orth_checks s x = if x then [[true;true;false;false];[true;false;true;false];[true;true;true;true]] else [[true;true;true;true]]) by (unfold s; rewrite <- EC; destruct x; reflexivity). rewrite OZ in Hr.
    destruct x; cbn [In] in Hr; repeat (destruct Hr as [<-|Hr]; [vm_compute; discriminate|]); destruct Hr.
  - intros j f (Lf & Mf & _). specialize (Mf [true;true;true;true]). rewrite SN, ST in *. assert (SP : span 4 [[true;true;true;true]] [true;true;true;true]) by (exists [true]; split; reflexivity). specialize (Mf SP).
    destruct f as [|a [|b [|d [|g [|? ?]]]]]; try discriminate Lf. destruct a, b, d, g; vm_compute in Mf |- *; lia.
  - assert (R : match gate_optimal_verification_stabilizers 10 (fun l => l) cl_ref (mkEnv (fun _ => ref_solve vs_var_dec empty_dec 1) (fun _ _ => false)) s true 1 100 None None (state_after (fun l => l) cl_ref s []) with Done (_, l) => Some l | _ => None end = Some [[[true;false;true;false]]])
      by (unfold s; rewrite <- EC; vm_compute; reflexivity).
    destruct (gate_optimal_verification_stabilizers 10 _ _ _ _ _ _ _ _ _ _) as [[kk l]| |]; try discriminate R. injection R as ->. exists kk. reflexivity.
  - split; [reflexivity|]. split; [intros w (cs & Lc & <-); rewrite SN, ST in *; destruct cs as [|a [|? ?]]; try discriminate Lc; destruct a; vm_compute; lia|].
    exists [true;true;false;false]. split; [|split].
    + exists (vzero 4), [true;true;false;false]. split; [reflexivity|]. split; [|reflexivity]. left. left. vm_compute. tauto.
    + intros w (cs & Lc & <-). rewrite MW. rewrite SN, ST in *. destruct cs as [|a [|? ?]]; try discriminate Lc; destruct a; vm_compute; lia.
    + rewrite SN, ST. exists [false]. split; reflexivity. Qed.
