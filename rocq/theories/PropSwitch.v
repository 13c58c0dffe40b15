(** * PropSwitch: property C74 (how many errors a preparation is made safe against; switching between correction and detection) *)
From Coq Require Import ZArith Lia.
From Verif Require Import SwitchModel FlagModel ColorDecode RreRef Z3Ref NamedData PropPrep PropFault.
Local Open Scope nat_scope.

(** the flag of the object: asked for, or distance two *)
Definition detecting (c : css) (asked : bool) : Prop := asked = true \/ css_distance c = 2%Z.
Lemma detect_iff n circ c zs det : sp_detect (StatePrepCircuit n circ c zs det) = true <-> detecting c det.
Proof. unfold detecting. cbn. rewrite orb_true_iff, Z.eqb_eq. tauto. Qed.
(** max_errors, max_x_errors, max_z_errors: for correction the largest t with 2t < d, for detection the largest t with 2t <= d. *)
Lemma half_spec det d t : (1 <= d)%Z -> (t <= half det d <-> if det then (2 * Z.of_nat t <= d)%Z else (2 * Z.of_nat t < d)%Z).
Proof.
  intros D. unfold half. destruct det.
  - pose proof (Z.div_mod d 2). pose proof (Z.mod_pos_bound d 2). split; intros; lia.
  - pose proof (Z.div_mod (d - 1) 2). pose proof (Z.mod_pos_bound (d - 1) 2). split; intros; lia.
Qed.
Theorem C74_max_errors : forall L distance Hx Hz xd zd c circ zs det,
  opt_ok Hx -> opt_ok Hz -> ldpc_ok L -> CSSCode L distance Hx Hz xd zd = Ret c ->
  let s := StatePrepCircuit (sc_n (css_stab c)) circ c zs det in
  (~ detecting c det -> forall t, (t <= max_errors s <-> (2 * Z.of_nat t < css_distance c)%Z) /\ (t <= max_x_errors s <-> (2 * Z.of_nat t < css_xdist c)%Z) /\ (t <= max_z_errors s <-> (2 * Z.of_nat t < css_zdist c)%Z)) /\
  (detecting c det -> forall t, (t <= max_errors s <-> (2 * Z.of_nat t <= css_distance c)%Z) /\ (t <= max_x_errors s <-> (2 * Z.of_nat t <= css_xdist c)%Z) /\ (t <= max_z_errors s <-> (2 * Z.of_nat t <= css_zdist c)%Z)).
Proof.
  intros L distance Hx Hz xd zd c circ zs det OX OZ HL HC s. destruct (StatePrepCircuit_ok L distance Hx Hz xd zd c circ zs det OX OZ HL HC) as (_ & _ & D & DX & DZ & _). fold s in D, DX, DZ.
  change (sp_d s) with (css_distance c) in *. change (sp_dx s) with (css_xdist c) in *. change (sp_dz s) with (css_zdist c) in *.
  unfold max_errors, max_x_errors, max_z_errors. change (sp_d s) with (css_distance c). change (sp_dx s) with (css_xdist c). change (sp_dz s) with (css_zdist c).
  split; intros H t.
  - assert (F : sp_detect s = false) by (destruct (sp_detect s) eqn:E; auto; exfalso; apply H; apply (detect_iff (sc_n (css_stab c)) circ c zs det); auto). rewrite F.
    pose proof (half_spec false (css_distance c) t). pose proof (half_spec false (css_xdist c) t). pose proof (half_spec false (css_zdist c) t). cbv iota in *. repeat split; intros; lia.
  - assert (F : sp_detect s = true) by (apply (detect_iff (sc_n (css_stab c)) circ c zs det); auto). rewrite F.
    pose proof (half_spec true (css_distance c) t). pose proof (half_spec true (css_xdist c) t). pose proof (half_spec true (css_zdist c) t). cbv iota in *. repeat split; intros; lia.
Qed.
Print Assumptions C74_max_errors.

(** The weight per fault that is tolerated (C36 and C70 leave faults of weight max_weight * j alone) fits the distance against errors of that type. *)
Lemma budget (d dx : Z) (det : bool) j : (1 <= d)%Z -> (d <= dx)%Z -> (det = false -> d <> 2%Z) -> (det = true -> (2 <= d)%Z) -> j <= half det d ->
  let mw := Z.to_nat (Z.max ((dx - 1) / 2) 1 / Z.max ((d - 1) / 2) 1) in
  if det then (Z.of_nat (mw * j) < dx)%Z else (2 * Z.of_nat (mw * j) < dx)%Z.
Proof.
  intros D DX N2 N3 J mw. assert (A : (0 <= (d - 1) / 2 <= (dx - 1) / 2)%Z) by (split; [apply Z.div_pos; lia|apply Z.div_le_mono; lia]).
  apply (half_spec det d j D) in J. pose proof (Z.div_mod (d - 1) 2 ltac:(lia)) as M1. pose proof (Z.mod_pos_bound (d - 1) 2 ltac:(lia)) as M2. pose proof (Z.div_mod (dx - 1) 2 ltac:(lia)) as M3. pose proof (Z.mod_pos_bound (dx - 1) 2 ltac:(lia)) as M4.
  set (a := ((d - 1) / 2)%Z) in *. set (b := ((dx - 1) / 2)%Z) in *.
  assert (QP : (0 <= Z.max b 1 / Z.max a 1)%Z) by (apply Z.div_pos; lia). assert (QM : (Z.max a 1 * (Z.max b 1 / Z.max a 1) <= Z.max b 1)%Z) by (apply Z.mul_div_le; lia).
  assert (E : Z.of_nat (mw * j) = (Z.max b 1 / Z.max a 1 * Z.of_nat j)%Z) by (unfold mw; rewrite Nat2Z.inj_mul, Z2Nat.id; auto). rewrite E. clear E mw. set (q := (Z.max b 1 / Z.max a 1)%Z) in *. set (t := Z.of_nat j) in *. assert (T0 : (0 <= t)%Z) by (unfold t; lia).
  destruct det.
  - specialize (N3 eq_refl). destruct (Z.eq_dec a 0) as [A0|A0].
    + (* d = 2 *) assert (t <= 1)%Z by lia. replace (Z.max a 1) with 1%Z in QM by lia. destruct (Z.eq_dec b 0); [assert (q * t <= 1)%Z by nia; lia|]. assert (q * t <= b)%Z by nia. lia.
    + replace (Z.max a 1) with a in QM by lia. replace (Z.max b 1) with b in QM by lia. assert (t <= a + 1)%Z by lia. assert (q <= b)%Z by nia. assert (q * t <= a * q + q)%Z by nia. lia.
  - specialize (N2 eq_refl). destruct (Z.eq_dec t 0) as [->|T]; [lia|]. assert (1 <= a)%Z by lia. replace (Z.max a 1) with a in QM by lia. replace (Z.max b 1) with b in QM by lia. assert (t <= a)%Z by lia. assert (q * t <= b)%Z by nia. lia.
Qed.
(** [d] is at most the weight of every operator of the type that commutes with the checks [other] but is no product of the checks [same] *)
Definition distance_at_least (n : nat) (same other : mat) (d : Z) : Prop := forall v, length v = n -> mulMV other v = vzero (length other) -> ~ span n same v -> (d <= Z.of_nat (weight v))%Z.
Definition type_dist (c : css) (x : bool) : Z := if x then css_xdist c else css_zdist c.
Definition same_checks (c : css) (x : bool) : mat := if x then nd_rows (css_Hx c) else nd_rows (css_Hz c).
Definition other_checks (c : css) (x : bool) : mat := if x then nd_rows (css_Hz c) else nd_rows (css_Hx c).
(** Correction: what at most max_errors faults may leave behind (max_weight for each) can be told apart by the syndrome, up to stabilizers.
    Detection: it is noticed, unless it is a stabilizer. *)
Theorem C74_tolerable : forall L distance Hx Hz xd zd c circ zs det x i j e f,
  opt_ok Hx -> opt_ok Hz -> ldpc_ok L -> CSSCode L distance Hx Hz xd zd = Ret c ->
  let n := sc_n (css_stab c) in let s := StatePrepCircuit n circ c zs det in
  distance_at_least n (same_checks c x) (other_checks c x) (type_dist c x) -> i <= max_errors s -> j <= max_errors s ->
  length e = n -> weight e <= max_weight s x * i -> length f = n -> weight f <= max_weight s x * j ->
  (~ detecting c det -> mulMV (other_checks c x) e = mulMV (other_checks c x) f -> span n (same_checks c x) (vxor e f)) /\
  (detecting c det -> (2 <= css_distance c)%Z -> mulMV (other_checks c x) e = vzero (length (other_checks c x)) -> span n (same_checks c x) e).
Proof.
  intros L distance Hx Hz xd zd c circ zs det x i j e f OX OZ HL HC n s DA I J Le We Lf Wf.
  destruct (StatePrepCircuit_ok L distance Hx Hz xd zd c circ zs det OX OZ HL HC) as (WX & WZ & D & DX & DZ & _). fold n in WX, WZ, D, DX, DZ. fold s in WX, WZ, D, DX, DZ.
  assert (BX : forall k, k <= max_errors s -> (sp_detect s = false -> sp_d s <> 2%Z) -> (sp_detect s = true -> (2 <= sp_d s)%Z) ->
    if sp_detect s then (Z.of_nat (max_weight s x * k) < type_dist c x)%Z else (2 * Z.of_nat (max_weight s x * k) < type_dist c x)%Z).
  { intros k K A B. unfold type_dist. destruct x; [apply (budget (sp_d s) (sp_dx s) (sp_detect s) k); auto; lia|apply (budget (sp_d s) (sp_dz s) (sp_detect s) k); auto; lia]. }
  assert (DEC : forall v : vec, length v = n -> {span n (same_checks c x) v} + {~ span n (same_checks c x) v}) by (intros v _; apply span_dec).
  split.
  - intros ND ES. assert (F : sp_detect s = false) by (destruct (sp_detect s) eqn:E; auto; exfalso; apply ND; apply (detect_iff n circ c zs det); auto).
    assert (LV : length (vxor e f) = n) by (apply vxor_length'; auto). destruct (DEC (vxor e f) LV) as [H|H]; auto. exfalso.
    assert (K : mulMV (other_checks c x) (vxor e f) = vzero (length (other_checks c x))) by (rewrite (mulMV_vxor _ n) by auto; rewrite ES; apply vxor_self'; apply mulMV_length).
    pose proof (DA _ LV K H) as W. pose proof (weight_vxor_le e f) as W2.
    assert (N2 : sp_d s <> 2%Z) by (intros E2; apply ND; right; exact E2).
    pose proof (BX i I (fun _ => N2) (fun E => False_ind _ (Bool.diff_false_true (eq_trans (eq_sym F) E)))) as B1. pose proof (BX j J (fun _ => N2) (fun E => False_ind _ (Bool.diff_false_true (eq_trans (eq_sym F) E)))) as B2. rewrite F in B1, B2. lia.
  - intros DT D2 K. assert (F : sp_detect s = true) by (apply (detect_iff n circ c zs det); auto). destruct (DEC e Le) as [H|H]; auto. exfalso. pose proof (DA e Le K H) as W.
    pose proof (BX i I (fun E => False_ind _ (Bool.diff_false_true (eq_trans (eq_sym E) F))) (fun _ => D2)) as B1. rewrite F in B1. lia.
Qed.
Print Assumptions C74_tolerable.

(** ** switching *)
(** after any sequence of operations the object is a new object with the last flag asked for, in the state after the calls made since *)
Fixpoint last_flag (det : bool) (ops : list op) : bool := match ops with [] => det | Detect b :: r => last_flag b r | _ :: r => last_flag det r end.
Fixpoint calls_since (acc : list (bool * nat * bool)) (ops : list op) : list (bool * nat * bool) := match ops with [] => acc | Detect _ :: r => calls_since [] r | Compute x j re :: r => calls_since (acc ++ [(x, j, re)]) r end.
Theorem C74_switch : forall lin opt n circ c zs det ops,
  let s' := StatePrepCircuit n circ c zs (last_flag det ops) in
  object_after lin opt (StatePrepCircuit n circ c zs det) ops = (s', state_after lin opt s' (calls_since [] ops)).
Proof.
  intros lin opt n circ c zs det ops s'. unfold object_after, s'. clear s'.
  assert (G : forall ops det acc, fold_left (do_op lin opt) ops (StatePrepCircuit n circ c zs det, state_after lin opt (StatePrepCircuit n circ c zs det) acc) =
    (StatePrepCircuit n circ c zs (last_flag det ops), state_after lin opt (StatePrepCircuit n circ c zs (last_flag det ops)) (calls_since acc ops))).
  { clear. induction ops as [|[x j re|b] r IH]; intros det acc; cbn [fold_left last_flag calls_since]; [reflexivity| |].
    - rewrite <- IH. f_equal. cbn [do_op fst snd]. f_equal. unfold state_after. rewrite fold_left_app. reflexivity.
    - rewrite <- IH. reflexivity. }
  exact (G ops det []).
Qed.
Print Assumptions C74_switch.
(** so a fault set computed after any such sequence is that of C36 for the flag asked for last *)
Theorem C74_fault_sets_after : forall L distance Hx Hz xd zd c circ zs det lin opt x reduce ops nodes j,
  opt_ok Hx -> opt_ok Hz -> ldpc_ok L -> optimizer_ok 1 opt -> CSSCode L distance Hx Hz xd zd = Ret c ->
  let n := sc_n (css_stab c) in let st := object_after lin opt (StatePrepCircuit n circ c zs det) ops in let s := fst st in
  cnots_of (drop_front [] circ) = Ret nodes -> lin nodes <> [] ->
  (j <= max_errors s <-> if last_flag det ops || (css_distance c =? 2)%Z then (2 * Z.of_nat j <= css_distance c)%Z else (2 * Z.of_nat j < css_distance c)%Z) /\
  (1 <= j <= max_errors s -> exists k' F, compute_fault_set lin opt s x reduce j (cache_of x (snd st)) = Ret (k', F) /\
  let combined := ksum n (fun b => In b (single_faults n x (lin nodes)) \/ In b (identity n)) j in
  let threshold := max_weight s x * j in
  (forall f, In f F -> length f = n /\ threshold < weight f /\ (exists e, combined e /\ span n (stabs_of s x) (vxor e f)) /\
     (forall w, span n (stabs_of s x) w -> weight f <= weight (vxor f w))) /\
  (forall e, combined e -> (forall w, span n (stabs_of s x) w -> threshold < weight (vxor e w)) -> exists f, In f F /\ span n (stabs_of s x) (vxor e f))).
Proof.
  intros L distance Hx Hz xd zd c circ zs det lin opt x reduce ops nodes j OX OZ HL OK HC n st s EN NL. pose proof (C74_switch lin opt n circ c zs det ops) as E. cbv zeta in E. fold st in E.
  split.
  - destruct (StatePrepCircuit_ok L distance Hx Hz xd zd c circ zs (last_flag det ops) OX OZ HL HC) as (_ & _ & D & _). unfold s. rewrite E. cbn [fst].
    pose proof (half_spec (last_flag det ops || (css_distance c =? 2)%Z) (css_distance c) j). cbn [StatePrepCircuit sp_d] in D. unfold max_errors. cbn [StatePrepCircuit sp_d sp_detect]. apply H. lia.
  - unfold s. rewrite E. cbn [fst snd]. intros J.
    destruct (C36_multi_faults L distance Hx Hz xd zd c circ zs (last_flag det ops) lin opt x reduce (calls_since [] ops) nodes j OX OZ HL OK HC EN NL J) as (k' & F & A & B & C & _). exists k', F. repeat split; auto; apply B; auto.
Qed.
Print Assumptions C74_fault_sets_after.

(** ** non-vacuity: the Steane code corrects one error; switched to detection it still counts one, and back; [[4,2,2]] detects one error whatever is asked for *)
Definition far (n : nat) (same other : mat) (d : nat) : bool := forallb (fun v => if list_eq_dec Bool.bool_dec (mulMV other v) (vzero (length other)) then in_spanb n same v || (d <=? weight v) else true) (all_vecs n).
Lemma far_ok n same other d : wf n same -> far n same other d = true -> distance_at_least n same other (Z.of_nat d).
Proof.
  intros W F v L K N. unfold far in F. rewrite forallb_forall in F. specialize (F v (proj1 (all_vecs_in n v) L)). destruct (list_eq_dec Bool.bool_dec (mulMV other v) (vzero (length other))) as [|X]; [|contradiction].
  apply orb_true_iff in F as [F|F]; [apply in_spanb_spec in F; auto; contradiction|]. apply Nat.leb_le in F. lia.
Qed.
Example C74_nonvacuous :
  (exists c, CSSCode ldpc_ref 3 (Some steane7) (Some steane7) None None = Ret c /\ distance_at_least 7 (same_checks c true) (other_checks c true) (type_dist c true) /\ ~ detecting c false /\
     forall circ, max_errors (StatePrepCircuit 7 circ c true false) = 1 /\ max_weight (StatePrepCircuit 7 circ c true false) true = 1) /\
  (exists c, CSSCode ldpc_ref 2 (Some (mkNd 4 [[true;true;true;true]])) (Some (mkNd 4 [[true;true;true;true]])) None None = Ret c /\ distance_at_least 4 (same_checks c true) (other_checks c true) (type_dist c true) /\ detecting c false /\
     forall circ, max_errors (StatePrepCircuit 4 circ c true false) = 1) /\
  last_flag false [Compute true 1 true; Detect true; Compute false 1 false; Detect false; Compute true 1 false] = false /\
  calls_since [] [Compute true 1 true; Detect true; Compute false 1 false; Detect false; Compute true 1 false] = [(true, 1, false)].
Proof.
  split; [|split; [|split; reflexivity]].
  - destruct (CSSCode ldpc_ref 3 (Some steane7) (Some steane7) None None) as [c|] eqn:E; [|vm_compute in E; discriminate]. exists c. split; auto.
    assert (X : nd_rows (css_Hx c) = nd_rows steane7 /\ nd_rows (css_Hz c) = nd_rows steane7 /\ css_xdist c = 3%Z /\ css_distance c = 3%Z) by (vm_compute in E; injection E as <-; repeat split). destruct X as (X1 & X2 & X3 & X4).
    unfold same_checks, other_checks, type_dist, detecting. rewrite X1, X2, X3, X4. split; [apply (far_ok 7 _ _ 3); [repeat constructor|vm_compute; reflexivity]|]. split; [intros [A|A]; discriminate|].
    intros circ. unfold max_errors, max_weight. cbn [StatePrepCircuit sp_detect sp_d sp_dx orb]. rewrite X3, X4. split; reflexivity.
  - destruct (CSSCode ldpc_ref 2 (Some (mkNd 4 [[true;true;true;true]])) (Some (mkNd 4 [[true;true;true;true]])) None None) as [c|] eqn:E; [|vm_compute in E; discriminate]. exists c. split; auto.
    assert (X : nd_rows (css_Hx c) = [[true;true;true;true]] /\ nd_rows (css_Hz c) = [[true;true;true;true]] /\ css_xdist c = 2%Z /\ css_distance c = 2%Z) by (vm_compute in E; injection E as <-; repeat split). destruct X as (X1 & X2 & X3 & X4).
    unfold same_checks, other_checks, type_dist, detecting. rewrite X1, X2, X3, X4. split; [apply (far_ok 4 _ _ 2); [repeat constructor|vm_compute; reflexivity]|]. split; [now right|].
    intros circ. unfold max_errors. cbn [StatePrepCircuit sp_detect sp_d orb]. rewrite X4. reflexivity.
Qed.
