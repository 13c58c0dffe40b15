(** * PropSynth: property C41 - the symbolic synthesis of state preparation circuits *)
From Verif Require Import SynthProofs5 PropSearch PropPrep.
Local Open Scope nat_scope.

(** Specification: SynthProofs4.prepares / gate_circuit / layered_circuit - Hadamards on different qubits followed by CNOTs (D of them, or D layers of them each using a qubit at most once), run
    on |0..0>, give the uniform superposition over the products of X checks (zero state) or over the strings orthogonal to the Z checks (plus state).
    synth_solver_ok is the contract of z3. *)

(** The bounded gate generator with independent checks: a returned circuit has exactly D CNOTs and prepares the state; if nothing is returned no circuit with at most D CNOTs does. *)
Theorem C41_gates_exact : forall solver checks D zs, 2 <= nd_cols checks -> wf (nd_cols checks) (nd_rows checks) -> nd_rows checks <> [] -> 1 <= D ->
  synth_solver_ok (bv_width (nd_cols checks)) solver -> rk (nd_cols checks) (nd_rows checks) = length (nd_rows checks) ->
  (exists circ, generate_circ_with_bounded_gates solver checks (Z.of_nat D) zs = Ret (Some circ) /\ gate_circuit (nd_cols checks) D circ /\ prepares (nd_cols checks) (nd_rows checks) zs (run (nd_cols checks) circ)) \/
  (generate_circ_with_bounded_gates solver checks (Z.of_nat D) zs = Ret None /\
   forall k circ, k <= D -> gate_circuit (nd_cols checks) k circ -> ~ prepares (nd_cols checks) (nd_rows checks) zs (run (nd_cols checks) circ)).
Proof. exact gates_result. Qed.
Print Assumptions C41_gates_exact.

(** The bounded depth generator with independent checks: layers instead of CNOTs. *)
Theorem C41_depth_exact : forall width solver checks D zs, 0 < width -> wf (nd_cols checks) (nd_rows checks) -> 2 <= nd_cols checks -> nd_rows checks <> [] -> 1 <= D ->
  synth_solver_ok width solver -> rk (nd_cols checks) (nd_rows checks) = length (nd_rows checks) ->
  (exists circ, generate_circ_with_bounded_depth solver checks (Z.of_nat D) zs = Ret (Some circ) /\ layered_circuit (nd_cols checks) D circ /\ prepares (nd_cols checks) (nd_rows checks) zs (run (nd_cols checks) circ)) \/
  (generate_circ_with_bounded_depth solver checks (Z.of_nat D) zs = Ret None /\
   forall k circ, k <= D -> layered_circuit (nd_cols checks) k circ -> ~ prepares (nd_cols checks) (nd_rows checks) zs (run (nd_cols checks) circ)).
Proof. intros width solver checks D zs W0 W N. apply depth_result; auto; lia. Qed.
Print Assumptions C41_depth_exact.

(** With redundant checks the expectation fails: the code asks for as many nonzero columns as there are rows, not as the rank says, so whatever it returns prepares another state. *)
Theorem C41_redundant_refuted : forall width solver checks D zs circ, 2 <= nd_cols checks -> wf (nd_cols checks) (nd_rows checks) -> 1 <= D ->
  rk (nd_cols checks) (nd_rows checks) < length (nd_rows checks) -> 0 < width ->
  (synth_solver_ok (bv_width (nd_cols checks)) solver -> generate_circ_with_bounded_gates solver checks (Z.of_nat D) zs = Ret (Some circ) -> ~ prepares (nd_cols checks) (nd_rows checks) zs (run (nd_cols checks) circ)) /\
  (synth_solver_ok width solver -> generate_circ_with_bounded_depth solver checks (Z.of_nat D) zs = Ret (Some circ) -> ~ prepares (nd_cols checks) (nd_rows checks) zs (run (nd_cols checks) circ)).
Proof. intros width solver checks D zs circ. set (n := nd_cols checks). set (rows := nd_rows checks). intros N W HD RK W0.
  assert (G : forall cn, cn_ok n cn -> length rows <= n -> is_reduced n (length rows) (map (cxs cn) rows) = true -> ~ prepares n rows zs (run n (build_circuit n cn (map (cxs cn) rows) zs))).
  { intros cn K LE R P. destruct (build_hc n (map (cxs cn) rows) cn zs) as (hs & EH & ND & F & L). rewrite EH in P.
    destruct (circuit_reduced n rows zs hs (elim zs cn) W ND F (elim_ok n zs cn K) P) as (LH & _ & _). unfold is_reduced in R. apply Nat.eqb_eq in R. rewrite R in L. unfold mat, vec in *. destruct zs; lia. }
  split; intros SO E.
  - unfold generate_circ_with_bounded_gates in E. fold n rows in E. destruct (n <=? 1); [discriminate|]. destruct (Z.of_nat D <=? 0)%Z; [discriminate|]. destruct (length rows =? 0); [discriminate|]. rewrite Nat2Z.id in E.
    pose proof (SO (gates_query rows n D)) as A. destruct (solver _) as [m|]; [|discriminate]. destruct (gates_model rows n D m N W HD A) as (cn & EC & L & K & FR & LE & R). rewrite EC in E. cbn [pbind] in E. injection E as <-. rewrite FR. now apply G.
  - unfold generate_circ_with_bounded_depth in E. fold n rows in E. destruct (Z.of_nat D <=? 0)%Z; [discriminate|]. destruct ((length rows =? 0) || (n =? 0)); [discriminate|]. rewrite Nat2Z.id in E.
    pose proof (SO (depth_query rows n D)) as A. destruct (solver _) as [m|]; [|discriminate]. destruct (depth_model width rows n D m W0 W HD A) as (ls & EC & L & K & FR & LE & R). rewrite EC in E. injection E as <-. rewrite FR. apply G; auto.
    apply Forall_concat. eapply Forall_impl; [|exact K]. intros l [Kl _]; auto. Qed.
Print Assumptions C41_redundant_refuted.

(** The optimizations, without time-outs and with independent checks: nothing is returned iff no circuit within the maximum prepares the state; otherwise the result is a circuit with the least
    possible number of CNOTs (layers), if that number is at least 2 - if one CNOT (layer) or none suffices, the search goes on to 0 and raises IndexError. *)
Definition checks_of (c : css) (zs : bool) : nd := if zs then css_Hx c else css_Hz c.
Definition cnots_suffice (c : css) (zs : bool) (p : nat) : Prop := exists circ, gate_circuit (nd_cols (checks_of c zs)) p circ /\ prepares (nd_cols (checks_of c zs)) (nd_rows (checks_of c zs)) zs (run (nd_cols (checks_of c zs)) circ).
Definition layers_suffice (c : css) (zs : bool) (p : nat) : Prop := exists circ, layered_circuit (nd_cols (checks_of c zs)) p circ /\ prepares (nd_cols (checks_of c zs)) (nd_rows (checks_of c zs)) zs (run (nd_cols (checks_of c zs)) circ).

Lemma gates_mono c zs p q : 2 <= nd_cols (checks_of c zs) -> wf (nd_cols (checks_of c zs)) (nd_rows (checks_of c zs)) -> p <= q -> cnots_suffice c zs p -> cnots_suffice c zs q.
Proof. intros N W L (circ & (hs & cn & -> & ND & F & C & LC) & P). apply cn_ok_iff in C. destruct (prepares_pad _ _ _ hs cn N W ND F C P (q - p)) as (cn' & K' & L' & P').
  exists (hc_circuit hs cn'). split; auto. exists hs, cn'. split; auto. split; auto. split; auto. split; [now apply cn_ok_iff|lia]. Qed.
Lemma layers_mono c zs p q : p <= q -> layers_suffice c zs p -> layers_suffice c zs q.
Proof. intros L (circ & (hs & ls & -> & ND & F & C & LC) & P). exists (hc_circuit hs (concat (ls ++ repeat [] (q - p)))). rewrite concat_app. replace (concat (repeat [] (q - p))) with (@nil (nat * nat)) by (induction (q - p); auto).
  rewrite app_nil_r. split; auto. exists hs, (ls ++ repeat [] (q - p)). split.
  - rewrite concat_app. replace (concat (repeat [] (q - p))) with (@nil (nat * nat)) by (induction (q - p); auto). now rewrite app_nil_r.
  - split; auto. split; auto. split; [|rewrite app_length, repeat_length; lia]. intros l Hl. apply in_app_iff in Hl as [Hl|Hl]; auto. apply repeat_spec in Hl. subst. split; [intros ? ? []|constructor]. Qed.

Theorem C41_gate_optimal : forall s c zs mn mx t mt, 2 <= nd_cols (checks_of c zs) -> wf (nd_cols (checks_of c zs)) (nd_rows (checks_of c zs)) -> nd_rows (checks_of c zs) <> [] ->
  rk (nd_cols (checks_of c zs)) (nd_rows (checks_of c zs)) = length (nd_rows (checks_of c zs)) -> (forall k, synth_solver_ok (bv_width (nd_cols (checks_of c zs))) (s k)) ->
  (1 <= mn <= mx)%Z -> (1 <= t <= mt)%Z ->
  exists F, forall fuel, F <= fuel ->
  ((forall k, (Z.of_nat k <= mx)%Z -> ~ cnots_suffice c zs k) -> gate_optimal_prep_circuit fuel s (fun _ _ => false) c zs mn mx t mt = Done (None, mx)) /\
  (forall p, 2 <= p -> (Z.of_nat p <= mx)%Z -> cnots_suffice c zs p -> (forall k, k < p -> ~ cnots_suffice c zs k) ->
     exists circ, gate_optimal_prep_circuit fuel s (fun _ _ => false) c zs mn mx t mt = Done (Some circ, Z.of_nat p) /\ gate_circuit (nd_cols (checks_of c zs)) p circ /\
       prepares (nd_cols (checks_of c zs)) (nd_rows (checks_of c zs)) zs (run (nd_cols (checks_of c zs)) circ)) /\
  (cnots_suffice c zs 1 -> gate_optimal_prep_circuit fuel s (fun _ _ => false) c zs mn mx t mt = Failed IndexError).
Proof. intros s c zs mn mx t mt N W NE RK SO R T. pose (w := synth_world generate_circ_with_bounded_gates s (fun _ _ => false) c zs).
  pose (sol := fun p : Z => cnots_suffice c zs (Z.to_nat p)).
  assert (G : forall k p, (1 <= p)%Z -> (exists a, w_fun w k p = Ret (Some a) /\ gate_circuit (nd_cols (checks_of c zs)) (Z.to_nat p) a /\ prepares (nd_cols (checks_of c zs)) (nd_rows (checks_of c zs)) zs (run (nd_cols (checks_of c zs)) a)) \/ (w_fun w k p = Ret None /\ ~ sol p)).
  { intros k p Hp. destruct (C41_gates_exact (s k) (checks_of c zs) (Z.to_nat p) zs N W NE ltac:(lia) (SO k) RK) as [(circ & E & G1 & G2)|(E & H)]; rewrite Z2Nat.id in E by lia.
    - left. exists circ. auto.
    - right. split; auto. intros (circ & G1 & G2). exact (H _ circ (le_n _) G1 G2). }
  destruct (C40_least _ w sol mn mx t mt R T) as (F & H).
  - auto.
  - intros k p Hp. destruct (G k p Hp) as [(a & E & G1 & G2)|(E & X)]; [left|right; auto]. exists a. split; auto. exists a. auto.
  - intros k. exists IndexError. cbn [w w_fun synth_world]. unfold generate_circ_with_bounded_gates. fold (checks_of c zs). destruct (Nat.leb_spec (nd_cols (checks_of c zs)) 1); [lia|]. reflexivity.
  - intros p q Hpq. apply gates_mono; auto. lia.
  - exists F. intros fuel HF. destruct (H fuel HF) as (H1 & H2 & H3). split; [|split].
    + intros X. apply H1. intros Sx. apply (X (Z.to_nat mx)); auto. lia.
    + intros p P2 PM Sp Np. destruct (H2 (Z.of_nat p) ltac:(lia)) as (a & k & E & EO).
      * unfold sol. now rewrite Nat2Z.id.
      * unfold sol. apply Np. lia.
      * exists a. split; auto. destruct (G k (Z.of_nat p) ltac:(lia)) as [(b & E' & G1 & G2)|(E' & _)]; [|congruence]. rewrite Nat2Z.id in G1. assert (a = b) by congruence. subst. auto.
    + intros X. apply H3. exact X. Qed.
Print Assumptions C41_gate_optimal.

Theorem C41_depth_optimal : forall s c zs mn mx t mt width, 2 <= nd_cols (checks_of c zs) -> wf (nd_cols (checks_of c zs)) (nd_rows (checks_of c zs)) -> nd_rows (checks_of c zs) <> [] ->
  rk (nd_cols (checks_of c zs)) (nd_rows (checks_of c zs)) = length (nd_rows (checks_of c zs)) -> 0 < width -> (forall k, synth_solver_ok width (s k)) ->
  (1 <= mn <= mx)%Z -> (1 <= t <= mt)%Z ->
  exists F, forall fuel, F <= fuel ->
  ((forall k, (Z.of_nat k <= mx)%Z -> ~ layers_suffice c zs k) -> depth_optimal_prep_circuit fuel s (fun _ _ => false) c zs mn mx t mt = Done (None, mx)) /\
  (forall p, 2 <= p -> (Z.of_nat p <= mx)%Z -> layers_suffice c zs p -> (forall k, k < p -> ~ layers_suffice c zs k) ->
     exists circ, depth_optimal_prep_circuit fuel s (fun _ _ => false) c zs mn mx t mt = Done (Some circ, Z.of_nat p) /\ layered_circuit (nd_cols (checks_of c zs)) p circ /\
       prepares (nd_cols (checks_of c zs)) (nd_rows (checks_of c zs)) zs (run (nd_cols (checks_of c zs)) circ)) /\
  (layers_suffice c zs 1 -> depth_optimal_prep_circuit fuel s (fun _ _ => false) c zs mn mx t mt = Failed IndexError).
Proof. intros s c zs mn mx t mt width N W NE RK W0 SO R T. pose (w := synth_world generate_circ_with_bounded_depth s (fun _ _ => false) c zs).
  pose (sol := fun p : Z => layers_suffice c zs (Z.to_nat p)).
  assert (G : forall k p, (1 <= p)%Z -> (exists a, w_fun w k p = Ret (Some a) /\ layered_circuit (nd_cols (checks_of c zs)) (Z.to_nat p) a /\ prepares (nd_cols (checks_of c zs)) (nd_rows (checks_of c zs)) zs (run (nd_cols (checks_of c zs)) a)) \/ (w_fun w k p = Ret None /\ ~ sol p)).
  { intros k p Hp. destruct (C41_depth_exact width (s k) (checks_of c zs) (Z.to_nat p) zs W0 W N NE ltac:(lia) (SO k) RK) as [(circ & E & G1 & G2)|(E & H)]; rewrite Z2Nat.id in E by lia.
    - left. exists circ. auto.
    - right. split; auto. intros (circ & G1 & G2). exact (H _ circ (le_n _) G1 G2). }
  destruct (C40_least _ w sol mn mx t mt R T) as (F & H).
  - auto.
  - intros k p Hp. destruct (G k p Hp) as [(a & E & G1 & G2)|(E & X)]; [left|right; auto]. exists a. split; auto. exists a. auto.
  - intros k. exists AssertionError. reflexivity.
  - intros p q Hpq. apply layers_mono. lia.
  - exists F. intros fuel HF. destruct (H fuel HF) as (H1 & H2 & H3). split; [|split].
    + intros X. apply H1. intros Sx. apply (X (Z.to_nat mx)); auto. lia.
    + intros p P2 PM Sp Np. destruct (H2 (Z.of_nat p) ltac:(lia)) as (a & k & E & EO).
      * unfold sol. now rewrite Nat2Z.id.
      * unfold sol. apply Np. lia.
      * exists a. split; auto. destruct (G k (Z.of_nat p) ltac:(lia)) as [(b & E' & G1 & G2)|(E' & _)]; [|congruence]. rewrite Nat2Z.id in G1. assert (a = b) by congruence. subst. auto.
    + intros X. apply H3. exact X. Qed.
Print Assumptions C41_depth_optimal.

(** Arguments outside the range: no gates or layers to choose, no checks. *)
Theorem C41_errors : forall solver checks D zs,
  ((D <= 0)%Z -> generate_circ_with_bounded_depth solver checks D zs = Raise AssertionError) /\
  ((D <= 0)%Z -> 2 <= nd_cols checks -> generate_circ_with_bounded_gates solver checks D zs = Raise IndexError) /\
  ((1 <= D)%Z -> nd_rows checks = [] -> generate_circ_with_bounded_depth solver checks D zs = Raise IndexError).
Proof. intros solver checks D zs. unfold generate_circ_with_bounded_depth, generate_circ_with_bounded_gates. split; [|split]; intros H.
  - destruct (Z.leb_spec D 0); auto; lia.
  - intros N. destruct (Nat.leb_spec (nd_cols checks) 1); [lia|]. destruct (Z.leb_spec D 0); auto; lia.
  - intros ->. destruct (Z.leb_spec D 0); auto; lia. Qed.
Print Assumptions C41_errors.

(** ** the contract can be met: a brute-force solver *)
Lemma models_w_all width ws m : In m (models_w gw_eq_dec width ws) -> forall w, In w ws -> zm_bv (V := cv) m w <> None.
Proof. revert m. induction ws as [|w ws IH]; intros m H u; cbn [models_w] in H; [intros []|]. apply in_flat_map in H as (m' & Hm' & H). apply in_map_iff in H as (k & <- & _). intros Hu. cbn. destruct (gw_eq_dec u w); [discriminate|].
  destruct Hu as [Hu|Hu]; [congruence|]. eapply IH; eauto. Qed.
Lemma models_all width ws vs m : In m (models cv_eq_dec gw_eq_dec width ws vs) -> (forall w, In w ws -> zm_bv m w <> None) /\ (forall v, In v vs -> zm_bool m v <> None).
Proof. revert m. induction vs as [|v vs IH]; intros m H; cbn [models] in H; [split; [now apply (models_w_all width)|intros v []]|]. apply in_flat_map in H as (m' & Hm' & H). destruct (IH m' Hm') as [A B].
  assert (E : exists b, m = upd_b cv_eq_dec m' v b) by (destruct H as [<-|[<-|[]]]; eauto). destruct E as (b & ->). split; auto. intros u Hu. cbn. destruct (cv_eq_dec u v); [discriminate|]. destruct Hu as [Hu|Hu]; [congruence|auto]. Qed.
Lemma ref_full width : 0 < width -> synth_solver_ok width (ref_solve cv_eq_dec gw_eq_dec width).
Proof. intros W0 fs. pose proof (ref_solve_ok cv_eq_dec gw_eq_dec width fs W0) as A. unfold ref_solve in *. destruct (find _ _) as [m|] eqn:E; [|exact A]. destruct A as (S & B & O). apply find_some in E as [Hm _].
  destruct (models_all width _ _ m Hm) as [MW MV]. split; [|split; auto].
  - intros a [C1 C2] AB f Hf. rewrite <- (S f Hf). symmetry. apply eval_ext.
    + intros v Hv. cbn. destruct (zm_bool m v) as [b|] eqn:Eb; [symmetry; auto|]. exfalso. apply (MV v); auto. apply nodup_In, in_flat_map. eauto.
    + intros w Hw. cbn. destruct (zm_bv m w) as [k|] eqn:Eb; [symmetry; auto|]. exfalso. apply (MW w); auto. apply nodup_In, in_flat_map. eauto.
  - intros w k Ek. specialize (B w). cbn in B. now rewrite Ek in B. Qed.

(** the GHZ state: one X check on three qubits; two CNOTs are needed, and the optimization finds two; for the Bell pair one CNOT suffices and the call raises IndexError *)
Definition ghz_x : nd := mkNd 3 [[true; true; true]].
Definition ghz_solver : nat -> synth_solver := fun _ => ref_solve cv_eq_dec gw_eq_dec (bv_width 3).
Definition bell_x : nd := mkNd 2 [[true; true]].
Definition bell_solver : nat -> synth_solver := fun _ => ref_solve cv_eq_dec gw_eq_dec (bv_width 2).
Definition mk_ghz := CSSCode ldpc_ref 1 (Some ghz_x) (Some (mkNd 3 [[true; true; false]; [false; true; true]])) None None.
Definition mk_bell := CSSCode ldpc_ref 1 (Some bell_x) (Some bell_x) None None.
Lemma ghz_two c : css_Hx c = ghz_x -> cnots_suffice c true 2 /\ forall k, k < 2 -> ~ cnots_suffice c true k.
Proof. intros E. unfold cnots_suffice, checks_of. rewrite E. cbn [ghz_x nd_cols nd_rows]. assert (W : wf 3 [[true; true; true]]) by (repeat constructor). split.
  - exists (hc_circuit [0] [(0, 1); (0, 2)]). split.
    + exists [0], [(0, 1); (0, 2)]. split; auto. split; [repeat constructor; auto|]. split; [intros q [<-|[]]; lia|]. split; auto. intros c' t [[= <- <-]|[[= <- <-]|[]]]; repeat split; auto; lia.
    + replace (hc_circuit [0] [(0, 1); (0, 2)]) with (build_circuit 3 [(0, 2); (0, 1)] (map (cxs [(0, 2); (0, 1)]) [[true; true; true]]) true) by reflexivity. apply build_prepares; [exact W| |reflexivity]. repeat constructor; cbn; lia.
  - intros k Hk (circ & (hs & cn & -> & ND & F & C & L) & P). apply cn_ok_iff in C. destruct (circuit_reduced 3 _ true hs cn W ND F C P) as (_ & R & _).
    destruct k as [|[|k]]; [destruct cn; [discriminate R|discriminate L]| |lia]. destruct cn as [|[a b] [|? ?]]; try discriminate L. inversion C as [|? ? (Ha & Hb & N) _]; subst. cbn [fst snd] in *.
    destruct a as [|[|[|a]]]; try lia; destruct b as [|[|[|b]]]; try lia; discriminate R. Qed.
Example C41_ghz_found : exists c F, mk_ghz = Ret c /\ forall fuel, F <= fuel ->
  exists circ, gate_optimal_prep_circuit fuel ghz_solver (fun _ _ => false) c true 1 10 1 8 = Done (Some circ, 2%Z) /\ prepares 3 [[true; true; true]] true (run 3 circ).
Proof. destruct mk_ghz as [c|] eqn:E; [|vm_compute in E; discriminate]. assert (EX : css_Hx c = ghz_x) by (vm_compute in E; injection E as <-; reflexivity). clear E. exists c.
  destruct (ghz_two c EX) as [S2 N2].
  destruct (C41_gate_optimal ghz_solver c true 1 10 1 8) as (F & H); try (cbn [checks_of]; rewrite EX; cbn [ghz_x nd_cols nd_rows]); try lia; try discriminate; try (vm_compute; reflexivity); try (repeat constructor; fail); try (intros k; apply ref_full, bv_width_pos).
  exists F. split; auto. intros fuel HF. destruct (H fuel HF) as (_ & H2 & _). destruct (H2 2 (le_n 2) ltac:(lia) S2 N2) as (circ & EC & _ & P). exists circ. split; auto. cbn [checks_of] in P. rewrite EX in P. exact P. Qed.
Example C41_bell_crash : exists c F, mk_bell = Ret c /\ forall fuel, F <= fuel -> gate_optimal_prep_circuit fuel bell_solver (fun _ _ => false) c true 1 10 1 8 = Failed IndexError.
Proof. destruct mk_bell as [c|] eqn:E; [|vm_compute in E; discriminate]. assert (EX : css_Hx c = bell_x) by (vm_compute in E; injection E as <-; reflexivity). clear E. exists c.
  destruct (C41_gate_optimal bell_solver c true 1 10 1 8) as (F & H); try (cbn [checks_of]; rewrite EX; cbn [bell_x nd_cols nd_rows]); try lia; try discriminate; try (vm_compute; reflexivity); try (repeat constructor; fail); try (intros k; apply ref_full, bv_width_pos).
  exists F. split; auto. intros fuel HF. destruct (H fuel HF) as (_ & _ & H3). apply H3. unfold cnots_suffice, checks_of. rewrite EX. cbn [bell_x nd_cols nd_rows].
  exists (hc_circuit [0] [(0, 1)]). split.
  - exists [0], [(0, 1)]. split; auto. split; [repeat constructor; auto|]. split; [intros q [<-|[]]; lia|]. split; auto. intros c' t [[= <- <-]|[]]; repeat split; auto; lia.
  - replace (hc_circuit [0] [(0, 1)]) with (build_circuit 2 [(0, 1)] (map (cxs [(0, 1)]) [[true; true]]) true) by reflexivity. apply build_prepares; [repeat constructor| |reflexivity]. repeat constructor; cbn; lia. Qed.
(** redundant checks: the row 11 twice; a circuit is returned, for another state *)
Example C41_redundant_reached : exists circ, rk 2 [[true; true]; [true; true]] = 1 /\ generate_circ_with_bounded_gates (bell_solver 0) (mkNd 2 [[true; true]; [true; true]]) 2 true = Ret (Some circ) /\
  ~ prepares 2 [[true; true]; [true; true]] true (run 2 circ).
Proof. set (rows := [[true; true]; [true; true]]). assert (W : wf 2 rows) by (repeat constructor). assert (SO : synth_solver_ok (bv_width 2) (bell_solver 0)) by (apply ref_full, bv_width_pos).
  assert (SOME : exists circ, generate_circ_with_bounded_gates (bell_solver 0) (mkNd 2 rows) 2 true = Ret (Some circ)).
  { unfold generate_circ_with_bounded_gates. change (nd_cols (mkNd 2 rows)) with 2. change (nd_rows (mkNd 2 rows)) with rows. change (2 <=? 1) with false. change (2 <=? 0)%Z with false. change (length rows =? 0) with false. change (Z.to_nat 2) with 2. cbv iota.
    pose proof (SO (gates_query rows 2 2)) as A. destruct (bell_solver 0 (gates_query rows 2 2)) as [m|].
    - destruct (gates_model rows 2 2 m (le_n 2) W ltac:(lia) A) as (cn & EC & _). rewrite EC. cbn [pbind]. eauto.
    - destruct (gates_complete rows 2 [(0, 1); (0, 1)] (le_n 2) W) as [B S]; [repeat constructor; cbn; lia|auto|reflexivity|]. destruct (A _ B) as (f & Hf & X). rewrite (S f Hf) in X. discriminate. }
  destruct SOME as (circ & E). exists circ. split; [reflexivity|]. split; auto. refine (proj1 (C41_redundant_refuted 1 (bell_solver 0) (mkNd 2 rows) 2 true circ _ _ _ _ _) SO E); auto; vm_compute; lia. Qed.
