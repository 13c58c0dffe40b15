(** * PrepProofs3: the loop terminates and the circuit prepares the state *)
From Verif Require Export PrepProofs2.
Local Open Scope nat_scope.

Definition hinv (n m : nat) (H : mat) (s : hstate) : Prop :=
  wf n (h_checks s) /\ length (h_checks s) = m /\ cn_ok n (h_cnots s) /\ tracked n (h_costs s) (h_checks s) /\
  (forall v, length v = n -> (span n (h_checks s) (cxs (h_cnots s) v) <-> span n H v)).

Lemma hinv_rank n m H s : wf n H -> hinv n m H s -> rk n (h_checks s) = rk n H.
Proof. intros W (WC & LM & CN & T & SP). rewrite <- (rk_cxs n (h_cnots s) H) by auto. apply rk_span; auto.
  - apply (wf_map_len n); auto. intros; now rewrite cxs_length.
  - intros w. destruct (Nat.eq_dec (length w) n) as [E|E].
    + rewrite <- (cxs_rev' n (h_cnots s) w) by auto. rewrite SP by (rewrite cxs_length; auto). symmetry. apply span_cxs; auto. now rewrite cxs_length.
    + split; intros HS; exfalso; apply E; apply span_length in HS; auto. apply (wf_map_len n); auto. intros; now rewrite cxs_length. Qed.

(** the effect of one turn of the loop *)
Inductive turn (n : nat) (rre : nat -> mat -> mat) (s s' : hstate) : Prop :=
| TGreedy i j : i < n -> j < n -> i <> j -> weight (vxor (col (h_checks s) i) (col (h_checks s) j)) < weight (col (h_checks s) j) ->
    (forall a b, a < n -> b < n -> a <> b -> ~ In a (h_used s) -> ~ In b (h_used s) ->
       (wtsum (h_checks s) i j - wtc (h_checks s) j <= wtsum (h_checks s) a b - wtc (h_checks s) b)%Z) ->
    h_checks s' = coladd i j (h_checks s) -> h_cnots s' = h_cnots s ++ [(i, j)] -> turn n rre s s'
| TLayer : h_used s <> [] -> h_used s' = [] -> h_checks s' = h_checks s -> h_cnots s' = h_cnots s -> turn n rre s s'
| TTriangular : h_used s = [] -> h_used s' = [] ->
    (forall i j, i < n -> j < n -> i <> j -> weight (col (h_checks s) j) <= weight (vxor (col (h_checks s) i) (col (h_checks s) j))) ->
    h_checks s' = rre n (h_checks s) -> h_cnots s' = h_cnots s -> turn n rre s s'.

Lemma unmasked_in n used i j : In (i, j) (unmasked n used) <-> (i < n /\ j < n) /\ ~ In i used /\ ~ In j used.
Proof. unfold unmasked. rewrite filter_In, pairs_in. assert (E : forall k, negb (existsb (Nat.eqb k) used) = true <-> ~ In k used).
  { intros k. rewrite negb_true_iff. split.
    - intros H HI. rewrite <- not_true_iff_false in H. apply H. apply existsb_exists. exists k. split; auto. apply Nat.eqb_refl.
    - intros H. destruct (existsb _ _) eqn:E; auto. exfalso. apply existsb_exists in E as (x & Hx & Ex). apply Nat.eqb_eq in Ex. subst. auto. }
  rewrite andb_true_iff, !E. tauto. Qed.

Lemma hstep_turn rre n m r od H s s' : rre_ok rre -> wf n H -> hinv n m H s -> hstep rre n r od s = Some s' -> hinv n m H s' /\ turn n rre s s' /\ is_reduced n r (h_checks s) = false.
Proof. intros RR WH (WC & LM & CN & T & SP) HS. unfold hstep in HS. destruct (is_reduced n r (h_checks s)); [discriminate|].
  destruct (forallb _ _ || _) eqn:C.
  - destruct (h_used s) as [|u us] eqn:EU.
    + injection HS as <-. destruct (RR n (h_checks s) WC) as (R1 & R2 & R3 & R4 & R5). split; [|split; auto].
      * repeat split; cbn [h_checks h_cnots h_costs]; auto; try lia; try congruence; try apply init_tracked; intros; try (apply SP; auto; apply R3; auto); apply R3, SP; auto.
      * apply TTriangular; cbn; auto. intros i j Hi Hj N. apply orb_true_iff in C as [C|C].
        -- rewrite forallb_forall in C. specialize (C (i, j)). cbn beta iota in C. specialize (C ltac:(apply unmasked_in; auto)). apply Z.leb_le in C. rewrite T in C by auto.
           destruct (Nat.eqb_spec i j); [contradiction|]. unfold wtsum, wtc in C. lia.
        -- apply Nat.eqb_eq in C. cbn in C. lia.
    + injection HS as <-. split; [|split; auto].
      * repeat split; cbn; auto; apply SP; auto.
      * apply TLayer; cbn; auto. rewrite EU. discriminate.
  - apply orb_false_iff in C as [C _]. destruct (unmasked n (h_used s)) as [|p um] eqn:EU; [discriminate|].
    pose proof (argmin_in (h_costs s) um p) as AI. pose proof (argmin_le (h_costs s) um p) as AL. destruct (argmin (h_costs s) p um) as [i j] eqn:EA. cbn [fst snd] in AL.
    rewrite <- EU in AI, AL. apply unmasked_in in AI as [[Hi Hj] _].
    assert (NEG : (zget (h_costs s) i j < 0)%Z).
    { rewrite <- EU in C. clear - C AL. assert (G : exists q, In q (unmasked n (h_used s)) /\ (zget (h_costs s) (fst q) (snd q) < 0)%Z).
      { clear AL. induction (unmasked n (h_used s)) as [|[a b] l IH]; [discriminate|]. cbn [forallb] in C. apply andb_false_iff in C as [C|C].
        - apply Z.leb_gt in C. exists (a, b). split; [now left|auto].
        - destruct (IH C) as (q & Hq & Lq). exists q. split; auto. now right. }
      destruct G as (q & Hq & Lq). specialize (AL q Hq). lia. }
    assert (N : i <> j) by (intros ->; rewrite T, Nat.eqb_refl in NEG by auto; lia).
    pose proof NEG as NEG'. rewrite T in NEG' by auto. destruct (Nat.eqb_spec i j); [contradiction|]. unfold wtsum, wtc in NEG'.
    injection HS as <-. split; [|split; auto].
    + split; cbn [h_checks h_cnots h_costs].
      * unfold coladd. apply (wf_map_len n); auto. intros; now rewrite cxv_length.
      * split; [unfold coladd; now rewrite map_length|]. split; [unfold cn_ok; apply Forall_app; split; auto|]. split; [now apply update_tracked|].
        intros v Hv. rewrite cxs_app. rewrite <- SP by auto. change (coladd i j (h_checks s)) with (map (cxs [(i, j)]) (h_checks s)). apply (span_cxs n [(i, j)]); [auto|repeat constructor; auto|now rewrite cxs_length].
    + apply (TGreedy n rre _ _ i j); cbn; auto; try lia. intros a b Ha Hb Nab Ua Ub. specialize (AL (a, b)). cbn [fst snd] in AL. rewrite !T in AL by auto.
      destruct (Nat.eqb_spec i j); [contradiction|]. destruct (Nat.eqb_spec a b); [contradiction|]. apply AL. apply unmasked_in. auto. Qed.

Definition meas (n : nat) (s : hstate) : nat := 2 * colones n (h_checks s) + (match h_used s with [] => 0 | _ => 1 end).

(** once the units are available the loop cannot get stuck any more *)
Lemma hloop_units rre n m od H : rre_ok rre -> wf n H -> forall k s, meas n s < k -> hinv n m H s -> units_in n (rk n H) m (h_checks s) ->
  exists fuel s', hloop fuel rre n (rk n H) od s = Some s' /\ hinv n m H s' /\ is_reduced n (rk n H) (h_checks s') = true.
Proof. intros RR WH. assert (RN : rk n H <= n) by (pose proof (rank_nullity n H WH); lia).
  induction k as [|k IH]; intros s Hk HI U; [lia|]. destruct (hstep rre n (rk n H) od s) as [s1|] eqn:HS.
  - destruct (hstep_turn _ _ _ _ _ _ _ _ RR WH HI HS) as (HI1 & TU & NR). destruct HI as (WC & LM & CN & T & SP).
    assert (G : meas n s1 < meas n s /\ units_in n (rk n H) m (h_checks s1)).
    { destruct TU as [i j Hi Hj N Hw _ E1 E2|U1 U2 E1 E2|U1 U2 ST E1 E2].
      - rewrite E1. split; [|now apply units_step]. unfold meas. rewrite E1. pose proof (colones_coladd n i j (h_checks s) WC Hi Hj Hw). destruct (h_used s), (h_used s1); lia.
      - rewrite E1. split; auto. unfold meas. rewrite E1, U2. destruct (h_used s); [congruence|lia].
      - exfalso. destruct (units_progress n (rk n H) m (h_checks s) WC U RN NR) as (i & j & Hi & Hj & N & Hw). specialize (ST i j Hi Hj N). lia. }
    destruct G as [G1 G2]. destruct (IH s1) as (fuel & s' & E & R); auto; [lia|]. exists (S fuel), s'. split; auto. cbn [hloop]. now rewrite HS.
  - exists 1, s. cbn [hloop]. rewrite HS. split; auto. split; auto. unfold hstep in HS. destruct (is_reduced n (rk n H) (h_checks s)); auto.
    destruct (forallb _ _ || _); [destruct (h_used s); discriminate|]. destruct (unmasked n (h_used s)); [discriminate|]. destruct (argmin _ _ _). discriminate. Qed.

Lemma rre_units rre n H M : rre_ok rre -> wf n M -> rk n M = rk n H -> units_in n (rk n H) (length M) (rre n M).
Proof. intros RR W E. destruct (RR n M W) as (R1 & R2 & R3 & (piv & Lp & Hp) & R5). rewrite E in *. split; auto. split; [rewrite <- E; now apply rk_le_rows|]. split.
  - intros k Hk. destruct (Hp k Hk). eauto.
  - intros j k Hj Hk. destruct (lt_dec k (length (rre n M))) as [L|L]; [|apply nth_overflow; rewrite col_length; lia]. rewrite nth_col by auto.
    destruct (R5 k Hk) as [-> | ->]; [apply nth_vzero|destruct j; auto]. Qed.

Lemma hloop_terminates rre n m od H : rre_ok rre -> wf n H -> forall k s, meas n s < k -> hinv n m H s ->
  exists fuel s', hloop fuel rre n (rk n H) od s = Some s' /\ hinv n m H s' /\ is_reduced n (rk n H) (h_checks s') = true.
Proof. intros RR WH. induction k as [|k IH]; intros s Hk HI; [lia|]. destruct (hstep rre n (rk n H) od s) as [s1|] eqn:HS.
  - destruct (hstep_turn _ _ _ _ _ _ _ _ RR WH HI HS) as (HI1 & TU & NR). pose proof HI as HI0. destruct HI as (WC & LM & CN & T & SP).
    destruct TU as [i j Hi Hj N Hw _ E1 E2|U1 U2 E1 E2|U1 U2 ST E1 E2].
    + destruct (IH s1) as (fuel & s' & E & R); auto.
      { unfold meas in *. rewrite E1. pose proof (colones_coladd n i j (h_checks s) WC Hi Hj Hw). destruct (h_used s), (h_used s1); lia. }
      exists (S fuel), s'. split; auto. cbn [hloop]. now rewrite HS.
    + destruct (IH s1) as (fuel & s' & E & R); auto.
      { unfold meas in *. rewrite E1, U2. destruct (h_used s); [congruence|lia]. }
      exists (S fuel), s'. split; auto. cbn [hloop]. now rewrite HS.
    + destruct (hloop_units rre n m od H RR WH (S (meas n s1)) s1) as (fuel & s' & E & R); auto.
      { rewrite E1, <- LM. apply rre_units; auto. now apply (hinv_rank n m). }
      exists (S fuel), s'. split; auto. cbn [hloop]. now rewrite HS.
  - exists 1, s. cbn [hloop]. rewrite HS. split; auto. split; auto. unfold hstep in HS. destruct (is_reduced n (rk n H) (h_checks s)); auto.
    destruct (forallb _ _ || _); [destruct (h_used s); discriminate|]. destruct (unmasked n (h_used s)); [discriminate|]. destruct (argmin _ _ _). discriminate. Qed.

Lemma hloop_inv rre n m od H fuel : rre_ok rre -> wf n H -> forall s s', hinv n m H s -> hloop fuel rre n (rk n H) od s = Some s' ->
  hinv n m H s' /\ is_reduced n (rk n H) (h_checks s') = true.
Proof. intros RR WH. induction fuel as [|fuel IH]; intros s s' HI E; [discriminate|]. cbn [hloop] in E. destruct (hstep rre n (rk n H) od s) as [s1|] eqn:HS.
  - destruct (hstep_turn _ _ _ _ _ _ _ _ RR WH HI HS) as (HI1 & _). eauto.
  - injection E as <-. split; auto. unfold hstep in HS. destruct (is_reduced n (rk n H) (h_checks s)); auto.
    destruct (forallb _ _ || _); [destruct (h_used s); discriminate|]. destruct (unmasked n (h_used s)); [discriminate|]. destruct (argmin _ _ _). discriminate. Qed.

Lemma hinv_init n H : wf n H -> hinv n (length H) H (mkH H (init_costs n H) [] []).
Proof. intros W. repeat split; cbn [h_checks h_cnots h_costs]; auto; try apply init_tracked; try constructor; cbn [cxs fold_left] in *; auto. Qed.

(** ** amplitudes *)
Lemma run_app n a b : run n (a ++ b) = fold_left apply_gate b (run n a).
Proof. apply fold_left_app. Qed.
Lemma set_nth_same {A} (d : A) i l : set_nth i (nth i l d) l = l.
Proof. revert i; induction l as [|h l IH]; intros [|i]; cbn; auto. now rewrite IH. Qed.

Definition supported (n : nat) (cs : list nat) (x : vec) : Prop := forall k, k < n -> ~ In k cs -> nth k x false = false.
Lemma hadamards n cs : NoDup cs -> Forall (fun c => c < n) cs -> uniform_over n (supported n cs) (run n (map GH cs)).
Proof. intros ND. induction cs as [|c cs IH] using rev_ind; intros F x Hx.
  - cbn. unfold zero_ket. split.
    + intros H. assert (E : x = vzero n) by (apply (vec_ext n); auto using vzero_length; intros k Hk; rewrite nth_vzero; apply H; auto). rewrite (proj2 (veqb_eq _ _) E). auto.
    + intros H. destruct (veqb x (vzero n)) eqn:E; auto. exfalso. apply H. apply veqb_eq in E. rewrite E. intros k _ _. apply nth_vzero.
  - rewrite map_app. cbn [map]. rewrite run_app. cbn [fold_left apply_gate]. apply NoDup_remove in ND as [ND NI]. rewrite app_nil_r in *. apply Forall_app in F as [F Fc]. inversion Fc as [|? ? Hc _]; subst.
    specialize (IH ND F). set (psi := run _ (map GH cs)) in *.
    assert (L : forall b, length (set_nth c b x) = length x) by (intros; now rewrite set_nth_length).
    assert (P1 : psi (set_nth c true x) = 0%Z).
    { apply IH; auto. intros HS. specialize (HS c Hc NI). rewrite nth_set_nth_eq in HS by auto. discriminate. }
    rewrite P1. rewrite Z.mul_0_r, Z.add_0_r.
    assert (EQ : supported (length x) (cs ++ [c]) x <-> supported (length x) cs (set_nth c false x)).
    { split; intros HS k Hk N.
      - rewrite nth_set_nth by auto. destruct (Nat.eqb_spec k c) as [->|D]; auto. apply HS; auto. rewrite in_app_iff. intros [|[|[]]]; auto.
      - rewrite in_app_iff in N. specialize (HS k Hk ltac:(tauto)). rewrite nth_set_nth in HS by auto. destruct (Nat.eqb_spec k c) as [E|E]; auto. exfalso. apply N. right. left. auto. }
    rewrite EQ. apply IH. auto. Qed.

Lemma cnots_act n psi (cn : list (nat * nat)) x : length x = n -> fold_left apply_gate (map (fun '(i, j) => GCX i j) (rev cn)) psi x = psi (cxs cn x).
Proof. revert psi x. induction cn as [|p cn IH]; intros psi x Hx; auto. cbn [rev]. rewrite map_app, fold_left_app. cbn [map fold_left]. destruct p as [i j].
  cbn [apply_gate]. rewrite IH by now rewrite cxv_length. reflexivity. Qed.

(** what the reduced matrix says about the controls *)
Definition controls (n : nat) (M : mat) : list nat := filter (fun i => (1 <=? wtc M i)%Z) (seq 0 n).
Lemma control_zero M i : (1 <=? wtc M i)%Z = negb (zero_col M i).
Proof. unfold wtc. destruct (zero_col M i) eqn:E; cbn [negb].
  - apply Z.leb_gt. assert (weight (col M i) = 0); [|lia]. unfold zero_col in E. rewrite forallb_forall in E. induction (col M i) as [|b v IH]; auto. cbn [weight].
    pose proof (E b (or_introl eq_refl)) as Eb. destruct b; [discriminate|]. rewrite IH; auto. intros y Hy. apply E. now right.
  - apply Z.leb_le. assert (weight (col M i) <> 0); [|lia]. intros W. apply weight0 in W. assert (zero_col M i = true); [|congruence]. apply zero_col_spec. intros k. rewrite W. apply nth_vzero. Qed.
Lemma reduced_span n M r : wf n M -> rk n M = r -> is_reduced n r M = true -> forall v, length v = n -> (span n M v <-> supported n (controls n M) v).
Proof. intros W R HR v Hv. assert (RN : r <= n) by (pose proof (rank_nullity n M W); lia).
  assert (Fc : Forall (fun c => c < n) (controls n M)) by (apply Forall_forall; intros c Hc; apply filter_In in Hc as [Hc _]; apply in_seq in Hc; lia).
  assert (NDc : NoDup (controls n M)) by apply NoDup_filter, seq_NoDup.
  assert (LC : length (controls n M) = r).
  { unfold controls. rewrite (filter_ext _ (fun i => negb (zero_col M i))) by apply control_zero. unfold is_reduced in HR. apply Nat.eqb_eq in HR.
    pose proof (filter_neg_length (zero_col M) (seq 0 n)) as F. rewrite seq_length in F. lia. }
  assert (WU : forall l, wf n (map (unitv n) l)) by (intros; apply Forall_map, Forall_forall; intros; apply unitv_length).
  assert (IU : indep n (map (unitv n) (controls n M))).
  { clear LC. induction NDc as [|c l NI ND IH]; [apply indep_nil|]. cbn [map]. apply Forall_cons_iff in Fc as [Hc Fl]. apply indep_cons; auto using unitv_length. split; auto.
    intros HS. pose proof (proj1 (units_span n l (unitv n c) Fl (unitv_length n c)) HS) as HS2. clear HS. rename HS2 into HS. specialize (HS c ltac:(auto) NI). rewrite nth_unitv, Nat.eqb_refl in HS by auto. discriminate. }
  unfold supported. rewrite <- units_span by auto. apply (has_rank_eq_span n _ _ r); auto.
  - intros row Hrow. apply units_span; auto; [exact (wf_in n M row W Hrow)|]. intros k Hk NK. destruct (nth k row false) eqn:E; auto. exfalso. apply NK.
    apply filter_In. split; [apply in_seq; lia|]. rewrite control_zero. destruct (zero_col M k) eqn:EZ; auto. exfalso.
    destruct (In_nth M row [] Hrow) as (q & Hq & <-). apply (proj1 (zero_col_spec _ _)) with (k := q) in EZ. rewrite nth_col in EZ by auto. congruence.
  - rewrite <- R. now apply rk_correct.
  - rewrite <- LC, <- (map_length (unitv n)). now apply has_rank_indep. Qed.

(** the circuit built from the final state of any elimination *)
Lemma build_zero n H M cn : wf n M -> cn_ok n cn -> is_reduced n (rk n M) M = true -> (forall v, length v = n -> (span n M (cxs cn v) <-> span n H v)) ->
  uniform_over n (span n H) (run n (build_circuit n cn M true)).
Proof. intros W K HR SP x Hx. unfold build_circuit. fold (controls n M). rewrite run_app, (cnots_act n) by auto.
  assert (LX : length (cxs cn x) = n) by now rewrite cxs_length.
  pose proof (hadamards n (controls n M)) as HA. specialize (HA ltac:(apply NoDup_filter, seq_NoDup) ltac:(apply Forall_forall; intros c Hc; apply filter_In in Hc as [Hc _]; apply in_seq in Hc; lia) _ LX).
  rewrite <- SP by auto. rewrite (reduced_span n M (rk n M)) by auto. exact HA. Qed.
Lemma build_plus n H M cn : wf n H -> wf n M -> cn_ok n cn -> is_reduced n (rk n M) M = true -> (forall v, length v = n -> (span n M (cxs cn v) <-> span n H v)) ->
  uniform_over n (in_kernel n H) (run n (build_circuit n cn M false)).
Proof. intros WH W K HR SP x Hx. unfold build_circuit. fold (controls n M). rewrite run_app.
  replace (map (fun '(i, j) => GCX j i) (rev cn)) with (map (fun '(i, j) => GCX i j) (rev (flip_pairs cn))) by (unfold flip_pairs; rewrite <- map_rev, map_map; apply map_ext; intros []; auto).
  rewrite (cnots_act n) by auto. assert (LX : length (cxs (flip_pairs cn) x) = n) by now rewrite cxs_length.
  set (nc := filter _ _). pose proof (hadamards n nc) as HA.
  specialize (HA ltac:(apply NoDup_filter, seq_NoDup) ltac:(apply Forall_forall; intros c Hc; apply filter_In in Hc as [Hc _]; apply in_seq in Hc; lia) _ LX).
  assert (EQ : in_kernel n H x <-> supported n nc (cxs (flip_pairs cn) x)); [|rewrite EQ; exact HA].
  assert (NC : forall k, k < n -> (~ In k nc <-> In k (controls n M))).
  { intros k Hk. unfold nc. rewrite filter_In, in_seq. destruct (existsb (Nat.eqb k) (controls n M)) eqn:E; cbn [negb].
    - split; [|intros _ [_ E']; discriminate]. intros _. apply existsb_exists in E as (y & Hy & Ey). apply Nat.eqb_eq in Ey. now subst.
    - split; [intros N; exfalso; apply N; split; auto; lia|]. intros HI. exfalso. assert (existsb (Nat.eqb k) (controls n M) = true) by (apply existsb_exists; exists k; split; auto; apply Nat.eqb_refl). congruence. }
  split.
  - intros [_ HK] k Hk N. apply NC in N; auto.
    assert (SU : span n M (unitv n k)).
    { apply (reduced_span n M (rk n M)); auto using unitv_length. intros q Hq Nq. rewrite nth_unitv by auto. destruct (Nat.eqb_spec q k); auto. subst; contradiction. }
    rewrite <- (cxs_rev' n cn (unitv n k)) in SU by auto. assert (LR : length (cxs (rev cn) (unitv n k)) = n) by (rewrite cxs_length; apply unitv_length).
    apply SP in SU; auto.
    assert (D0 : dot (cxs (rev cn) (unitv n k)) x = false). { rewrite dot_comm. revert SU. apply (dot_span_zero n H x WH). intros q Hq. rewrite dot_comm. auto. }
    rewrite <- (dot_cxs n cn) in D0 by auto. rewrite (cxs_rev' n) in D0 by auto. now rewrite dot_unitv_l in D0 by auto.
  - intros HS. split; auto. intros r Hr. assert (Lr : length r = n) by exact (wf_in n H r WH Hr). rewrite <- (dot_cxs n cn) by auto.
    assert (SR : span n M (cxs cn r)) by (apply SP; auto; now apply span_in). apply (reduced_span n M (rk n M)) in SR; auto; [|now rewrite cxs_length].
    set (a := cxs cn r) in *. set (b := cxs (flip_pairs cn) x) in *. assert (La : length a = n) by (unfold a; now rewrite cxs_length).
    rewrite (dot_seq n) by auto. rewrite (filter_ext_in _ (fun _ => false)).
    + assert (Z0 : forall l : list nat, filter (fun _ => false) l = []) by (induction l; auto). now rewrite Z0.
    + intros k Hk. apply in_seq in Hk. destruct (in_dec Nat.eq_dec k nc) as [I|I].
      * rewrite (SR k); auto; [lia|]. intros Hc. apply NC in Hc; auto. lia.
      * rewrite (HS k) by (auto; lia). now rewrite andb_false_r. Qed.
