(* Properties C55 (statistics, convergence) and C56 (merging of results).  Vocabulary: of [runs] samples [success]
   succeeded and the code has k logical qubits; [count key d] is the integer stored under a key (0 when missing),
   [total key ds] the sum of the counts over a list of results. *)
From Coq Require Import List String Reals ZArith Lra Lia Permutation Bool.
From Verif Require Import StatsModel StatsProofs.
Import ListNotations.
Open Scope R_scope.

(* ------------------------------------------------------------------ C55 *)
(* the word error rate is the rate per logical qubit that would give the same logical error rate *)
Theorem C55_word_error_rate success runs k : (1 <= runs)%nat -> (success <= runs)%nat -> (1 <= k)%nat ->
  0 <= wer (INR success) (INR runs) (INR k) <= 1 /\
  1 - (1 - wer (INR success) (INR runs) (INR k)) ^ k = 1 - INR success / INR runs.
Proof. intros. split; [apply wer_range; auto|]. rewrite wer_pow; auto. Qed.

(* True iff on both sides some but not all samples succeeded and the relative error is below the precision *)
Theorem C55_is_converged x_success z_success runs k precision :
  (1 <= runs)%nat -> (x_success <= runs)%nat -> (z_success <= runs)%nat -> (1 <= k)%nat ->
  let precise := fun s => (0 < s < runs)%nat /\ wer_eb (INR s) (INR runs) (INR k) / wer (INR s) (INR runs) (INR k) < precision in
  is_converged (INR x_success) (INR z_success) (INR runs) (INR k) precision = true <-> precise x_success /\ precise z_success.
Proof.
  intros Hr Hx Hz Hk precise.
  assert (C : forall s, (s <= runs)%nat -> (check_convergence (INR s) (INR runs) (INR k) precision = Some true <-> precise s)).
  { intros s Hs. unfold check_convergence, precise. destruct (Req_EM_T _ 0) as [E|E].
    - apply wer_eb_zero in E; auto. split; [discriminate|]. lia.
    - assert (0 < s < runs)%nat.
      { destruct (Nat.eq_dec s 0); [exfalso; apply E, wer_eb_zero; auto|]. destruct (Nat.eq_dec s runs); [exfalso; apply E, wer_eb_zero; auto|]. lia. }
      destruct (Rlt_dec _ _); split; auto; try discriminate. intros [_ ?]. contradiction. }
  unfold is_converged. rewrite <- C, <- C by auto.
  destruct (check_convergence (INR x_success) _ _ _) as [[]|], (check_convergence (INR z_success) _ _ _) as [[]|]; simpl;
    split; auto; intros A; try discriminate; destruct A; congruence.
Qed.

(* so neither a side without failures nor one without successes is ever called converged *)
Theorem C55_no_failure_never_converges z_success runs k precision : (1 <= runs)%nat -> (z_success <= runs)%nat -> (1 <= k)%nat ->
  is_converged (INR runs) (INR z_success) (INR runs) (INR k) precision = false /\
  is_converged (INR 0) (INR z_success) (INR runs) (INR k) precision = false.
Proof.
  intros Hr Hz Hk. split; apply not_true_is_false; intros E; apply C55_is_converged in E; auto; lia.
Qed.

Example C55_converged_instance : is_converged (INR 1) (INR 1) (INR 2) (INR 1) 1 = true.
Proof.
  apply (C55_is_converged 1 1 2 1 1); try lia.
  assert (W : wer (INR 1) (INR 2) (INR 1) = / 2).
  { unfold wer. rewrite one_minus_ler. rewrite pypow_pos by (simpl; lra). simpl. replace (1 / 1) with 1 by field. rewrite Rpower_1 by lra. field. }
  assert (Q : wer_eb (INR 1) (INR 2) (INR 1) / wer (INR 1) (INR 2) (INR 1) < 1); [|split; split; auto; lia].
  rewrite W. unfold wer_eb. pose proof (ler_eb_bounds 1 2 ltac:(lia) ltac:(lia)) as B.
  rewrite pypow_pos by lra.
  change (INR 1) with 1 in *. replace (1 / 1 - 1) with 0 by field. rewrite Rpower_O by lra.
  assert (S : ler_eb 1 (INR 2) < / 2); [|lra].
  unfold ler_eb. replace (/ 2) with (sqrt (/ 2 * / 2)) by (apply sqrt_square; lra). apply sqrt_lt_1_alt.
  unfold ler. simpl. split; lra.
Qed.

(* The error bar of the word error rate is meant to be the propagated one: the error bar of the logical error rate times
   the derivative of the word error rate.  It is that only for one logical qubit: 1 - ler_eb stands for 1 - ler. *)
Theorem C55_word_error_bar success runs k : (1 <= k)%nat -> (0 < success < runs)%nat ->
  exists D, derivable_pt_lim (fun l => 1 - Rpower (1 - l) (1 / INR k)) (ler (INR success) (INR runs)) D /\
    (wer_eb (INR success) (INR runs) (INR k) = ler_eb (INR success) (INR runs) * D <-> k = 1%nat).
Proof.
  intros Hk SR. exists (/ INR k * Rpower (1 - ler (INR success) (INR runs)) (1 / INR k - 1)). split.
  - apply derivative_wer; [apply k_pos; auto|]. unfold ler.
    assert (0 < INR success / INR runs); [|lra].
    apply Rmult_lt_0_compat; [apply lt_0_INR; lia|apply Rinv_0_lt_compat, lt_0_INR; lia].
  - apply error_bar_right_iff; auto.
Qed.

(* ------------------------------------------------------------------ C56 *)
Open Scope string_scope.

(* what the merged result holds for one side *)
Definition side_entries (side : string) (m : dict) (success runs k : Z) : Prop :=
  get (side ++ "_success_cnt") m = Some (VZ success) /\
  get (side ++ "_ler") m = Some (VR (1 - IZR success / IZR runs)) /\
  get (side ++ "_ler_eb") m = Some (VR (ler_eb (IZR success) (IZR runs))) /\
  get (side ++ "_wer") m = Some (VR (wer (IZR success) (IZR runs) (IZR k))) /\
  get (side ++ "_wer_eb") m = Some (VR (wer_eb (IZR success) (IZR runs) (IZR k))).
Definition side_keys (side : string) : list string :=
  [side ++ "_success_cnt"; side ++ "_ler"; side ++ "_ler_eb"; side ++ "_wer"; side ++ "_wer_eb"].

Lemma rates_keys side s r k key : ~ In key (side_keys side) -> get key (rates side s r k) = None.
Proof.
  intros N. apply get_none_in. intros I. apply N. unfold rates in I. simpl in I. unfold side_keys. simpl. tauto.
Qed.

Theorem C56_merge_totals d ds k :
  (forall key, In key ["nr_runs"; "x_success_cnt"; "z_success_cnt"] -> (exists a, get key d = Some (VZ a)) /\ Forall (intkey key) ds) ->
  get "code_K" d = Some (VZ k) -> k <> 0%Z -> total "nr_runs" (d :: ds) <> 0%Z ->
  exists m, merge_datasets (d :: ds) = MOk m /\
    get "nr_runs" m = Some (VZ (total "nr_runs" (d :: ds))) /\
    side_entries "x" m (total "x_success_cnt" (d :: ds)) (total "nr_runs" (d :: ds)) k /\
    side_entries "z" m (total "z_success_cnt" (d :: ds)) (total "nr_runs" (d :: ds)) k /\
    (forall key, key <> "nr_runs" -> ~ In key (side_keys "x") -> ~ In key (side_keys "z") -> get key m = get key d).
Proof.
  intros A K KZ TZ. unfold merge_datasets.
  destruct (add_all_ok ["nr_runs"; "x_success_cnt"; "z_success_cnt"] ds d) as [m [E [G1 G2]]]; auto.
  { apply nodupb_sound. reflexivity. }
  rewrite E. cbn [mbind]. unfold side_rates. simpl append.
  assert (GK : get "code_K" m = Some (VZ k)). { rewrite G2; auto. simpl. intuition discriminate. }
  assert (GN := G1 "nr_runs" ltac:(simpl; auto)). assert (GX := G1 "x_success_cnt" ltac:(simpl; auto)).
  assert (GZ := G1 "z_success_cnt" ltac:(simpl; auto)).
  rewrite GN, GX, GZ, GK. unfold zero_runs. rewrite GN, GK.
  rewrite (proj2 (Z.eqb_neq _ _) TZ), (proj2 (Z.eqb_neq _ _) KZ). cbn [orb].
  set (tn := total "nr_runs" (d :: ds)). set (tx := total "x_success_cnt" (d :: ds)). set (tz := total "z_success_cnt" (d :: ds)).
  eexists. split; [reflexivity|].
  assert (ND : nodup_keys (rates "x" tx tn k ++ rates "z" tz tn k)%list).
  { apply nodupb_sound. reflexivity. }
  split. { rewrite get_update_none by reflexivity. rewrite G1 by (simpl; auto). reflexivity. }
  split. { repeat split; apply get_update_some; auto. }
  split. { repeat split; apply get_update_some; auto. }
  intros key N1 N2 N3. rewrite get_update_none.
  - apply G2. simpl. simpl in N2, N3. intuition.
  - apply get_none_in. rewrite map_app. intros I. apply in_app_or in I. simpl in I, N2, N3. tauto.
Qed.

(* merging the same results in another order gives the same counts, rates and error bars *)
Theorem C56_merge_order l l' k : Permutation l l' -> l <> [] -> k <> 0%Z -> total "nr_runs" l <> 0%Z ->
  (forall d, In d l -> get "code_K" d = Some (VZ k) /\
     forall key, In key ["nr_runs"; "x_success_cnt"; "z_success_cnt"] -> exists a, get key d = Some (VZ a)) ->
  exists m m', merge_datasets l = MOk m /\ merge_datasets l' = MOk m' /\
    forall key, key = "nr_runs" \/ In key (side_keys "x") \/ In key (side_keys "z") -> get key m = get key m'.
Proof.
  intros P NE KZ TZ A.
  assert (A' : forall d, In d l' -> get "code_K" d = Some (VZ k) /\
     forall key, In key ["nr_runs"; "x_success_cnt"; "z_success_cnt"] -> exists a, get key d = Some (VZ a)).
  { intros d I. apply A. apply (Permutation_in d (Permutation_sym P)); auto. }
  assert (NE' : l' <> []). { intros ->. apply Permutation_sym, Permutation_nil in P. congruence. }
  assert (ONE : forall q, q <> [] -> (forall d, In d q -> get "code_K" d = Some (VZ k) /\
     forall key, In key ["nr_runs"; "x_success_cnt"; "z_success_cnt"] -> exists a, get key d = Some (VZ a)) -> total "nr_runs" q <> 0%Z ->
     exists m, merge_datasets q = MOk m /\ get "nr_runs" m = Some (VZ (total "nr_runs" q)) /\
     side_entries "x" m (total "x_success_cnt" q) (total "nr_runs" q) k /\ side_entries "z" m (total "z_success_cnt" q) (total "nr_runs" q) k).
  { intros [|d ds] Nq B T; [congruence|]. destruct (C56_merge_totals d ds k) as [m [E [E1 [E2 [E3 _]]]]]; auto.
    - intros key I. split; [apply B; simpl; auto|]. apply Forall_forall. intros d' I'. destruct (B d' (or_intror I')) as [_ C].
      destruct (C key I) as [a Ea]. unfold intkey. rewrite Ea. auto.
    - apply B. simpl; auto.
    - exists m. auto. }
  destruct (ONE l NE A TZ) as [m [E [E1 [E2 E3]]]].
  rewrite (total_perm _ _ _ P) in TZ. destruct (ONE l' NE' A' TZ) as [m' [F [F1 [F2 F3]]]].
  exists m, m'. split; auto. split; auto.
  rewrite (total_perm "nr_runs" _ _ P) in E1, E2, E3. rewrite (total_perm "x_success_cnt" _ _ P) in E2. rewrite (total_perm "z_success_cnt" _ _ P) in E3.
  destruct E2 as [x1 [x2 [x3 [x4 x5]]]], E3 as [z1 [z2 [z3 [z4 z5]]]], F2 as [x1' [x2' [x3' [x4' x5']]]], F3 as [z1' [z2' [z3' [z4' z5']]]].
  intros key [->|[I|I]]; [congruence| |]; simpl in I, x1, x2, x3, x4, x5, x1', x2', x3', x4', x5', z1, z2, z3, z4, z5, z1', z2', z3', z4', z5';
    repeat (destruct I as [<-|I]; [congruence|]); contradiction.
Qed.

Definition sample_result (runs x z : Z) : dict :=
  [("code_K", VZ 2); ("nr_runs", VZ runs); ("x_success_cnt", VZ x); ("z_success_cnt", VZ z); ("x_ler", VR 0); ("pers", VO 1)].
Example C56_merge_instance : exists m, merge_datasets [sample_result 10 9 8; sample_result 20 15 20; [("nr_runs", VZ 5)]] = MOk m /\
  get "nr_runs" m = Some (VZ 35) /\ get "x_success_cnt" m = Some (VZ 24) /\ get "x_ler" m = Some (VR (1 - 24 / 35)) /\ get "pers" m = Some (VO 1).
Proof.
  destruct (C56_merge_totals (sample_result 10 9 8) [sample_result 20 15 20; [("nr_runs", VZ 5)]] 2) as [m [E [E1 [E2 [_ E4]]]]];
    try reflexivity; try discriminate.
  - intros key I. simpl in I. destruct I as [<-|[<-|[<-|[]]]]; (split; [eexists; reflexivity|repeat constructor]).
  - exists m. split; auto. split; auto. destruct E2 as [x1 [x2 _]]. split; auto. split; auto. apply E4; simpl; intuition discriminate.
Qed.

(* a key missing in the first result is a KeyError, whatever the others hold *)
Theorem C56_merge_missing_first d d' ds : get "x_success_cnt" d = None -> (exists a, get "nr_runs" d = Some (VZ a)) -> intkey "nr_runs" d' ->
  merge_datasets (d :: d' :: ds) = MKeyErr.
Proof.
  intros X [a N] I. unfold merge_datasets. cbn [add_all add_keys]. rewrite (add_key_ok "nr_runs" d' d a N I). cbn [mbind].
  unfold add_key at 1. rewrite get_set_other by discriminate. rewrite X. reflexivity.
Qed.

(* one side: the results that have a count for this side *)
Definition with_side (side : string) (ds : list dict) : list dict := filter (has (side ++ "_success_cnt")) ds.

Lemma merge_side_totals side ds k : side = "x" \/ side = "z" -> Forall nodup_keys ds ->
  with_side side ds <> [] ->
  (forall d, In d (with_side side ds) -> get "code_K" d = Some (VZ k) /\ (exists a, get "nr_runs" d = Some (VZ a)) /\ (exists a, get (side ++ "_success_cnt") d = Some (VZ a))) ->
  k <> 0%Z -> total "nr_runs" (with_side side ds) <> 0%Z ->
  exists m first rest, with_side side ds = first :: rest /\ merge_datasets_side side ds = MOk m /\
    nodup_keys m /\
    get "nr_runs" m = Some (VZ (total "nr_runs" (with_side side ds))) /\
    side_entries side m (total (side ++ "_success_cnt") (with_side side ds)) (total "nr_runs" (with_side side ds)) k /\
    (forall key, key <> "nr_runs" -> ~ In key (side_keys side) -> get key m = get key first).
Proof.
  intros S FN NE A KZ TZ. unfold merge_datasets_side. fold (with_side side ds).
  assert (FN' : Forall nodup_keys (with_side side ds)).
  { apply Forall_forall. intros x I. apply filter_In in I as [I _]. rewrite Forall_forall in FN. auto. }
  destruct (with_side side ds) as [|d rest] eqn:W; [congruence|]. clear NE W.
  assert (NQ : "nr_runs" <> side ++ "_success_cnt") by (destruct S as [-> | ->]; discriminate).
  assert (NK : "code_K" <> side ++ "_success_cnt") by (destruct S as [-> | ->]; discriminate).
  destruct (add_all_ok ["nr_runs"; side ++ "_success_cnt"] rest d) as [m [E [G1 G2]]].
  { constructor; [simpl; intuition|]. constructor; [simpl; tauto|constructor]. }
  { intros key I. split.
    - destruct (A d (or_introl eq_refl)) as [_ [B C]]. simpl in I. destruct I as [<-|[<-|[]]]; auto.
    - apply Forall_forall. intros d' I'. destruct (A d' (or_intror I')) as [_ [[a B] [c C]]]. unfold intkey.
      simpl in I. destruct I as [<-|[<-|[]]]; [rewrite B|rewrite C]; auto. }
  destruct (A d (or_introl eq_refl)) as [K _].
  assert (GK : get "code_K" m = Some (VZ k)). { rewrite G2; auto. intros [Q|[Q|[]]]; [discriminate|congruence]. }
  rewrite E. cbn [mbind]. unfold side_rates.
  assert (GN := G1 "nr_runs" ltac:(simpl; auto)). assert (GS := G1 (side ++ "_success_cnt") ltac:(simpl; auto)).
  rewrite GN, GS, GK. unfold zero_runs. rewrite GN, GK.
  rewrite (proj2 (Z.eqb_neq _ _) TZ), (proj2 (Z.eqb_neq _ _) KZ). cbn [orb].
  set (tn := total "nr_runs" (d :: rest)). set (ts := total (side ++ "_success_cnt") (d :: rest)).
  eexists. exists d, rest. split; [reflexivity|]. split; [reflexivity|].
  assert (ND : nodup_keys (rates side ts tn k)).
  { destruct S as [-> | ->]; apply nodupb_sound; reflexivity. }
  split. { apply nodup_update. apply (nodup_add_all _ _ _ _ (Forall_inv FN') E). }
  split. { rewrite get_update_none by (destruct S as [-> | ->]; reflexivity). rewrite G1 by (simpl; auto). reflexivity. }
  split. { destruct S as [-> | ->]; repeat split; apply get_update_some; auto. }
  intros key N1 N2. rewrite get_update_none.
  - apply G2. unfold side_keys in N2. simpl. simpl in N2. intuition.
  - apply rates_keys; auto.
Qed.

(* Combining both sides: the z part is always the total over the results with a z count.  The x part is the total over
   the results with an x count if the first result with a z count has no x entries ... *)
Theorem C56_combine_xz ds k : k <> 0%Z -> Forall nodup_keys ds ->
  (forall d, In d ds -> get "code_K" d = Some (VZ k) /\ (exists a, get "nr_runs" d = Some (VZ a)) /\
     (forall side, side = "x" \/ side = "z" -> intkey (side ++ "_success_cnt") d)) ->
  with_side "x" ds <> [] -> with_side "z" ds <> [] ->
  total "nr_runs" (with_side "x" ds) <> 0%Z -> total "nr_runs" (with_side "z" ds) <> 0%Z ->
  exists m, merge_xz ds = MOk m /\ get "nr_runs" m = None /\
    get "z_runs" m = Some (VZ (total "nr_runs" (with_side "z" ds))) /\
    side_entries "z" m (total "z_success_cnt" (with_side "z" ds)) (total "nr_runs" (with_side "z" ds)) k /\
    ((forall d key, In d (with_side "z" ds) -> key = "x_runs" \/ In key (side_keys "x") -> get key d = None) ->
     get "x_runs" m = Some (VZ (total "nr_runs" (with_side "x" ds))) /\
     side_entries "x" m (total "x_success_cnt" (with_side "x" ds)) (total "nr_runs" (with_side "x" ds)) k).
Proof.
  intros KZ FN A NX NZ TX TZ.
  assert (B : forall side, side = "x" \/ side = "z" -> forall d, In d (with_side side ds) -> get "code_K" d = Some (VZ k) /\
     (exists a, get "nr_runs" d = Some (VZ a)) /\ (exists a, get (side ++ "_success_cnt") d = Some (VZ a))).
  { intros side S d I. apply filter_In in I as [I J]. destruct (A d I) as [K [R C]]. split; auto. split; auto.
    specialize (C side S). unfold intkey in C. unfold has in J. destruct (get (side ++ "_success_cnt") d) as [[z|r|t]|]; try discriminate; try contradiction. eauto. }
  destruct (merge_side_totals "x" ds k (or_introl eq_refl) FN NX (B "x" (or_introl eq_refl)) KZ TX) as [mx [fx [rx [WX [EX [X0 [X1 [X2 X3]]]]]]]].
  destruct (merge_side_totals "z" ds k (or_intror eq_refl) FN NZ (B "z" (or_intror eq_refl)) KZ TZ) as [mz [fz [rz [WZ [EZ [Z0 [Z1 [Z2 Z3]]]]]]]].
  unfold merge_xz. rewrite EX, EZ. cbn [mbind]. unfold combine_xz_data.
  destruct mx as [|ax mx']; [discriminate X1|]. destruct mz as [|az mz']; [discriminate Z1|].
  set (mx := ax :: mx') in *. set (mz := az :: mz') in *. unfold rename_runs. rewrite X1, Z1. cbn [mbind].
  set (z' := set "z_runs" _ (pop "nr_runs" mz)). set (x' := set "x_runs" _ (pop "nr_runs" mx)).
  assert (NDz : nodup_keys z') by (apply nodup_set, nodup_pop; auto).
  assert (U : forall key v, get key z' = Some v -> get key (update x' z') = Some v) by (intros; apply get_update_some; auto).
  assert (V : forall key, get key z' = None -> get key (update x' z') = get key x') by (intros; apply get_update_none; auto).
  assert (GZ : forall key, key <> "z_runs" -> key <> "nr_runs" -> get key z' = get key mz).
  { intros key N1 N2. unfold z'. rewrite get_set_other, get_pop_other; auto. }
  assert (GX : forall key, key <> "x_runs" -> key <> "nr_runs" -> get key x' = get key mx).
  { intros key N1 N2. unfold x'. rewrite get_set_other, get_pop_other; auto. }
  exists (update x' z'). split; [reflexivity|]. split.
  { rewrite V; unfold x', z'; rewrite get_set_other by discriminate; apply get_pop_same. }
  split. { apply U. unfold z'. apply get_set_same. }
  split. { destruct Z2 as [a [b [c [d e]]]]. repeat split; apply U; rewrite GZ by discriminate; assumption. }
  intros C. assert (Cz : forall key, key = "x_runs" \/ In key (side_keys "x") -> get key z' = None).
  { intros key I. assert (key <> "z_runs" /\ key <> "nr_runs" /\ ~ In key (side_keys "z")) as [N1 [N2 N3]].
    { simpl in I. destruct I as [->|[<-|[<-|[<-|[<-|[<-|[]]]]]]]; simpl; intuition discriminate. }
    rewrite GZ by auto. rewrite Z3 by auto. apply C; auto. rewrite WZ. simpl. auto. }
  split. { rewrite V by (apply Cz; auto). unfold x'. apply get_set_same. }
  destruct X2 as [a [b [c [d e]]]].
  repeat split; (rewrite V by (apply Cz; simpl; tauto)); (rewrite GX by discriminate); assumption.
Qed.

Definition x_result (runs x : Z) : dict := [("code_K", VZ 2); ("nr_runs", VZ runs); ("x_success_cnt", VZ x); ("x_ler", VR 0)].
Definition z_result (runs z : Z) : dict := [("code_K", VZ 2); ("nr_runs", VZ runs); ("z_success_cnt", VZ z); ("z_ler", VR 0)].
Example C56_combine_instance :
  let ds := [x_result 10 9; z_result 4 3; x_result 30 20; z_result 6 6] in
  exists m, merge_xz ds = MOk m /\ get "x_runs" m = Some (VZ 40) /\ get "x_success_cnt" m = Some (VZ 29) /\
    get "z_runs" m = Some (VZ 10) /\ get "z_success_cnt" m = Some (VZ 9) /\ get "z_ler" m = Some (VR (1 - 9 / 10)).
Proof.
  intros ds. destruct (C56_combine_xz ds 2) as [m [E [_ [E1 [[E2 [E2' _]] E3]]]]]; try discriminate.
  - repeat (apply Forall_cons; [apply nodupb_sound; reflexivity|]); constructor.
  - intros d I. simpl in I. destruct I as [<-|[<-|[<-|[<-|[]]]]]; (split; [reflexivity|]; split; [eexists; reflexivity|]);
      intros side [-> | ->]; exact I.
  - destruct E3 as [E4 [E5 _]].
    + intros d key I J. simpl in I, J. destruct I as [<-|[<-|[]]]; destruct J as [->|[<-|[<-|[<-|[<-|[<-|[]]]]]]]; reflexivity.
    + exists m. auto 10.
Qed.

(* ... but when the results hold both counts, as those of merge_datasets and of the analog Tanner graph simulator do,
   the x totals are overwritten by the x entries of the first result: the merged x success count and rate are those of
   one run, next to the number of all runs *)
Theorem C56_combine_refuted : exists ds m, Forall nodup_keys ds /\ merge_xz ds = MOk m /\
  total "x_success_cnt" ds = 24%Z /\ total "nr_runs" ds = 30%Z /\
  get "x_runs" m = Some (VZ 30) /\ get "x_success_cnt" m = Some (VZ 9) /\ get "x_ler" m = Some (VR 0).
Proof.
  exists [sample_result 10 9 8; sample_result 20 15 20]. eexists. split. { repeat (apply Forall_cons; [apply nodupb_sound; reflexivity|]); constructor. }
  split; [reflexivity|]. repeat split.
Qed.
