(** * PropPlot3: property C77, third part - the figures of the tensor network decoder (generate_plots_tn) *)
From Verif Require Import PlotProofs PropPlot PropPlot2.
Local Open Scope nat_scope.

(** ** specification *)
Definition run_of (d : Z) (data : list tn_run) : list tn_run := filter (fun r => (t_d r =? d)%Z) data.
Definition run_at (p : fl) (data : list tn_run) : list tn_run := filter (fun r => (t_ep r =? p)%Z) data.
Definition covered (d : Z) (data : list tn_run) : Prop := exists r, In r data /\ t_d r = d.
Definition curve_of (x y : list fl) (f : tn_run -> fl * fl) (runs : list tn_run) : Prop := length y = length x /\ Sorted Z.le x /\ Permutation (combine x y) (map f runs).
(** ** proofs *)
Definition dict_of (f : tn_run -> fl * fl) data := sort_xys (by_dist f data).
Lemma feed_runs (f : tn_run -> fl * fl) l v : feed (fun r l => l ++ [f r]) l v = v ++ map f l.
Proof. unfold feed. revert v. induction l as [|r l IHl]; cbn; intros v; [now rewrite app_nil_r|]. rewrite IHl, <- app_assoc. reflexivity. Qed.
Lemma dict_nodup f data : NoDup (map fst (dict_of f data)).
Proof. unfold dict_of, sort_xys. rewrite (keys_map (fun v => isort by_key v)). apply (group_nodup t_d [] (fun r l => l ++ [f r])). constructor. Qed.
Lemma dict_in f data d l : In (d, l) (dict_of f data) <-> run_of d data <> [] /\ l = isort by_key (map f (run_of d data)).
Proof. unfold dict_of, sort_xys. rewrite in_map_iff. change (by_dist f data) with (group t_d [] (fun r l => l ++ [f r]) data []). split.
  - intros ([d' s'] & [= <- <-] & H). apply group_in in H as [N ->]. split; auto. rewrite feed_runs. reflexivity.
  - intros [N ->]. exists (d, map f (run_of d data)). split; auto. apply group_in. split; auto. rewrite feed_runs. reflexivity. Qed.
Lemma dict_fst f data : Sorted Z.lt (map fst (items (dict_of f data))) /\ forall d, In d (map fst (items (dict_of f data))) <-> covered d data.
Proof. split; [apply items_sorted, dict_nodup|]. intros d. rewrite in_map_iff. split.
  - intros ([d' s] & <- & H). apply (proj1 (items_in _ _)) in H. apply dict_in in H as [N _]. cbn. destruct (run_of d' data) as [|r rs] eqn:E; [congruence|]. assert (Hr : In r (run_of d' data)) by (rewrite E; left; auto). apply filter_In in Hr as [Hr Hk]. exists r. split; auto. lia.
  - intros (r & Hr & <-). exists (t_d r, isort by_key (map f (run_of (t_d r) data))). split; auto. apply items_in, dict_in. split; auto. intros X. assert (Y : In r (run_of (t_d r) data)) by (apply filter_In; split; auto; lia). rewrite X in Y. destruct Y. Qed.
(** all points with their distance *)
Definition flat (ms : list (Z * list (fl * fl))) : list (Z * (fl * fl)) := flat_map (fun ds => map (fun pt => (fst ds, pt)) (snd ds)) ms.
Lemma flat_perm f data : Permutation (flat (items (dict_of f data))) (map (fun r => (t_d r, f r)) data).
Proof. unfold flat. etransitivity; [apply (flat_map_perm_f _ (fun ds => map (fun r => (t_d r, f r)) (run_of (fst ds) data)))|].
  - intros [d l] H. apply (proj1 (items_in _ _)) in H. apply dict_in in H as [_ ->]. cbn [fst snd]. etransitivity; [apply Permutation_map, isort_perm|]. rewrite map_map. match goal with |- Permutation ?A ?B => assert (Q : A = B); [|rewrite Q; apply Permutation_refl] end.
    apply map_ext_in. intros r Hr. apply filter_In in Hr as [_ Hr]. f_equal. lia.
  - rewrite <- map_flat. apply Permutation_map. rewrite flat_map_concat_map, <- (map_map fst (fun d => run_of d data)), <- flat_map_concat_map. apply part_flat; [apply items_nodup, dict_nodup|]. intros r Hr. apply (proj2 (dict_fst f data)). exists r. auto. Qed.
Lemma flat_feed (l : list (Z * (fl * fl))) v : feed (fun x l => l ++ [(fst x, snd (snd x))]) l v = v ++ map (fun x => (fst x, snd (snd x))) l.
Proof. unfold feed. revert v. induction l as [|r l IHl]; cbn; intros v; [now rewrite app_nil_r|]. rewrite IHl, <- app_assoc. reflexivity. Qed.
Lemma flat_mem p pers (l : list (Z * (fl * fl))) : In p pers -> part (fun x => fst (snd x)) p (filter (fun x => mem (fst (snd x)) pers) l) = part (fun x => fst (snd x)) p l.
Proof. intros H. unfold part. induction l as [|r l IHl]; cbn; auto. destruct (mem (fst (snd r)) pers) eqn:E; cbn; rewrite IHl; auto. destruct (fst (snd r) =? p)%Z eqn:E'.
  - apply Z.eqb_eq in E'. rewrite E' in E. apply mem_in in H. congruence.
  - match goal with |- _ = (if ?b then _ else _) => change b with (fst (snd r) =? p)%Z end. now rewrite E'. Qed.
Lemma flat_pd pers ms p l : In (p, l) (p_data pers ms) <-> In p pers /\ part (fun x => fst (snd x)) p (flat ms) <> [] /\ l = map (fun x => (fst x, snd (snd x))) (part (fun x => fst (snd x)) p (flat ms)).
Proof. rewrite p_data_group, group_in, flat_feed. fold (flat ms). cbn [app]. split.
  - intros [N ->]. assert (Hp : In p pers). { destruct (part _ p (filter _ _)) as [|x xs] eqn:E; [congruence|]. assert (Hx : In x (part (fun x : Z * (fl * fl) => fst (snd x)) p (filter (fun x => mem (fst (snd x)) pers) (flat ms)))) by (rewrite E; left; auto). apply filter_In in Hx as [Hx E1]. apply filter_In in Hx as [_ Hx]. apply mem_in in Hx. replace p with (fst (snd x)) by lia. auto. }
    rewrite flat_mem in * by auto. auto.
  - intros (Hp & N & ->). rewrite flat_mem by auto. auto. Qed.
Lemma one_each_flat (h : Z * (fl * fl) -> bool) ms : NoDup (map fst ms) -> NoDup (map fst (filter h (flat ms))) -> length (filter h (flat ms)) = length ms -> map fst (filter h (flat ms)) = map fst ms.
Proof. intros _ ND. assert (G : length (filter h (flat ms)) <= length ms /\ (length (filter h (flat ms)) = length ms -> map fst (filter h (flat ms)) = map fst ms)); [|apply G].
  induction ms as [|[d l] ms IHms]; [cbn; auto|]. unfold flat in *. cbn [flat_map fst snd] in *. rewrite filter_app, map_app in *. rewrite app_length. assert (L : length (filter h (map (fun pt => (d, pt)) l)) <= 1).
  { destruct (filter h (map (fun pt => (d, pt)) l)) as [|a [|b m]] eqn:E; cbn; auto. exfalso. assert (X : forall x, In x (filter h (map (fun pt => (d, pt)) l)) -> fst x = d) by (intros x Hx; apply filter_In in Hx as [Hx _]; apply in_map_iff in Hx as (? & <- & _); auto).
    rewrite E in X. cbn [map app] in ND. apply NoDup_cons_iff in ND as [NI _]. apply NI. left. rewrite (X a), (X b); cbn; auto. }
  destruct IHms as [L' IHms]; [now apply nodup_tail in ND|]. cbn [length map fst]. split; [lia|]. intros E. destruct (filter h (map (fun pt => (d, pt)) l)) as [|a [|b m]] eqn:Ef; cbn [length] in *; try lia. cbn [map app]. f_equal.
  - assert (Ha : In a (filter h (map (fun pt => (d, pt)) l))) by (rewrite Ef; left; auto). apply filter_In in Ha as [Ha _]. apply in_map_iff in Ha as (? & <- & _). reflexivity.
  - apply IHms. lia. Qed.
Lemma combine_split_map {A B} (l : list (A * B)) : combine (map fst l) (map snd l) = l.
Proof. induction l as [|[a b] l IHl]; cbn; congruence. Qed.
Lemma tn_cmds pers data cmds : generate_plots_tn pers data = Ret cmds -> let lers := dict_of (fun r => (t_per r, t_lfr r)) data in let times := dict_of (fun r => (t_ep r, t_us r)) data in
  exists ts, pmap (time_line 1 1 (map fst (items times))) (items (p_data pers (items times))) = Ret ts /\
  forall c, In c cmds <-> (exists d l, In (d, l) lers /\ c = Line 0 0 (map fst l) (map snd l) d) \/ (exists d l, In (d, l) times /\ c = Line 1 0 (map fst l) (map snd l) d) \/ In c ts.
Proof. unfold generate_plots_tn. fold (dict_of (fun r => (t_per r, t_lfr r)) data) (dict_of (fun r => (t_ep r, t_us r)) data). destruct (pmap _ _) as [ts|]; cbn [pbind]; [|discriminate]. intros [= <-]. exists ts. split; auto. intros c. rewrite !in_app_iff, !in_map_iff.
  assert (K : forall r m, (exists x : Z * list (fl * fl), Line r 0 (map fst (snd x)) (map snd (snd x)) (fst x) = c /\ In x (items m)) <-> exists d l, In (d, l) m /\ c = Line r 0 (map fst l) (map snd l) d).
  { intros r m. split; [intros ([d l] & <- & H); exists d, l; split; auto; now apply (proj1 (items_in _ _))|intros (d & l & H & ->); exists (d, l); split; auto; now apply items_in]. }
  rewrite !K. reflexivity. Qed.
(** ** C77, tensor network figures *)
(** Panel (0, 0): logical error rates of each distance, each run once, from left to right; panel (1, 0): times per run; panel (1, 1): times over the distance, for the chosen error rates at which there are runs, at their own distances unless a
    distance has two runs at that rate.  No results: empty figures. *)
Theorem C77_tn : forall pers data cmds, generate_plots_tn pers data = Ret cmds ->
  (forall x y d, In (Line 0 0 x y d) cmds -> covered d data /\ curve_of x y (fun r => (t_per r, t_lfr r)) (run_of d data)) /\
  (forall x y d, In (Line 1 0 x y d) cmds -> covered d data /\ curve_of x y (fun r => (t_ep r, t_us r)) (run_of d data)) /\
  (forall d, covered d data -> (exists x y, In (Line 0 0 x y d) cmds) /\ exists x y, In (Line 1 0 x y d) cmds) /\
  (forall x y p, In (Line 1 1 x y p) cmds -> In p pers /\ Sorted Z.lt x /\ (forall d, In d x <-> covered d data) /\ length y = length x /\ length (run_at p data) = length x /\
     (NoDup (map t_d (run_at p data)) -> Permutation (combine x y) (map (fun r => (t_d r, t_us r)) (run_at p data)))) /\
  (forall p r, In p pers -> In r data -> t_ep r = p -> exists x y, In (Line 1 1 x y p) cmds).
Proof. intros pers data cmds H. apply tn_cmds in H as (ts & Ets & C). cbv zeta in *. set (times := dict_of (fun r => (t_ep r, t_us r)) data) in *. set (lers := dict_of (fun r => (t_per r, t_lfr r)) data) in *.
  assert (CV : forall f d l, In (d, l) (dict_of f data) -> covered d data /\ curve_of (map fst l) (map snd l) f (run_of d data)).
  { intros f d l H. apply dict_in in H as [N ->]. split.
    - destruct (run_of d data) as [|r rs] eqn:E; [congruence|]. assert (Hr : In r (run_of d data)) by (rewrite E; left; auto). apply filter_In in Hr as [Hr Hk]. exists r. split; auto. lia.
    - unfold curve_of. rewrite !map_length, combine_split_map. split; auto. split; [|apply isort_perm]. apply (sorted_map (leP by_key)); [intros a b Hab; apply Z.leb_le; exact Hab|apply isort_sorted, ord_key]. }
  assert (TS : forall c, In c ts -> exists x y p, c = Line 1 1 x y p). { intros c Hc. apply (in_ts _ _ _ _ _ _ Ets) in Hc as (pl & _ & _ & ->). eauto. }
  split; [|split; [|split; [|split]]].
  - intros x y d H. apply C in H as [(d' & l & H & [= -> -> ->])|[(d' & l & H & X)|H]]; [apply (CV _ _ _ H)|discriminate|apply TS in H as (? & ? & ? & X); discriminate].
  - intros x y d H. apply C in H as [(d' & l & H & X)|[(d' & l & H & [= -> -> ->])|H]]; [discriminate|apply (CV _ _ _ H)|apply TS in H as (? & ? & ? & X); discriminate].
  - intros d (r & Hr & <-). assert (N : run_of (t_d r) data <> []). { intros X. assert (Y : In r (run_of (t_d r) data)) by (apply filter_In; split; auto; lia). rewrite X in Y. destruct Y. }
    split; eexists; eexists; apply C; [left|right; left]; eexists; eexists; (split; [apply dict_in; split; [exact N|reflexivity]|reflexivity]).
  - intros x y p H. apply C in H as [(d' & l & H & X)|[(d' & l & H & X)|H]]; [discriminate|discriminate|]. apply (in_ts _ _ _ _ _ _ Ets) in H as ([q l] & Hl & L & X). apply (proj1 (items_in _ _)) in Hl. apply flat_pd in Hl as (Hp & N & ->). cbn [fst snd] in *. injection X as -> -> ->.
    split; auto. destruct (dict_fst (fun r => (t_ep r, t_us r)) data) as [SD ID]. fold times in SD, ID. split; auto. split; auto. rewrite !map_length in *. split; [exact L|].
    assert (PP : Permutation (part (fun x => fst (snd x)) q (flat (items times))) (map (fun r => (t_d r, (t_ep r, t_us r))) (run_at q data))).
    { etransitivity; [apply (part_perm (fun x => fst (snd x))), flat_perm|]. unfold part. rewrite filter_map. reflexivity. }
    pose proof (Permutation_length PP) as LP. rewrite map_length in LP. split; [etransitivity; [symmetry; exact LP|exact L]|]. intros ND. rewrite map_map. cbn [snd].
    assert (E : map fst (part (fun x => fst (snd x)) q (flat (items times))) = map fst (items times)).
    { apply one_each_flat; auto; [apply items_nodup, dict_nodup|]. apply (Permutation_NoDup (Permutation_map fst (Permutation_sym PP))). rewrite map_map. exact ND. }
    rewrite <- E, combine_map. etransitivity; [apply Permutation_map, PP|]. rewrite map_map. reflexivity.
  - intros p r Hp Hr E. assert (N : part (fun x => fst (snd x)) p (flat (items times)) <> []).
    { intros X. assert (Y : In (t_d r, (t_ep r, t_us r)) (part (fun x => fst (snd x)) p (flat (items times)))); [|rewrite X in Y; destruct Y]. apply filter_In. cbn [fst snd]. split; [|lia]. eapply Permutation_in; [apply Permutation_sym, flat_perm|]. apply in_map_iff. exists r. auto. }
    destruct (pmap_in' _ _ _ (p, map (fun x => (fst x, snd (snd x))) (part (fun x => fst (snd x)) p (flat (items times)))) Ets) as (c & Hc & F).
    + apply items_in, flat_pd. auto.
    + unfold time_line in F. cbn [fst snd] in F. destruct (_ =? _); [|discriminate]. injection F as <-. eexists. eexists. apply C. right. right. exact Hc. Qed.
Print Assumptions C77_tn.
(** The sort is by error rate only: runs for the same distance and rate stay in the order of the files. *)
Theorem C77_tn_order : forall pers data data', Permutation data data' -> (forall r r', In r data -> In r' data -> t_d r = t_d r' -> (t_per r = t_per r' -> t_lfr r = t_lfr r') /\ (t_ep r = t_ep r' -> t_us r = t_us r')) ->
  generate_plots_tn pers data = generate_plots_tn pers data'.
Proof. intros pers data data' P AG. assert (G : forall f, (forall r r', In r data -> In r' data -> t_d r = t_d r' -> fst (f r) = fst (f r') -> snd (f r) = snd (f r')) -> items (dict_of f data) = items (dict_of f data')).
  { intros f A. apply items_eq; [apply dict_nodup|]. apply dict_perm; try apply dict_nodup. assert (D : forall d, isort by_key (map f (run_of d data)) = isort by_key (map f (run_of d data'))).
    { intros d. apply isort_perm_eq; [apply ord_key|apply Permutation_map, filter_perm, P|]. intros a b Ha Hb L1 L2. apply in_map_iff in Ha as (r & <- & Hr), Hb as (r' & <- & Hr'). apply filter_In in Hr as [Hr E], Hr' as [Hr' E']. unfold by_key in *. apply Z.leb_le in L1, L2. assert (F1 : fst (f r) = fst (f r')) by (apply Z.le_antisymm; assumption). pose proof (A r r' Hr Hr' ltac:(lia) F1) as F2. destruct (f r), (f r'); cbn in *; congruence. }
    assert (N : forall d, run_of d data = [] <-> run_of d data' = []). { intros d. split; intros X; apply Permutation_nil; rewrite <- X; [|apply Permutation_sym]; (apply filter_perm; exact P) || (apply filter_perm, Permutation_sym; exact P). }
    intros k. destruct (lookup k (dict_of f data)) as [s|] eqn:E; symmetry.
    - apply lookup_in; [apply dict_nodup|]. apply lookup_in in E; [|apply dict_nodup]. apply dict_in in E as [N1 ->]. apply dict_in. rewrite D. split; auto. now rewrite <- N.
    - apply lookup_none. apply (proj1 (lookup_none _ _)) in E. intros X. apply E. apply in_map_iff in X as ([k' s] & <- & X). apply dict_in in X as [N1 ->]. rewrite <- N in N1. apply in_map_iff. exists (k', isort by_key (map f (run_of k' data))). split; auto. apply dict_in. auto. }
  unfold generate_plots_tn. fold (dict_of (fun r => (t_per r, t_lfr r)) data) (dict_of (fun r => (t_ep r, t_us r)) data) (dict_of (fun r => (t_per r, t_lfr r)) data') (dict_of (fun r => (t_ep r, t_us r)) data').
  rewrite (G (fun r => (t_per r, t_lfr r))), (G (fun r => (t_ep r, t_us r))); auto; intros r r' Hr Hr' D; apply (AG r r' Hr Hr' D). Qed.
Print Assumptions C77_tn_order.
Example C77_tn_nonvacuous : generate_plots_tn [1%Z] [mkTn 5 2 8 1 90; mkTn 3 1 9 1 20; mkTn 5 1 4 2 95]%Z = Ret
  [Line 0 0 [1] [9] 3; Line 0 0 [1; 2] [4; 8] 5; Line 1 0 [1] [20] 3; Line 1 0 [1; 2] [90; 95] 5; Line 1 1 [3; 5] [20; 90] 1]%Z.
Proof. reflexivity. Qed.
