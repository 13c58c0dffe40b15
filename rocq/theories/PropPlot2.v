(** * PropPlot2: property C77, second part - what depends on the order of the files, the panels over the distance, when it fails; the tensor network figures *)
From Verif Require Import PlotProofs PropPlot.
Local Open Scope nat_scope.

(** ** specification *)
Definition at_rate (p : fl) (data : list result) : list result := filter (fun r => (r_p r =? p)%Z) data.
(** ** proofs *)
Definition curve1 (ds : Z * series) : py (list cmd) :=
  pbind (array2 (s_ler (snd ds))) (fun _ => pbind (array2 (s_eb (snd ds))) (fun _ =>
  pbind (pmap (fun l => pbind (column (s_ler (snd ds)) l) (fun y => pbind (column (s_eb (snd ds)) l) (fun e => pbind (panel 0 l) (fun _ => Ret (ErrorBar 0 l (s_p (snd ds)) y e (fst ds)))))) (seq 0 (length (hd [] (s_ler (snd ds))))))
  (fun cs => Ret (cs ++ [Line 1 0 (s_p (snd ds)) (s_t (snd ds)) (fst ds)])))).
Lemma curves_sorted data : pmap curve (items (metrics data)) = pmap curve1 (items (metrics' data)).
Proof. unfold metrics'. rewrite map_items, pmap_map. reflexivity. Qed.
Lemma items'_eq data data' : Permutation data data' -> items (metrics' data) = items (metrics' data').
Proof. intros P. apply items_eq; [apply metrics'_nodup|now apply metrics'_perm]. Qed.
Lemma pmap_exn {A B} (f : A -> py B) e l : (forall a, In a l -> (exists b, f a = Ret b) \/ f a = Raise e) -> (exists bs, pmap f l = Ret bs) \/ pmap f l = Raise e.
Proof. intros H. destruct (pmap_perm f e l l H (Permutation_refl _)) as [(bs & _ & E & _)|[E _]]; eauto. Qed.
Lemma threshold_perm fit r c ms ms' lo hi i : fair fit -> NoDup (map fst ms) -> Permutation ms ms' -> calculate_threshold fit r c ms lo hi i = calculate_threshold fit r c ms' lo hi i.
Proof. intros F N P. unfold calculate_threshold. rewrite (items_eq _ _ N P). set (f := fun ds => pmap _ (selected lo hi (snd ds))).
  destruct (pmap_perm f IndexError ms ms') as [(bs & bs' & -> & -> & Q)|[-> ->]]; auto.
  - intros ds _. unfold f. apply pmap_exn. intros x _. unfold item. destruct (_ <? _); cbn [pbind]; auto. destruct (_ <? _); cbn [pbind]; eauto.
  - cbn [pbind]. f_equal. assert (Q' : Permutation (concat bs) (concat bs')). { clear - Q. induction Q; cbn; auto; [now apply Permutation_app_head| |etransitivity; eauto]. rewrite !app_assoc. apply Permutation_app_tail, Permutation_app_comm. }
    apply F; rewrite ?map_length; auto. rewrite !combine3. now apply Permutation_map. Qed.
Lemma per_lookup data p : lookup p (per_metrics data) = match part r_p p data with [] => None | l => Some (group r_d [] (fun r _ => r_ler r) l []) end.
Proof. unfold per_metrics. change (fold_left _ data []) with (group r_p [] (fun r => upsert (r_d r) [] (fun _ => r_ler r)) data []). rewrite group_lookup. reflexivity. Qed.
Lemma feed_const (l : list result) v : (forall r, In r l -> r_ler r = v) -> l <> [] -> forall w, feed (fun r _ => r_ler r) l w = v.
Proof. unfold feed. induction l as [|a l IHl]; [congruence|]. intros H _ w. cbn. destruct l as [|b l]; [apply H; left; auto|]. apply IHl; [intros; apply H; right; auto|discriminate]. Qed.
Lemma per_perm data data' p : Permutation data data' -> (forall r r', In r data -> In r' data -> r_d r = r_d r' -> r_p r = r_p r' -> r_ler r = r_ler r') ->
  match lookup p (per_metrics data), lookup p (per_metrics data') with Some a, Some b => items a = items b | None, None => True | _, _ => False end.
Proof. intros P AG. rewrite !per_lookup. pose proof (part_perm r_p p _ _ P) as Q. assert (AG' : forall r r', In r (part r_p p data) -> In r' (part r_p p data) -> r_d r = r_d r' -> r_ler r = r_ler r').
  { intros r r' Hr Hr' D. apply filter_In in Hr as [Hr E], Hr' as [Hr' E']. apply AG; auto. lia. }
  destruct (part r_p p data) as [|a l] eqn:El, (part r_p p data') as [|a' l'] eqn:El'; auto; [apply Permutation_nil in Q; discriminate|apply Permutation_sym, Permutation_nil in Q; discriminate|].
  apply items_eq; [apply group_nodup; constructor|]. apply dict_perm; try (apply group_nodup; constructor). intros k. rewrite !group_lookup. cbn [lookup]. pose proof (part_perm r_d k _ _ Q) as R. remember (a :: l) as m. remember (a' :: l') as m'. clear Heqm Heqm'.
  destruct (part r_d k m) as [|b n] eqn:En, (part r_d k m') as [|b' n'] eqn:En'; auto; [apply Permutation_nil in R; discriminate|apply Permutation_sym, Permutation_nil in R; discriminate|]. f_equal.
  assert (C : forall r, In r (b :: n) -> r_ler r = r_ler b). { intros r Hr. assert (Hb : In b (part r_d k m)) by (rewrite En; left; auto). rewrite <- En in Hr. apply filter_In in Hr as [Hr Kr], Hb as [Hb Kb]. apply AG'; auto. lia. }
  rewrite (feed_const (b :: n) (r_ler b)) by (auto; discriminate). symmetry. apply feed_const; [|discriminate]. intros r Hr. apply C. eapply Permutation_in; [apply Permutation_sym; exact R|auto]. Qed.
(** The order in which the directory lists the files does not matter, neither for what is drawn nor for the exception raised, if results for the same distance and error rate have the same logical error rates and the fit does not depend on the
    order of its samples. *)
Theorem C77_order : forall fit lo hi pers p1 data data', fair fit -> Permutation data data' -> (forall r r', In r data -> In r' data -> r_d r = r_d r' -> r_p r = r_p r' -> r_ler r = r_ler r') ->
  generate_plots fit lo hi pers p1 data = generate_plots fit lo hi pers p1 data'.
Proof. intros fit lo hi pers p1 data data' F P AG. unfold generate_plots. fold (metrics' data) (metrics' data'). rewrite !curves_sorted, (items'_eq _ _ P). destruct (pmap curve1 _); cbn [pbind]; auto. destruct (pmap (time_line _ _ _) _); cbn [pbind]; auto.
  destruct (rev (items (metrics' data'))) as [|md l]; auto.
  assert (TH : forall i, pbind (panel 1 i) (fun _ => calculate_threshold fit 1 i (metrics' data) lo hi 0) = pbind (panel 1 i) (fun _ => calculate_threshold fit 1 i (metrics' data') lo hi 0)).
  { intros i. destruct (panel 1 i); cbn [pbind]; auto. apply threshold_perm; auto; [apply metrics'_nodup|now apply metrics'_perm]. }
  rewrite (pmap_ext _ _ _ (fun i _ => TH i)). destruct (pmap _ (seq _ _)); cbn [pbind]; auto.
  assert (V : plot_ler_vs_distance 3 0 (per_metrics data) [p1] 0 = plot_ler_vs_distance 3 0 (per_metrics data') [p1] 0).
  { unfold plot_ler_vs_distance. cbn [pmap]. pose proof (per_perm data data' p1 P AG) as X. destruct (lookup p1 (per_metrics data)), (lookup p1 (per_metrics data')); try destruct X; auto. }
  now rewrite V. Qed.
Print Assumptions C77_order.

(** ** times over the distance *)
Lemma p_data_group pers ms : p_data pers ms = group (fun x : Z * (fl * fl) => fst (snd x)) [] (fun x l => l ++ [(fst x, snd (snd x))]) (filter (fun x => mem (fst (snd x)) pers) (flat_map (fun ds => map (fun pt => (fst ds, pt)) (snd ds)) ms)) [].
Proof. unfold p_data, group. generalize (@nil (Z * list (Z * fl))) as m. induction ms as [|[d l] ms IHms]; cbn [fold_left flat_map fst snd]; auto. intros m. rewrite filter_app, fold_left_app, IHms. f_equal. clear. revert m.
  induction l as [|[p t] l IHl]; cbn [fold_left map filter fst snd]; auto. intros m. rewrite IHl. destruct (mem p pers); reflexivity. Qed.
(** all results in the order of the distances *)
Definition all_sorted (data : list result) : list result := flat_map (fun d => rsort (at_d d data)) (map fst (items (metrics' data))).
Lemma items_fst data : distances data (map fst (items (metrics' data))).
Proof. split; [apply items_sorted, metrics'_nodup|]. intros d. rewrite in_map_iff. split.
  - intros ([d' s] & <- & H). apply (proj1 (items_in _ _)) in H. apply metrics'_in in H as [N _]. cbn. destruct (at_d d' data) as [|r rs] eqn:E; [congruence|]. assert (Hr : In r (at_d d' data)) by (rewrite E; left; auto). apply filter_In in Hr as [Hr Hk]. exists r. split; auto. lia.
  - intros (r & Hr & <-). exists (r_d r, series_of (rsort (at_d (r_d r) data))). split; auto. apply items_in, metrics'_in. split; auto. intros X. assert (Y : In r (at_d (r_d r) data)) by (apply filter_In; split; auto; lia). rewrite X in Y. destruct Y. Qed.
Lemma distances_unique data a b : distances data a -> distances data b -> a = b.
Proof. intros [Sa Ia] [Sb Ib]. assert (E : forall d, In d a <-> In d b) by (intros; rewrite Ia, Ib; reflexivity). clear Ia Ib. apply Sorted_StronglySorted in Sa; [|intros ? ? ?; lia]. apply Sorted_StronglySorted in Sb; [|intros ? ? ?; lia]. revert b Sb E. induction Sa as [|x a Sa IHa Fa]; intros b Sb E.
  - destruct b as [|y b]; auto. destruct (proj2 (E y)); left; auto.
  - destruct Sb as [|y b Sb Fb]; [destruct (proj1 (E x)); left; auto|]. rewrite Forall_forall in Fa, Fb. assert (x = y). { destruct (proj1 (E x) (or_introl eq_refl)) as [|H]; auto. destruct (proj2 (E y) (or_introl eq_refl)) as [|H']; auto. apply Fb in H. apply Fa in H'. lia. }
    subst y. f_equal. apply IHa; auto. intros d. split; intros H; [destruct (proj1 (E d) (or_intror H)) as [<-|]|destruct (proj2 (E d) (or_intror H)) as [<-|]]; auto; [apply Fa in H|apply Fb in H]; lia. Qed.
Lemma all_perm data : Permutation (all_sorted data) data.
Proof. unfold all_sorted. etransitivity; [apply (flat_map_perm_f _ (fun d => at_d d data)); intros; apply rsort_perm|]. apply part_flat; [apply items_nodup, metrics'_nodup|]. intros r Hr. apply (proj2 (items_fst data)). exists r. auto. Qed.
Lemma pd_group pers data : p_data pers (map (fun x => (fst x, combine (s_p (snd x)) (s_t (snd x)))) (items (metrics' data))) =
  group r_p [] (fun r l => l ++ [(r_d r, r_t r)]) (filter (fun r => mem (r_p r) pers) (all_sorted data)) [].
Proof. rewrite p_data_group. set (tr := fun r => (r_d r, (r_p r, r_t r))). assert (X : flat_map (fun ds => map (fun pt => (fst ds, pt)) (snd ds)) (map (fun x => (fst x, combine (s_p (snd x)) (s_t (snd x)))) (items (metrics' data))) = map tr (all_sorted data)).
  { unfold all_sorted. rewrite map_flat, !flat_map_concat_map, !map_map. f_equal. apply map_ext_in. intros [d s] H. apply (proj1 (items_in _ _)) in H. apply metrics'_in in H as [_ ->]. cbn [fst snd series_of s_p s_t]. rewrite combine_map, map_map. apply map_ext_in. intros r Hr. apply (Permutation_in _ (rsort_perm _)) in Hr. apply filter_In in Hr as [_ Hr]. unfold tr. f_equal. lia. }
  rewrite X, filter_map. unfold group. generalize (@nil (Z * list (Z * fl))) as m. cbn [fst snd tr]. change (fun a => mem (fst (snd (tr a))) pers) with (fun a => mem (r_p a) pers). induction (filter (fun r => mem (r_p r) pers) (all_sorted data)) as [|r l IHl]; cbn [map fold_left]; auto. Qed.
Lemma feed_pairs (l : list result) v : feed (fun r v => v ++ [(r_d r, r_t r)]) l v = v ++ map (fun r => (r_d r, r_t r)) l.
Proof. unfold feed. revert v. induction l as [|r l IHl]; cbn; intros v; [now rewrite app_nil_r|]. rewrite IHl, <- app_assoc. reflexivity. Qed.
Lemma mem_in p l : mem p l = true <-> In p l.
Proof. unfold mem. rewrite existsb_exists. split; [intros (x & H & E); apply Z.eqb_eq in E; now subst|intros H; exists p; split; auto; apply Z.eqb_refl]. Qed.
Lemma part_mem p pers l : In p pers -> part r_p p (filter (fun r => mem (r_p r) pers) l) = part r_p p l.
Proof. intros H. unfold part. induction l as [|r l IHl]; cbn; auto. destruct (mem (r_p r) pers) eqn:E; cbn; rewrite IHl; auto. destruct (Z.eqb_spec (r_p r) p) as [E'|]; auto. rewrite E' in E. apply mem_in in H. congruence. Qed.
Lemma pd_in pers data p l : In (p, l) (p_data pers (map (fun x => (fst x, combine (s_p (snd x)) (s_t (snd x)))) (items (metrics' data)))) <-> In p pers /\ at_rate p data <> [] /\ l = map (fun r => (r_d r, r_t r)) (at_rate p (all_sorted data)).
Proof. rewrite pd_group, group_in. assert (K : part r_p p (filter (fun r => mem (r_p r) pers) (all_sorted data)) <> [] <-> In p pers /\ at_rate p data <> []).
  { split.
    - intros N. assert (Hp : In p pers). { destruct (part r_p p (filter _ _)) as [|r rs] eqn:E; [congruence|]. assert (Hr : In r (part r_p p (filter (fun r => mem (r_p r) pers) (all_sorted data)))) by (rewrite E; left; auto). apply filter_In in Hr as [Hr E1]. apply filter_In in Hr as [_ Hr]. apply mem_in in Hr. replace p with (r_p r) by lia. auto. }
      split; auto. rewrite part_mem in N by auto. intros X. apply N. apply Permutation_nil. rewrite <- X. apply Permutation_sym, (part_perm r_p p), all_perm.
    - intros [Hp N] X. rewrite part_mem in X by auto. apply N. apply Permutation_nil. rewrite <- X. apply (part_perm r_p p), all_perm. }
  rewrite K. split.
  - intros [[Hp N] ->]. split; auto. split; auto. rewrite part_mem, feed_pairs by auto. reflexivity.
  - intros (Hp & N & ->). split; auto. rewrite part_mem, feed_pairs by auto. reflexivity. Qed.
Lemma one_each (f : Z -> list result) ds : (forall d, In d ds -> length (f d) <= 1 /\ forall r, In r (f d) -> r_d r = d) -> length (flat_map f ds) = length ds -> map r_d (flat_map f ds) = ds.
Proof. intros H. assert (G : length (flat_map f ds) <= length ds /\ (length (flat_map f ds) = length ds -> map r_d (flat_map f ds) = ds)); [|apply G].
  induction ds as [|d ds IHd]; cbn [flat_map length map]; auto. rewrite app_length. destruct (H d (or_introl eq_refl)) as [L K]. destruct IHd as [L' IHd]; [intros; apply H; right; auto|]. split; [lia|]. intros E. destruct (f d) as [|r [|r' l]] eqn:Ef; cbn [length] in *; try lia. rewrite map_app. cbn [map]. rewrite (K r (or_introl eq_refl)). cbn. f_equal. apply IHd. lia. Qed.
Lemma nodup_tail {A} (u v : list A) : NoDup (u ++ v) -> NoDup v.
Proof. induction u; cbn; auto. intros H. apply NoDup_cons_iff in H as [_ H]. auto. Qed.
(** Decoding time over the distance, one curve in panel (2, 1) for each chosen error rate at which there are results.  The x axis carries all distances.  If no distance has two results at that rate the curve shows the times measured at their own
    distances; if one has, times can be drawn at the wrong distance (C77_refuted_times). *)
Theorem C77_times_by_distance : forall fit lo hi pers p1 data cmds, generate_plots fit lo hi pers p1 data = Ret cmds ->
  (forall x y p, In (Line 2 1 x y p) cmds -> In p pers /\ distances data x /\ length y = length x /\ length (at_rate p data) = length x /\
     (NoDup (map r_d (at_rate p data)) -> Permutation (combine x y) (map (fun r => (r_d r, r_t r)) (at_rate p data)))) /\
  (forall p r, In p pers -> In r data -> r_p r = p -> exists x y, In (Line 2 1 x y p) cmds).
Proof. intros fit lo hi pers p1 data cmds H. apply gp_inv in H as (cs & ts & md & th & vs & Ecs & Ets & _ & Eth & Evs & ->). split.
  - intros x y p Hc. rewrite !in_app_iff in Hc. destruct Hc as [Hc|[Hc|[Hc|Hc]]].
    + apply in_concat in Hc as (c & Hc & Hin). destruct (pmap_in _ _ _ _ Ecs Hc) as ([d' s] & Hd & F). apply curve_inv in F as (_ & F & _). apply F in Hin. destruct Hin as [X|(l' & _ & _ & _ & X)]; discriminate.
    + apply (in_ts _ _ _ _ _ _ Ets) in Hc as ([q l] & Hl & L & X). apply (proj1 (items_in _ _)) in Hl. apply pd_in in Hl as (Hp & N & ->). cbn [fst snd] in *. injection X as -> -> ->. rewrite map_length in L. split; auto. split; [apply items_fst|]. rewrite !map_length. rewrite map_length in L. split; auto.
      assert (PP : Permutation (at_rate q (all_sorted data)) (at_rate q data)) by apply filter_perm, all_perm. split; [rewrite <- (Permutation_length PP); auto|]. intros ND.
      rewrite map_map. cbn [snd]. assert (E : map r_d (at_rate q (all_sorted data)) = map fst (items (metrics' data))).
      { unfold at_rate, all_sorted in *. rewrite filter_flat in *. apply one_each; [|rewrite map_length; lia]. intros d _. split.
        - apply (Permutation_NoDup (Permutation_map r_d (Permutation_sym PP))) in ND. destruct (filter _ (rsort (at_d d data))) as [|a [|b l]] eqn:E; cbn; auto. exfalso.
          assert (X : forall r, In r (filter (fun r => (r_p r =? q)%Z) (rsort (at_d d data))) -> r_d r = d). { intros r Hr. apply filter_In in Hr as [Hr _]. apply (Permutation_in _ (rsort_perm _)) in Hr. apply filter_In in Hr as [_ Hr]. lia. }
          rewrite E in X. assert (Hd : In d (map fst (items (metrics' data)))). { apply (proj2 (items_fst data)). assert (Ha : In a (filter (fun r => (r_p r =? q)%Z) (rsort (at_d d data)))) by (rewrite E; left; auto). apply filter_In in Ha as [Ha _]. apply (Permutation_in _ (rsort_perm _)) in Ha. apply filter_In in Ha as [Ha Hk]. exists a. split; auto. lia. }
          apply in_split in Hd as (u & v & Huv). rewrite Huv, flat_map_app, map_app in ND. cbn [flat_map] in ND. rewrite E, map_app in ND. cbn [map] in ND. apply nodup_tail in ND. cbn in ND. apply NoDup_cons_iff in ND as [NI _]. apply NI. left. rewrite (X a), (X b); auto; cbn; auto.
        - intros r Hr. apply filter_In in Hr as [Hr _]. apply (Permutation_in _ (rsort_perm _)) in Hr. apply filter_In in Hr as [_ Hr]. lia. }
      rewrite <- E, combine_map. apply Permutation_map, PP.
    + apply in_concat in Hc as (c & Hc & Hin). destruct (pmap_in _ _ _ _ Eth Hc) as (l' & _ & F). destruct (in_th _ _ _ _ _ _ _ _ F Hin) as [(x' & X)|(ds' & I1 & I2 & X)]; discriminate.
    + apply (in_vs _ _ _ _ _ _ _ Evs) in Hc as (? & ? & ? & _ & _ & _ & X). discriminate.
  - intros p r Hp Hr E. destruct (pmap_in' _ _ _ (p, map (fun r => (r_d r, r_t r)) (at_rate p (all_sorted data))) Ets) as (c & Hc & F).
    + apply items_in, pd_in. split; auto. split; auto. intros X. assert (Y : In r (at_rate p data)) by (apply filter_In; split; auto; lia). rewrite X in Y. destruct Y.
    + unfold time_line in F. cbn [fst snd] in F. destruct (_ =? _); [|discriminate]. injection F as <-. eexists. eexists. rewrite !in_app_iff. right. left. exact Hc. Qed.
Print Assumptions C77_times_by_distance.
(** Logical error rate of operator 0 over the distance at the error rate p1, panel (3, 0): the distances with a result at p1 in increasing order, each with the logical error rate of such a result. *)
Theorem C77_ler_by_distance : forall fit lo hi pers p1 data cmds, generate_plots fit lo hi pers p1 data = Ret cmds ->
  exists x y, In (Line 3 0 x y p1) cmds /\ (forall x' y' p, In (Line 3 0 x' y' p) cmds -> x' = x /\ y' = y /\ p = p1) /\
  Sorted Z.lt x /\ (forall d, In d x <-> measured d (at_rate p1 data)) /\ at_rate p1 data <> [] /\ length y = length x /\
  forall d v, In (d, v) (combine x y) -> exists r, In r (at_rate p1 data) /\ r_d r = d /\ v = nth 0 (r_ler r) 0%Z.
Proof. intros fit lo hi pers p1 data cmds H. apply gp_inv in H as (cs & ts & md & th & vs & Ecs & Ets & _ & Eth & Evs & ->).
  pose proof Evs as Evs'. unfold plot_ler_vs_distance in Evs'. cbn [pmap] in Evs'. rewrite per_lookup in Evs'. destruct (part r_p p1 data) as [|r0 l0] eqn:El; [discriminate|]. rewrite <- El in Evs'. set (dd := group r_d [] (fun r _ => r_ler r) (part r_p p1 data) []) in *.
  destruct (pmap _ (items dd)) as [ys|] eqn:Ey; cbn [pbind] in Evs'; [|discriminate]. injection Evs' as <-. assert (NDd : NoDup (map fst dd)) by (apply group_nodup; constructor).
  exists (map fst (items dd)), ys. split; [rewrite !in_app_iff; right; right; right; left; reflexivity|]. split.
  { intros x' y' p Hc. rewrite !in_app_iff in Hc. destruct Hc as [Hc|[Hc|[Hc|Hc]]].
    - apply in_concat in Hc as (c & Hc & Hin). destruct (pmap_in _ _ _ _ Ecs Hc) as ([d' s] & Hd & F). apply curve_inv in F as (_ & F & _). apply F in Hin. destruct Hin as [X|(l' & _ & _ & _ & X)]; discriminate.
    - apply (in_ts _ _ _ _ _ _ Ets) in Hc as (? & _ & _ & X). discriminate.
    - apply in_concat in Hc as (c & Hc & Hin). destruct (pmap_in _ _ _ _ Eth Hc) as (l' & _ & F). destruct (in_th _ _ _ _ _ _ _ _ F Hin) as [(x'' & X)|(ds' & I1 & I2 & X)]; discriminate.
    - destruct Hc as [[= <- <- <-]|[]]. auto. }
  split; [now apply items_sorted|]. split.
  { intros d. unfold measured. change (at_rate p1 data) with (part r_p p1 data). rewrite <- (group_keys r_d [] (fun r _ => r_ler r)). fold dd. rewrite !in_map_iff. split; intros (x & E & Hx); exists x; split; auto; [now apply (proj1 (items_in _ _))|now apply items_in]. }
  split; [unfold at_rate; unfold part in El; rewrite El; discriminate|].
  apply pmap_ret in Ey. split.
  { rewrite map_length. clear - Ey. induction Ey; cbn; auto. }
  intros d v Hin. assert (G : exists w, In (d, w) (items dd) /\ v = nth 0 w 0%Z).
  { revert Hin. clear - Ey. induction Ey as [|[d' w'] y l l' E F IHf]; cbn; [intros []|]. intros [[= <- <-]|Hin]; [|destruct (IHf Hin) as (w & Hw & ->); eauto]. exists w'. split; auto. unfold item in E. cbn [snd] in E. destruct (_ <? _); [|discriminate]. now injection E. }
  destruct G as (w & Hw & ->). apply (proj1 (items_in _ _)) in Hw. apply group_in in Hw as [N ->]. assert (Z0 : forall l w, l <> [] -> exists r : result, In r l /\ feed (fun r _ => r_ler r) l w = r_ler r).
  { unfold feed. clear. induction l as [|a l IHl]; [congruence|]. intros w _. cbn. destruct l as [|b l]; [exists a; auto|]. destruct (IHl (r_ler a)) as (r & Hr & E); [discriminate|]. exists r. split; auto. }
  destruct (Z0 _ [] N) as (r & Hr & ->). apply filter_In in Hr as [Hr Hk]. exists r. split; auto. split; auto. lia. Qed.
Print Assumptions C77_ler_by_distance.

(** ** when the figures are drawn *)
(** With results of the same number (one to four) of logical operators, a result at p1, for each chosen error rate as many results as distances (or none), and a fit that succeeds, the figures are drawn.  No results at all, no result at p1, or a
    chosen error rate that is missing for a distance: an exception. *)
Theorem C77_drawn : forall fit lo hi pers p1 data k, 1 <= k <= 4 -> (forall r, In r data -> length (r_ler r) = k /\ length (r_eb r) = k) -> at_rate p1 data <> [] ->
  (forall p ds, In p pers -> at_rate p data <> [] -> distances data ds -> length (at_rate p data) = length ds) -> (forall ps ds ys, exists x, fit ps ds ys = Ret x) ->
  exists cmds, generate_plots fit lo hi pers p1 data = Ret cmds.
Proof. intros fit lo hi pers p1 data k K L N1 NP F. unfold generate_plots. fold (metrics' data). rewrite curves_sorted.
  assert (SR : forall d s, In (d, s) (metrics' data) -> (forall r, In r (s_ler s) -> length r = k) /\ (forall r, In r (s_eb s) -> length r = k) /\ length (hd [] (s_ler s)) = k /\ length (hd [] (s_eb s)) = k).
  { intros d s H. apply metrics'_in in H as [N ->]. unfold series_of. cbn [s_ler s_eb]. assert (G : forall r, In r (rsort (at_d d data)) -> length (r_ler r) = k /\ length (r_eb r) = k). { intros r Hr. apply (Permutation_in _ (rsort_perm _)) in Hr. apply filter_In in Hr as [Hr _]. auto. }
    split; [intros r Hr; apply in_map_iff in Hr as (r' & <- & Hr); now apply G|]. split; [intros r Hr; apply in_map_iff in Hr as (r' & <- & Hr); now apply G|]. destruct (rsort (at_d d data)) as [|r l] eqn:E; [exfalso; apply N; apply Permutation_nil; rewrite <- E; apply rsort_perm|]. cbn. apply G. left; auto. }
  assert (A2 : forall m : list (list fl), (forall r, In r m -> length r = k) -> length (hd [] m) = k -> array2 m = Ret tt). { intros m H H'. unfold array2. rewrite (proj2 (forallb_forall _ _)); auto. intros r Hr. apply Nat.eqb_eq. rewrite H by auto. now rewrite H'. }
  destruct (pmap_total curve1 (items (metrics' data))) as [cs ->].
  { intros [d s] H. apply (proj1 (items_in _ _)) in H. apply SR in H as (H1 & H2 & H3 & H4). unfold curve1. cbn [fst snd]. rewrite !A2 by auto. cbn [pbind].
    destruct (pmap_total (fun l => pbind (column (s_ler s) l) (fun y => pbind (column (s_eb s) l) (fun e => pbind (panel 0 l) (fun _ => Ret (ErrorBar 0 l (s_p s) y e d))))) (seq 0 (length (hd [] (s_ler s))))) as [bs E]; [|rewrite E; cbn [pbind]; eauto].
    intros l Hl. apply in_seq in Hl. unfold column, panel. rewrite H4. rewrite (proj2 (Nat.ltb_lt l (length (hd [] (s_ler s))))) by lia. cbn [pbind]. rewrite (proj2 (Nat.ltb_lt l k)) by lia. cbn [pbind]. rewrite (proj2 (Nat.ltb_lt l 4)) by lia. cbn. eauto. }
  cbn [pbind]. destruct (pmap_total (time_line 2 1 (map fst (items (metrics' data)))) (items (p_data pers (map (fun x => (fst x, combine (s_p (snd x)) (s_t (snd x)))) (items (metrics' data)))))) as [ts ->].
  { intros [p l] H. apply (proj1 (items_in _ _)) in H. apply pd_in in H as (Hp & N & ->). unfold time_line. cbn [fst snd]. rewrite map_length. assert (EQ : length (at_rate p (all_sorted data)) = length (at_rate p data)) by (apply Permutation_length, filter_perm, all_perm). rewrite EQ.
    rewrite (NP p (map fst (items (metrics' data))) Hp N (items_fst data)), Nat.eqb_refl. eauto. }
  cbn [pbind]. destruct (rev (items (metrics' data))) as [|md l] eqn:E.
  { exfalso. destruct (at_rate p1 data) as [|r l] eqn:Er; [congruence|]. assert (Hr : In r (at_rate p1 data)) by (rewrite Er; left; auto). apply filter_In in Hr as [Hr _]. assert (X : In (r_d r) (map fst (items (metrics' data)))) by (apply (proj2 (items_fst data)); exists r; auto).
    apply (f_equal (@rev _)) in E. rewrite rev_involutive in E. rewrite E in X. destruct X. }
  assert (Hm : In md (metrics' data)). { apply items_in. apply in_rev. rewrite E. left; auto. } destruct md as [dm sm]. destruct (SR dm sm Hm) as (_ & _ & LM & _). cbn [snd]. rewrite LM.
  match goal with |- context [pmap ?f (seq 0 k)] => destruct (pmap_total f (seq 0 k)) as [th ->] end.
  { intros i Hi. apply in_seq in Hi. unfold panel. rewrite (proj2 (Nat.ltb_lt i 4)) by lia. change (1 <? 4) with true. cbn [andb pbind]. unfold calculate_threshold.
    match goal with |- context [pmap ?f (metrics' data)] => destruct (pmap_total f (metrics' data)) as [parts ->] end.
    { intros [d s] H. pose proof H as H'. apply metrics'_in in H' as [_ ->]. cbn [fst snd]. apply pmap_total. intros x Hx. rewrite selected_series in Hx. apply in_map_iff in Hx as (r & <- & Hr). apply filter_In in Hr as [Hr _]. apply (Permutation_in _ (rsort_perm _)) in Hr. apply filter_In in Hr as [Hr _]. apply L in Hr as [Hr Hr']. cbn [fst snd]. unfold item. rewrite Hr, Hr'. rewrite (proj2 (Nat.ltb_lt 0 k)) by lia. cbn [pbind]. eauto. }
    cbn [pbind]. match goal with |- context [fit ?a ?b ?c] => destruct (F a b c) as [x ->] end. cbn [pbind].
    match goal with |- context [pmap ?f (items (metrics' data))] => destruct (pmap_total f (items (metrics' data))) as [es ->] end; [|cbn [pbind]; eauto].
    intros [d s] H. apply (proj1 (items_in _ _)) in H. apply SR in H as (H1 & H2 & H3 & H4). cbn [fst snd]. rewrite !A2 by auto. cbn [pbind]. unfold column. rewrite H3, H4, (proj2 (Nat.ltb_lt 0 k)) by lia. cbn [pbind]. eauto. }
  cbn [pbind]. unfold plot_ler_vs_distance. cbn [pmap]. rewrite per_lookup. change (part r_p p1 data) with (at_rate p1 data). destruct (at_rate p1 data) as [|r0 l0] eqn:Er; [congruence|]. rewrite <- Er. set (dd := group r_d [] (fun r _ => r_ler r) (at_rate p1 data) []).
  destruct (pmap_total (fun dl : Z * list fl => item (snd dl) 0) (items dd)) as [ys ->]; [|cbn [pbind]; eauto].
  intros [d w] Hw. apply (proj1 (items_in _ _)) in Hw. apply group_in in Hw as [N ->]. cbn [snd]. assert (Z0 : forall l w, l <> [] -> exists r : result, In r l /\ feed (fun r _ => r_ler r) l w = r_ler r).
  { unfold feed. clear. induction l as [|a l IHl]; [congruence|]. intros w _. cbn. destruct l as [|b l]; [exists a; auto|]. destruct (IHl (r_ler a)) as (r & Hr & E); [discriminate|]. exists r. split; auto. }
  destruct (Z0 _ [] N) as (r & Hr & ->). apply filter_In in Hr as [Hr _]. apply filter_In in Hr as [Hr _]. apply L in Hr as [Hr _]. unfold item. rewrite Hr, (proj2 (Nat.ltb_lt 0 k)) by lia. eauto. Qed.
Print Assumptions C77_drawn.
Theorem C77_fails : forall fit lo hi pers p1 data, generate_plots fit lo hi pers p1 [] = Raise UnboundLocalError /\
  (at_rate p1 data = [] -> exists e, generate_plots fit lo hi pers p1 data = Raise e) /\
  (forall p r d, In p pers -> In r data -> r_p r = p -> measured d data -> NoDup (map r_d (at_rate p data)) -> ~ measured d (at_rate p data) -> exists e, generate_plots fit lo hi pers p1 data = Raise e).
Proof. intros fit lo hi pers p1 data. split; [reflexivity|]. split.
  - intros N. destruct (generate_plots fit lo hi pers p1 data) as [cmds|e] eqn:E; [|eauto]. exfalso. apply C77_ler_by_distance in E as (x & y & _ & _ & _ & _ & N' & _). auto.
  - intros p r d Hp Hr E M ND NM. destruct (generate_plots fit lo hi pers p1 data) as [cmds|e] eqn:EG; [|eauto]. exfalso. apply C77_times_by_distance in EG as [H1 H2]. destruct (H2 p r Hp Hr E) as (x & y & Hc). apply H1 in Hc as (_ & Dx & Ly & Lx & Q). specialize (Q ND).
    apply NM. apply (proj2 Dx) in M. assert (X : In d (map fst (combine x y))). { replace (map fst (combine x y)) with x; auto. clear - Ly. revert y Ly. induction x as [|a x IHx]; intros [|b y]; cbn; try discriminate; auto. intros [= H]. f_equal. auto. }
    apply in_map_iff in X as ([d' t] & <- & Hin). apply (Permutation_in _ Q) in Hin. apply in_map_iff in Hin as (r' & [= <- <-] & Hr'). exists r'. auto. Qed.
Print Assumptions C77_fails.

(** ** a concrete case: two distances, two error rates (0.01 and 0.05 as 1 and 5), two logical operators, the files in no order; the fit gives the number of its samples *)
Definition some_results : list result :=
  [mkRes 5 5 [30; 40] [3; 4] 700; mkRes 3 1 [10; 11] [1; 1] 100; mkRes 3 5 [50; 51] [5; 5] 120; mkRes 5 1 [2; 3] [1; 1] 650]%Z.
Definition count_fit : curve_fit := fun p _ _ => Ret (Z.of_nat (length p)).
Example C77_nonvacuous : generate_plots count_fit 2%Z 9%Z [1; 5]%Z 1%Z some_results = Ret
  [ErrorBar 0 0 [1; 5] [10; 50] [1; 5] 3; ErrorBar 0 1 [1; 5] [11; 51] [1; 5] 3; Line 1 0 [1; 5] [100; 120] 3;
   ErrorBar 0 0 [1; 5] [2; 30] [1; 3] 5; ErrorBar 0 1 [1; 5] [3; 40] [1; 4] 5; Line 1 0 [1; 5] [650; 700] 5;
   Line 2 1 [3; 5] [100; 650] 1; Line 2 1 [3; 5] [120; 700] 5;
   VLine 1 0 2; ErrorBar 1 0 [1; 5] [10; 50] [1; 5] 3; ErrorBar 1 0 [1; 5] [2; 30] [1; 3] 5;
   VLine 1 1 2; ErrorBar 1 1 [1; 5] [10; 50] [1; 5] 3; ErrorBar 1 1 [1; 5] [2; 30] [1; 3] 5;
   Line 3 0 [3; 5] [10; 2] 1]%Z /\ fair count_fit.
Proof. split; [reflexivity|]. intros p d y p' d' y' L1 L2 L3 L4 P. unfold count_fit. apply Permutation_length in P. rewrite !combine_length, L1, L2, L3, L4, !Nat.min_id in P. now rewrite P. Qed.
(** Two results for distance 3 at 0.05 and none for distance 5: the second time of distance 3 is drawn at distance 5. *)
Example C77_refuted_times : exists cmds, generate_plots count_fit 2%Z 9%Z [1; 5]%Z 1%Z [mkRes 3 1 [10] [1] 100; mkRes 3 5 [50] [5] 120; mkRes 3 5 [60] [6] 130; mkRes 5 1 [2] [1] 650]%Z = Ret cmds /\ In (Line 2 1 [3; 5] [120; 130] 5)%Z cmds.
Proof. eexists. split; [reflexivity|]. cbn. auto 20. Qed.
(** Two results for the same distance and rate with different logical error rates: the panel over the distance depends on the order of the files. *)
Example C77_refuted_order : generate_plots count_fit 2%Z 9%Z [] 1%Z [mkRes 3 1 [10] [1] 100; mkRes 3 1 [20] [1] 100]%Z <> generate_plots count_fit 2%Z 9%Z [] 1%Z [mkRes 3 1 [20] [1] 100; mkRes 3 1 [10] [1] 100]%Z.
Proof. cbv. discriminate. Qed.
