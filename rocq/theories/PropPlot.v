(** * PropPlot: property C77 - the figures of the colour code decoder (src/mqt/qecc/cc_decoder/plots.py) *)
From Verif Require Import PlotProofs.
Local Open Scope nat_scope.

(** ** specification *)
Definition of_distance (d : Z) (data : list result) : list result := filter (fun r => (r_d r =? d)%Z) data.
(** the point of a result: error rate, logical error rate of operator l, its error bar *)
Definition point (l : nat) (r : result) : fl * (fl * fl) := (r_p r, (nth l (r_ler r) 0%Z, nth l (r_eb r) 0%Z)).
Definition measured (d : Z) (data : list result) : Prop := exists r, In r data /\ r_d r = d.
(** x, y, e are the coordinates of exactly these points, each result once, from left to right *)
Definition shows (x y e : list fl) (pts : list (fl * (fl * fl))) : Prop := length y = length x /\ length e = length x /\ Sorted Z.le x /\ Permutation (combine x (combine y e)) pts.
(** the distances in increasing order, each once *)
Definition distances (data : list result) (ds : list Z) : Prop := Sorted Z.lt ds /\ forall d, In d ds <-> measured d data.
(** the fit does not depend on the order of its samples *)
Definition fair (fit : curve_fit) : Prop := forall p d y p' d' y', length d = length p -> length y = length p -> length d' = length p' -> length y' = length p' ->
  Permutation (combine p (combine d y)) (combine p' (combine d' y')) -> fit p d y = fit p' d' y'.

(** ** proofs *)
Lemma gp_inv fit lo hi pers p1 data cmds : generate_plots fit lo hi pers p1 data = Ret cmds -> exists cs ts md th vs,
  pmap curve (items (metrics data)) = Ret cs /\
  pmap (time_line 2 1 (map fst (items (metrics' data)))) (items (p_data pers (map (fun x => (fst x, combine (s_p (snd x)) (s_t (snd x)))) (items (metrics' data))))) = Ret ts /\
  In md (metrics' data) /\ pmap (fun l => pbind (panel 1 l) (fun _ => calculate_threshold fit 1 l (metrics' data) lo hi 0)) (seq 0 (length (hd [] (s_ler (snd md))))) = Ret th /\
  plot_ler_vs_distance 3 0 (per_metrics data) [p1] 0 = Ret vs /\ cmds = concat cs ++ ts ++ concat th ++ vs.
Proof. unfold generate_plots. fold (metrics' data). destruct (pmap curve _) as [cs|]; cbn [pbind]; [|discriminate]. destruct (pmap (time_line _ _ _) _) as [ts|]; cbn [pbind]; [|discriminate].
  destruct (rev (items (metrics' data))) as [|md l] eqn:E; [discriminate|]. destruct (pmap _ (seq _ _)) as [th|] eqn:E2; cbn [pbind]; [|discriminate]. destruct (plot_ler_vs_distance _ _ _ _ _) as [vs|]; cbn [pbind]; [|discriminate].
  intros [= <-]. exists cs, ts, md, th, vs. repeat split; auto. apply items_in. apply in_rev. rewrite E. left; auto. Qed.
Lemma combine_map {A B C} (f : A -> B) (g : A -> C) l : combine (map f l) (map g l) = map (fun a => (f a, g a)) l.
Proof. induction l; cbn; congruence. Qed.
Lemma curve_inv d s cs : curve (d, s) = Ret cs -> let s := sort_series s in
  (forall r, In r (s_ler s) -> length r = length (hd [] (s_ler s))) /\
  (forall c, In c cs <-> c = Line 1 0 (s_p s) (s_t s) d \/ exists l, l < length (hd [] (s_ler s)) /\ l < length (hd [] (s_eb s)) /\ l < 4 /\ c = ErrorBar 0 l (s_p s) (map (fun r => nth l r 0%Z) (s_ler s)) (map (fun r => nth l r 0%Z) (s_eb s)) d) /\
  (forall l, l < length (hd [] (s_ler s)) -> l < length (hd [] (s_eb s)) /\ l < 4).
Proof. unfold curve. cbn [fst snd]. intros H. set (s' := sort_series s) in *. unfold array2 in H. destruct (forallb _ (s_ler s')) eqn:E1; cbn [pbind] in H; [|discriminate]. destruct (forallb _ (s_eb s')) eqn:E2; cbn [pbind] in H; [|discriminate].
  destruct (pmap _ _) as [es|] eqn:E; cbn [pbind] in H; [|discriminate]. injection H as <-. split; [intros r Hr; apply (proj1 (forallb_forall _ _) E1) in Hr; now apply Nat.eqb_eq in Hr|].
  assert (K : forall l, l < length (hd [] (s_ler s')) -> exists c, In c es /\ l < length (hd [] (s_eb s')) /\ l < 4 /\ c = ErrorBar 0 l (s_p s') (map (fun r => nth l r 0%Z) (s_ler s')) (map (fun r => nth l r 0%Z) (s_eb s')) d).
  { intros l Hl. destruct (pmap_in' _ _ _ l E) as (c & Hc & F); [apply in_seq; lia|]. exists c. split; auto. unfold column, panel in F. destruct (l <? length (hd [] (s_ler s'))) eqn:L1; cbn [pbind] in F; [|discriminate]. destruct (l <? length (hd [] (s_eb s'))) eqn:L2; cbn [pbind] in F; [|discriminate]. change (0 <? 4) with true in F. cbn [andb] in F. destruct (l <? 4) eqn:L3; cbn [pbind] in F; [|discriminate]. injection F as <-. apply Nat.ltb_lt in L2, L3. auto. }
  split; [|intros l Hl; destruct (K l Hl) as (_ & _ & X & X' & _); auto]. intros c. rewrite in_app_iff. cbn [In]. split.
  - intros [Hc|[<-|[]]]; auto. right. destruct (pmap_in _ _ _ c E Hc) as (l & Hl & F). apply in_seq in Hl. destruct (K l ltac:(lia)) as (c' & _ & L2 & L3 & ->). exists l. split; [lia|]. split; auto. split; auto.
    unfold column, panel in F. rewrite (proj2 (Nat.ltb_lt _ _)) in F by lia. cbn [pbind] in F. rewrite (proj2 (Nat.ltb_lt l (length (hd [] (s_eb s')))) L2) in F. cbn [pbind] in F. rewrite (proj2 (Nat.ltb_lt l 4) L3) in F. cbn [andb pbind Nat.ltb Nat.leb] in F. now injection F as <-.
  - intros [->|(l & Hl & _ & _ & ->)]; [right; auto|left]. destruct (K l Hl) as (c & Hc & _ & _ & ->). auto. Qed.
Lemma in_th fit l ms lo hi i cs c : pbind (panel 1 l) (fun _ => calculate_threshold fit 1 l ms lo hi i) = Ret cs -> In c cs ->
  (exists x, c = VLine 1 l x) \/ exists ds, In ds ms /\ i < length (hd [] (s_ler (snd ds))) /\ c = ErrorBar 1 l (s_p (snd ds)) (map (fun r => nth i r 0%Z) (s_ler (snd ds))) (map (fun r => nth i r 0%Z) (s_eb (snd ds))) (fst ds).
Proof. destruct (panel 1 l); cbn [pbind]; [|discriminate]. unfold calculate_threshold. destruct (pmap _ ms) as [parts|]; cbn [pbind]; [|discriminate]. destruct (fit _ _ _) as [x|]; cbn [pbind]; [|discriminate]. destruct (pmap _ (items ms)) as [es|] eqn:E; cbn [pbind]; [|discriminate]. intros [= <-] [<-|Hc]; [eauto|right].
  destruct (pmap_in _ _ _ c E Hc) as (ds & Hds & F). apply (proj1 (items_in _ _)) in Hds. exists ds. split; auto. destruct (array2 (s_ler _)); cbn [pbind] in F; [|discriminate]. unfold column in F. destruct (i <? length (hd [] (s_ler (snd ds)))) eqn:L; cbn [pbind] in F; [|discriminate]. apply Nat.ltb_lt in L. split; auto. destruct (array2 (s_eb _)); cbn [pbind] in F; [|discriminate].
  destruct (i <? length (hd [] (s_eb (snd ds)))); cbn [pbind] in F; [|discriminate]. now injection F as <-. Qed.
Lemma in_vs r c per pers i vs cm : plot_ler_vs_distance r c per pers i = Ret vs -> In cm vs -> exists p dd ys, In p pers /\ lookup p per = Some dd /\ pmap (fun dl => item (snd dl) i) (items dd) = Ret ys /\ cm = Line r c (map fst (items dd)) ys p.
Proof. intros E H. destruct (pmap_in _ _ _ cm E H) as (p & Hp & F). exists p. destruct (lookup p per) as [dd|]; [|discriminate]. destruct (pmap _ _) as [ys|] eqn:E'; cbn [pbind] in F; [|discriminate]. injection F as <-. exists dd, ys. auto. Qed.
Lemma in_ts r c ds pd ts cm : pmap (time_line r c ds) pd = Ret ts -> In cm ts -> exists pl, In pl pd /\ length (snd pl) = length ds /\ cm = Line r c ds (map snd (snd pl)) (fst pl).
Proof. intros E H. destruct (pmap_in _ _ _ cm E H) as (pl & Hp & F). exists pl. split; auto. unfold time_line in F. destruct (Nat.eqb_spec (length (snd pl)) (length ds)); [|discriminate]. injection F as <-. auto. Qed.
Lemma shows_series l rs : shows (s_p (series_of (rsort rs))) (map (fun r => nth l r 0%Z) (s_ler (series_of (rsort rs)))) (map (fun r => nth l r 0%Z) (s_eb (series_of (rsort rs)))) (map (point l) rs).
Proof. unfold shows, series_of. cbn [s_p s_ler s_eb]. rewrite !map_map, !map_length. split; auto. split; auto. split; [apply rsort_sorted|]. rewrite !combine_map. apply (Permutation_map (point l)). apply rsort_perm. Qed.

(** ** C77 *)
(** The curve of distance d in panel (0, l) shows exactly the results with that distance, each once, from left to right: error rate, logical error rate of operator l and the error bar of the same result - also if files come in any order
    and several have the same error rate.  There is such a curve for every distance and operator, and no other. *)
Theorem C77_curves : forall fit lo hi pers p1 data cmds, generate_plots fit lo hi pers p1 data = Ret cmds ->
  (forall l x y e d, In (ErrorBar 0 l x y e d) cmds -> measured d data /\ shows x y e (map (point l) (of_distance d data))) /\
  (forall d, measured d data -> exists k, k <= 4 /\ (forall r, In r data -> r_d r = d -> length (r_ler r) = k) /\ forall l, l < k -> exists x y e, In (ErrorBar 0 l x y e d) cmds).
Proof. intros fit lo hi pers p1 data cmds H. apply gp_inv in H as (cs & ts & md & th & vs & Ecs & Ets & _ & Eth & Evs & ->). split.
  - intros l x y e d Hc. rewrite !in_app_iff in Hc. destruct Hc as [Hc|[Hc|[Hc|Hc]]].
    + apply in_concat in Hc as (c & Hc & Hin). destruct (pmap_in _ _ _ _ Ecs Hc) as ([d' s] & Hd & F). apply (proj1 (items_in _ _)) in Hd. apply metrics_in in Hd as [N ->]. apply curve_inv in F as (_ & F & _). apply F in Hin. rewrite sort_series_of in Hin. destruct Hin as [X|(l' & _ & _ & _ & X)]; [discriminate|]. injection X as -> -> -> -> ->. split; [|apply shows_series].
      destruct (at_d d' data) as [|r rs] eqn:E; [congruence|]. assert (Hr : In r (at_d d' data)) by (rewrite E; left; auto). apply filter_In in Hr as [Hr Hk]. exists r. split; auto. lia.
    + apply (in_ts _ _ _ _ _ _ Ets) in Hc as (? & _ & _ & X). discriminate.
    + apply in_concat in Hc as (c & Hc & Hin). destruct (pmap_in _ _ _ _ Eth Hc) as (l' & _ & F). destruct (in_th _ _ _ _ _ _ _ _ F Hin) as [(x' & X)|(ds' & I1 & I2 & X)]; discriminate.
    + apply (in_vs _ _ _ _ _ _ _ Evs) in Hc as (? & ? & ? & _ & _ & _ & X). discriminate.
  - intros d (r & Hr & Hd). assert (N : at_d d data <> []). { intros X. assert (Y : In r (at_d d data)) by (apply filter_In; split; auto; lia). rewrite X in Y. destruct Y. }
    destruct (pmap_in' _ _ _ (d, series_of (at_d d data)) Ecs) as (c & Hc & F); [apply items_in; apply metrics_in; auto|]. apply curve_inv in F as (L & F & B). rewrite sort_series_of in *. set (k := length (hd [] (s_ler (series_of (rsort (at_d d data)))))) in *.
    exists k. assert (G : forall l, l < k -> l < 4 /\ exists x y e, In (ErrorBar 0 l x y e d) c).
    { intros l Hl. destruct (B l Hl) as [B1 B2]. split; auto. eexists. eexists. eexists. apply F. right. exists l. auto. }
    split; [destruct (le_lt_dec k 4); auto; destruct (G 4 ltac:(lia)); lia|]. split.
    + intros r' Hr' Hd'. apply L. unfold series_of. cbn [s_ler]. apply in_map. eapply Permutation_in; [apply Permutation_sym, rsort_perm|]. apply filter_In. split; auto. lia.
    + intros l Hl. destruct (G l Hl) as (_ & x & y & e & X). exists x, y, e. apply in_app_iff. left. apply in_concat. exists c. auto. Qed.
Print Assumptions C77_curves.
(** decoding times over the error rate, panel (1, 0) *)
Theorem C77_times : forall fit lo hi pers p1 data cmds, generate_plots fit lo hi pers p1 data = Ret cmds ->
  (forall x y d, In (Line 1 0 x y d) cmds -> measured d data /\ length y = length x /\ Sorted Z.le x /\ Permutation (combine x y) (map (fun r => (r_p r, r_t r)) (of_distance d data))) /\
  (forall d, measured d data -> exists x y, In (Line 1 0 x y d) cmds).
Proof. intros fit lo hi pers p1 data cmds H. apply gp_inv in H as (cs & ts & md & th & vs & Ecs & Ets & _ & Eth & Evs & ->). split.
  - intros x y d Hc. rewrite !in_app_iff in Hc. destruct Hc as [Hc|[Hc|[Hc|Hc]]].
    + apply in_concat in Hc as (c & Hc & Hin). destruct (pmap_in _ _ _ _ Ecs Hc) as ([d' s] & Hd & F). apply (proj1 (items_in _ _)) in Hd. apply metrics_in in Hd as [N ->]. apply curve_inv in F as (_ & F & _). apply F in Hin. rewrite sort_series_of in Hin. destruct Hin as [X|(l' & _ & _ & _ & X)]; [|discriminate]. injection X as -> -> ->. split.
      * destruct (at_d d' data) as [|r rs] eqn:E; [congruence|]. assert (Hr : In r (at_d d' data)) by (rewrite E; left; auto). apply filter_In in Hr as [Hr Hk]. exists r. split; auto. lia.
      * unfold series_of. cbn [s_p s_t]. rewrite !map_length. split; auto. split; [apply rsort_sorted|]. rewrite combine_map. apply (Permutation_map (fun r => (r_p r, r_t r))). apply rsort_perm.
    + apply (in_ts _ _ _ _ _ _ Ets) in Hc as (? & _ & _ & X). discriminate.
    + apply in_concat in Hc as (c & Hc & Hin). destruct (pmap_in _ _ _ _ Eth Hc) as (l' & _ & F). destruct (in_th _ _ _ _ _ _ _ _ F Hin) as [(x' & X)|(ds' & I1 & I2 & X)]; discriminate.
    + apply (in_vs _ _ _ _ _ _ _ Evs) in Hc as (? & ? & ? & _ & _ & _ & X). discriminate.
  - intros d (r & Hr & Hd). assert (N : at_d d data <> []). { intros X. assert (Y : In r (at_d d data)) by (apply filter_In; split; auto; lia). rewrite X in Y. destruct Y. }
    destruct (pmap_in' _ _ _ (d, series_of (at_d d data)) Ecs) as (c & Hc & F); [apply items_in; apply metrics_in; auto|]. apply curve_inv in F as (_ & F & _). eexists. eexists. apply in_app_iff. left. apply in_concat. exists c. split; auto. apply F. left. reflexivity. Qed.
Print Assumptions C77_times.

(** parts make up the whole *)
Lemma part_flat_cons {R} (key : R -> Z) r data ks : NoDup ks -> In (key r) ks -> Permutation (flat_map (fun k => part key k (r :: data)) ks) (r :: flat_map (fun k => part key k data) ks).
Proof. induction ks as [|k ks IHks]; [intros _ []|]. intros N H. apply NoDup_cons_iff in N as [NI N]. cbn [flat_map]. unfold part at 1. cbn [filter]. fold (part key k data). destruct (Z.eqb_spec (key r) k) as [E|E].
  - cbn. apply perm_skip. apply Permutation_app_head. assert (X : forall ks, ~ In k ks -> flat_map (fun k => part key k (r :: data)) ks = flat_map (fun k => part key k data) ks).
    { clear - E. induction ks as [|k' ks IHks]; cbn [flat_map]; auto. intros NI. rewrite IHks by (intros X; apply NI; right; auto). f_equal. unfold part. cbn [filter]. destruct (Z.eqb_spec (key r) k'); [exfalso; apply NI; left; congruence|reflexivity]. } now rewrite X.
  - destruct H as [H|H]; [congruence|]. etransitivity; [apply Permutation_app_head, IHks; auto|]. apply Permutation_sym, Permutation_middle. Qed.
Lemma part_flat {R} (key : R -> Z) data ks : NoDup ks -> (forall r, In r data -> In (key r) ks) -> Permutation (flat_map (fun k => part key k data) ks) data.
Proof. intros N. induction data as [|r data IHd]; intros H.
  - clear. induction ks; cbn; auto.
  - etransitivity; [apply part_flat_cons; auto; apply H; left; auto|]. apply perm_skip, IHd. intros; apply H; right; auto. Qed.
Lemma metrics_whole data : Permutation (flat_map (fun d => at_d d data) (map fst (metrics data))) data.
Proof. apply part_flat; [apply metrics_nodup|]. intros r Hr. apply metrics_keys. exists r. auto. Qed.
Lemma flat_map_perm_f {A B} (f g : A -> list B) l : (forall a, In a l -> Permutation (f a) (g a)) -> Permutation (flat_map f l) (flat_map g l).
Proof. induction l as [|a l IHl]; cbn; auto. intros H. apply Permutation_app; auto. Qed.
Lemma map_flat {A B C} (h : B -> C) (f : A -> list B) l : map h (flat_map f l) = flat_map (fun a => map h (f a)) l.
Proof. induction l; cbn; auto. now rewrite map_app, IHl. Qed.
Lemma filter_flat {A B} (h : B -> bool) (f : A -> list B) l : filter h (flat_map f l) = flat_map (fun a => filter h (f a)) l.
Proof. induction l; cbn; auto. now rewrite filter_app, IHl. Qed.
Lemma filter_map {A B} (h : B -> bool) (f : A -> B) l : filter h (map f l) = map f (filter (fun a => h (f a)) l).
Proof. induction l; cbn; auto. destruct (h _); cbn; congruence. Qed.
Lemma concat_eq {A B} (f : A -> list B) l : concat (map f l) = flat_map f l.
Proof. induction l; cbn; congruence. Qed.
Lemma combine3 {A B C} (l : list (A * B * C)) : combine (map (fun x => fst (fst x)) l) (combine (map (fun x => snd (fst x)) l) (map snd l)) = map (fun x => (fst (fst x), (snd (fst x), snd x))) l.
Proof. induction l; cbn; congruence. Qed.
(** the samples of the fit *)
Definition sample (i : nat) (r : result) : fl * Z * fl := (r_p r, r_d r, nth i (r_ler r) 0%Z).
Definition within (lo hi : fl) (r : result) : bool := (lo <? r_p r)%Z && (r_p r <? hi)%Z.
Lemma selected_series lo hi rs : selected lo hi (series_of rs) = map (fun r => (r_p r, (r_ler r, r_eb r))) (filter (within lo hi) rs).
Proof. unfold selected, series_of. cbn [s_p s_ler s_eb]. rewrite !combine_map, filter_map. reflexivity. Qed.
Lemma parts_inv lo hi i data parts : pmap (fun ds => pmap (fun x => pbind (item (fst (snd x)) i) (fun ler => pbind (item (snd (snd x)) i) (fun eb => Ret (fst x, fst ds, ler)))) (selected lo hi (snd ds))) (metrics' data) = Ret parts ->
  Permutation (concat parts) (map (sample i) (filter (within lo hi) data)).
Proof. intros E. assert (X : parts = map (fun ds => map (fun x => (fst x, fst ds, nth i (fst (snd x)) 0%Z)) (selected lo hi (snd ds))) (metrics' data)).
  { revert parts E. induction (metrics' data) as [|ds l IHl]; cbn [pmap map]; intros parts; [intros [= <-]; reflexivity|]. destruct (pmap _ (selected _ _ _)) as [b|] eqn:E; cbn [pbind]; [|discriminate]. destruct (pmap _ l) as [bs|]; cbn [pbind]; [|discriminate]. intros [= <-]. f_equal; [|now apply IHl].
    clear - E. revert b E. induction (selected lo hi (snd ds)) as [|x l IHl]; cbn [pmap map]; intros b; [intros [= <-]; reflexivity|]. unfold item at 1. destruct (i <? length (fst (snd x))); cbn [pbind]; [|discriminate]. destruct (item _ _); cbn [pbind]; [|discriminate]. destruct (pmap _ l) as [bs|]; cbn [pbind]; [|discriminate]. intros [= <-]. f_equal. now apply IHl. }
  subst parts. rewrite concat_eq. unfold metrics'. rewrite flat_map_concat_map, map_map, <- flat_map_concat_map. cbn [fst snd].
  etransitivity; [apply (flat_map_perm_f _ (fun ds => map (sample i) (filter (within lo hi) (at_d (fst ds) data))))|].
  - intros [d s] H. apply metrics_in in H as [N ->]. cbn [fst snd]. rewrite sort_series_of, selected_series, map_map. cbn [fst snd].
    etransitivity; [|apply Permutation_map, filter_perm, rsort_perm]. match goal with |- Permutation ?A ?B => assert (Q : A = B); [|rewrite Q; apply Permutation_refl] end.
    apply map_ext_in. intros r Hr. apply filter_In in Hr as [Hr _]. apply (Permutation_in _ (rsort_perm _)) in Hr. apply filter_In in Hr as [_ Hr]. unfold sample. f_equal. f_equal. lia.
  - etransitivity; [|apply Permutation_map, filter_perm, metrics_whole]. rewrite filter_flat, map_flat. rewrite (flat_map_concat_map _ (map fst _)), map_map, <- flat_map_concat_map. reflexivity. Qed.
(** The vertical line in panel (1, l) is the threshold fitted to the results with error rate strictly between the bounds, all distances, each result once with its own distance - but always to logical operator 0, and the curves under it are those of
    operator 0 in every panel: the index is not passed on. *)
Theorem C77_threshold : forall fit lo hi pers p1 data cmds, generate_plots fit lo hi pers p1 data = Ret cmds ->
  (forall l x, In (VLine 1 l x) cmds -> exists ps ds ys, fit ps ds ys = Ret x /\ length ds = length ps /\ length ys = length ps /\
     Permutation (combine ps (combine ds ys)) (map (fun r => (r_p r, (r_d r, nth 0 (r_ler r) 0%Z))) (filter (within lo hi) data))) /\
  (forall l x y e d, In (ErrorBar 1 l x y e d) cmds -> measured d data /\ shows x y e (map (point 0) (of_distance d data))).
Proof. intros fit lo hi pers p1 data cmds H. apply gp_inv in H as (cs & ts & md & th & vs & Ecs & Ets & _ & Eth & Evs & ->).
  assert (C1 : forall c, In c (concat cs) -> (exists l x y e d, c = ErrorBar 0 l x y e d) \/ exists x y d, c = Line 1 0 x y d).
  { intros c Hc. apply in_concat in Hc as (b & Hb & Hin). destruct (pmap_in _ _ _ _ Ecs Hb) as ([d' s] & Hd & F). apply curve_inv in F as (_ & F & _). apply F in Hin. destruct Hin as [->|(l' & _ & _ & _ & ->)]; [right|left]; repeat eexists. }
  split.
  - intros l x Hc. rewrite !in_app_iff in Hc. destruct Hc as [Hc|[Hc|[Hc|Hc]]].
    + apply C1 in Hc as [(? & ? & ? & ? & ? & X)|(? & ? & ? & X)]; discriminate.
    + apply (in_ts _ _ _ _ _ _ Ets) in Hc as (? & _ & _ & X). discriminate.
    + apply in_concat in Hc as (c & Hc & Hin). destruct (pmap_in _ _ _ _ Eth Hc) as (l' & _ & F). destruct (panel 1 l'); cbn [pbind] in F; [|discriminate]. unfold calculate_threshold in F. destruct (pmap _ (metrics' data)) as [parts|] eqn:E; cbn [pbind] in F; [|discriminate].
      destruct (fit _ _ _) as [th'|] eqn:EF; cbn [pbind] in F; [|discriminate]. destruct (pmap _ (items (metrics' data))) as [es|] eqn:E'; cbn [pbind] in F; [|discriminate]. injection F as <-. destruct Hin as [X|Hin].
      * injection X as -> ->. do 3 eexists. split; [exact EF|]. rewrite !map_length. split; auto. split; auto. rewrite combine3. etransitivity; [apply Permutation_map, (parts_inv _ _ _ _ _ E)|]. rewrite map_map. reflexivity.
      * exfalso. destruct (pmap_in _ _ _ _ E' Hin) as (? & _ & Y). destruct (array2 (s_ler _)); cbn [pbind] in Y; [|discriminate]. destruct (column (s_ler _) _); cbn [pbind] in Y; [|discriminate]. destruct (array2 _); cbn [pbind] in Y; [|discriminate]. destruct (column _ _); cbn [pbind] in Y; discriminate.
    + apply (in_vs _ _ _ _ _ _ _ Evs) in Hc as (? & ? & ? & _ & _ & _ & X). discriminate.
  - intros l x y e d Hc. rewrite !in_app_iff in Hc. destruct Hc as [Hc|[Hc|[Hc|Hc]]].
    + apply C1 in Hc as [(? & ? & ? & ? & ? & X)|(? & ? & ? & X)]; discriminate.
    + apply (in_ts _ _ _ _ _ _ Ets) in Hc as (? & _ & _ & X). discriminate.
    + apply in_concat in Hc as (c & Hc & Hin). destruct (pmap_in _ _ _ _ Eth Hc) as (l' & _ & F). destruct (in_th _ _ _ _ _ _ _ _ F Hin) as [(x' & X)|([d' s] & Hd & I2 & X)]; [discriminate|]. injection X as -> -> -> -> ->. apply metrics'_in in Hd as [N ->]. cbn [fst snd]. split; [|apply shows_series].
      destruct (at_d d' data) as [|r rs] eqn:E; [congruence|]. assert (Hr : In r (at_d d' data)) by (rewrite E; left; auto). apply filter_In in Hr as [Hr Hk]. exists r. split; auto. lia.
    + apply (in_vs _ _ _ _ _ _ _ Evs) in Hc as (? & ? & ? & _ & _ & _ & X). discriminate. Qed.
Print Assumptions C77_threshold.
