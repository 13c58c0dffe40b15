(** * PropComp: property C80, second part - the comparison of solvers (plots.py generate_plots_comp) *)
From Coq Require Import List Arith Bool ZArith Ascii String Lia Permutation Sorted.
From Verif Require Import RunFilesModel.
From Verif Require Import RunFilesProofs PlotProofs PropPlot PropPlot2.
Import ListNotations.
Local Open Scope nat_scope.

(** ** specification *)
Definition dist (r : cres) : Z := fst r.
Definition rate (r : cres) : fl := fst (snd r).
Definition time (r : cres) : fl := snd (snd r).
Definition at_dist (d : Z) (data : list cres) : list cres := filter (fun r => (dist r =? d)%Z) data.
Definition at_p (p : fl) (data : list cres) : list cres := filter (fun r => (rate r =? p)%Z) data.
(** the distances of the results, in increasing order *)
Definition dists (data : list cres) (ds : list Z) : Prop := Sorted Z.lt ds /\ forall d, In d ds <-> exists r, In r data /\ dist r = d.
(** what the lines of one directory show *)
Definition batch_shows (pers : list fl) (dir : text * list cres) (b : list ccmd) : Prop := let (solver, data) := dir in
  (forall x y s d c, In (Rates x y s d c) b -> s = solver /\ (d = 17 \/ d = 21)%Z /\ at_dist d data <> [] /\ length y = length x /\ Sorted Z.le x /\ Permutation (combine x y) (map (fun r => (rate r, time r)) (at_dist d data))) /\
  (forall d, (d = 17 \/ d = 21)%Z -> at_dist d data <> [] -> exists x y c, In (Rates x y solver d c) b) /\
  (forall x y p z c, In (Distances x y p z c) b -> In p pers /\ (z = true <-> solver = tx "z3") /\ dists data x /\ length y = length x /\ length (at_p p data) = length x /\
     (NoDup (map dist (at_p p data)) -> Permutation (combine x y) (map (fun r => (dist r, time r)) (at_p p data)))) /\
  (forall p, In p pers -> at_p p data <> [] -> exists x y z c, In (Distances x y p z c) b).
(** the chosen rates at which the directory has results, each once *)
Definition rates_of (pers : list fl) (data : list cres) (ps : list fl) : Prop := NoDup ps /\ forall p, In p ps <-> In p pers /\ at_p p data <> [].
(** the colour of a directory's solver: that of its first directory, which is the number of chosen rates in the directory before, or 0 *)
Inductive colours (pers : list fl) : list (text * list cres) -> list nat -> Prop :=
| col_nil : colours pers [] []
| col_first s data : colours pers [(s, data)] [0]
| col_again dirs cs s data i c : colours pers dirs cs -> nth_error (map fst dirs) i = Some s -> (forall j, j < i -> nth_error (map fst dirs) j <> Some s) -> nth_error cs i = Some c -> colours pers (dirs ++ [(s, data)]) (cs ++ [c])
| col_new dirs cs s data s' data' ps : colours pers (dirs ++ [(s', data')]) cs -> ~ In s (map fst (dirs ++ [(s', data')])) -> rates_of pers data' ps -> colours pers ((dirs ++ [(s', data')]) ++ [(s, data)]) (cs ++ [length ps]).

(** ** the dictionaries of one directory *)
Lemma c_metrics_group data : c_metrics data = group dist [] (fun r l => l ++ [snd r]) data [].
Proof. reflexivity. Qed.
Lemma feed_snd (l : list cres) v : feed (fun r v => v ++ [snd r]) l v = v ++ map snd l.
Proof. unfold feed. revert v. induction l as [|r l IHl]; cbn; intros v; [now rewrite app_nil_r|]. rewrite IHl, <- app_assoc. reflexivity. Qed.
Lemma c_metrics_in d l data : In (d, l) (c_metrics data) <-> at_dist d data <> [] /\ l = map snd (at_dist d data).
Proof. rewrite c_metrics_group, group_in, feed_snd. reflexivity. Qed.
Lemma c_metrics_nodup data : NoDup (map fst (c_metrics data)).
Proof. rewrite c_metrics_group. apply group_nodup. constructor. Qed.
Definition sorted_metrics (data : list cres) : list (Z * list (fl * fl)) := map c_sort (items (c_metrics data)).
Lemma sm_fst data : map fst (sorted_metrics data) = map fst (items (c_metrics data)).
Proof. unfold sorted_metrics. rewrite map_map. apply map_ext. intros [d l]. reflexivity. Qed.
Lemma sm_in d l data : In (d, l) (sorted_metrics data) <-> at_dist d data <> [] /\ l = if drawn_distance d then isort (lex Z.leb Z.leb) (map snd (at_dist d data)) else map snd (at_dist d data).
Proof. unfold sorted_metrics. rewrite in_map_iff. split.
  - intros ([d' l'] & E & H). apply (proj1 (items_in _ _)) in H. apply c_metrics_in in H as [N ->]. unfold c_sort in E. cbn [fst snd] in E. injection E as -> <-. auto.
  - intros [N ->]. exists (d, map snd (at_dist d data)). split; [reflexivity|]. apply items_in, c_metrics_in. auto. Qed.
Lemma sm_perm d l data : In (d, l) (sorted_metrics data) -> Permutation l (map snd (at_dist d data)).
Proof. intros H. apply sm_in in H as [_ ->]. destruct (drawn_distance d); [apply isort_perm|apply Permutation_refl]. Qed.
Lemma sm_dists data : dists data (map fst (sorted_metrics data)).
Proof. rewrite sm_fst. split; [apply items_sorted, c_metrics_nodup|]. intros d. rewrite <- (group_keys dist (@nil (fl * fl)) (fun r l => l ++ [snd r])). rewrite <- c_metrics_group, !in_map_iff. split; intros (x & <- & H); exists x; split; auto; now apply items_in. Qed.
Lemma sm_nodup data : NoDup (map fst (sorted_metrics data)).
Proof. rewrite sm_fst. apply items_nodup, c_metrics_nodup. Qed.
Definition flat (data : list cres) : list cres := flat_map (fun x => map (fun pt => (fst x, pt)) (snd x)) (sorted_metrics data).
Lemma flat_perm data : Permutation (flat data) data.
Proof. unfold flat. etransitivity; [apply (flat_map_perm_f _ (fun x => at_dist (fst x) data))|].
  - intros [d l] H. apply sm_perm in H. cbn [fst snd]. etransitivity; [apply Permutation_map, H|]. rewrite map_map. match goal with |- Permutation ?A ?B => assert (Q : A = B); [|rewrite Q; apply Permutation_refl] end.
    unfold at_dist. transitivity (map (fun r => r) (filter (fun r => (dist r =? d)%Z) data)); [|apply map_id]. apply map_ext_in. intros [d' pt] Hr. apply filter_In in Hr as [_ Hr]. unfold dist in Hr. cbn in *. f_equal. lia.
  - rewrite (flat_map_concat_map (fun x => at_dist (fst x) data)), <- (map_map fst (fun d => at_dist d data)), <- flat_map_concat_map. apply (part_flat dist); [apply sm_nodup|]. intros r Hr. apply (proj2 (sm_dists data)). exists r. auto. Qed.
Definition pd (pers : list fl) (data : list cres) : list (Z * list (Z * fl)) := p_data pers (sorted_metrics data).
Lemma feed_last (l : list cres) v : feed (fun x v => v ++ [(fst x, snd (snd x))]) l v = v ++ map (fun r => (dist r, time r)) l.
Proof. unfold feed. revert v. induction l as [|r l IHl]; cbn; intros v; [now rewrite app_nil_r|]. rewrite IHl, <- app_assoc. reflexivity. Qed.
Lemma part_mem' p pers (l : list cres) : In p pers -> part rate p (filter (fun r => mem (rate r) pers) l) = at_p p l.
Proof. intros H. unfold part, at_p. induction l as [|r l IHl]; cbn; auto. destruct (mem (rate r) pers) eqn:E; cbn; rewrite IHl; auto. destruct (Z.eqb_spec (rate r) p) as [E'|]; auto. rewrite E' in E. apply mem_in in H. congruence. Qed.
Lemma c_pd_in pers data p l : In (p, l) (pd pers data) <-> In p pers /\ at_p p data <> [] /\ l = map (fun r => (dist r, time r)) (at_p p (flat data)).
Proof. unfold pd. rewrite p_data_group. fold (flat data). change (group (fun x : Z * (fl * fl) => fst (snd x)) [] (fun (x : Z * (fl * fl)) (l0 : list (Z * fl)) => l0 ++ [(fst x, snd (snd x))])) with (group rate [] (fun (x : cres) (l0 : list (Z * fl)) => l0 ++ [(fst x, snd (snd x))])). rewrite group_in, feed_last. cbn [app].
  change (fun x : Z * (fl * fl) => mem (fst (snd x)) pers) with (fun r : cres => mem (rate r) pers).
  assert (Z0 : at_p p (flat data) <> [] <-> at_p p data <> []). { pose proof (filter_perm (fun r => (rate r =? p)%Z) _ _ (flat_perm data)) as Q. unfold at_p. split; intros N X; apply N; rewrite X in Q; [apply Permutation_nil, Permutation_sym, Q|apply Permutation_nil, Q]. }
  assert (K : part rate p (filter (fun r => mem (rate r) pers) (flat data)) <> [] -> In p pers).
  { intros N. destruct (part rate p _) as [|r rs] eqn:E; [congruence|]. assert (Hr : In r (part rate p (filter (fun r => mem (rate r) pers) (flat data)))) by (rewrite E; left; auto). apply filter_In in Hr as [Hr E1]. apply filter_In in Hr as [_ Hr]. apply mem_in in Hr. replace p with (rate r) by lia. auto. }
  split.
  - intros [N ->]. pose proof (K N) as Hp. rewrite part_mem' in N |- * by auto. rewrite <- Z0. auto.
  - intros (Hp & N & ->). rewrite part_mem' by auto. rewrite <- Z0 in N. auto. Qed.
Lemma pd_nodup pers data : NoDup (map fst (pd pers data)).
Proof. unfold pd. rewrite p_data_group. apply group_nodup. constructor. Qed.
Lemma pd_rates pers data : rates_of pers data (map fst (pd pers data)).
Proof. split; [apply pd_nodup|]. intros p. rewrite in_map_iff. split; [intros ([q l] & <- & H); apply c_pd_in in H; cbn; tauto|]. intros [H N]. exists (p, map (fun r => (dist r, time r)) (at_p p (flat data))). split; auto. apply c_pd_in. auto. Qed.
Lemma rates_length pers data ps ps' : rates_of pers data ps -> rates_of pers data ps' -> length ps = length ps'.
Proof. intros [N H] [N' H']. apply Permutation_length, NoDup_Permutation; auto. intros p. rewrite H, H'. reflexivity. Qed.

(** ** colours of the rates *)
Definition inv (pers : list fl) (s : cst) : Prop := NoDup (map fst (c_pd s)) /\ incl (map fst (c_pd s)) pers /\ c_idx s = length (c_pd s) /\ forall i p, nth_error (map fst (c_pd s)) i = Some p -> lookup p (c_col s) = Some i.
Lemma upsert_new {V} p (d : V) f m : ~ In p (map fst m) -> upsert p d f m = m ++ [(p, f d)] /\ upsert p d f (m ++ [(p, d)]) = m ++ [(p, f d)].
Proof. induction m as [|[q v] m IHm]; cbn [upsert app map fst]; intros H; [rewrite Z.eqb_refl; auto|]. destruct (Z.eqb_spec p q) as [->|N]; [exfalso; apply H; left; auto|]. destruct IHm as [-> ->]; auto. intros X. apply H. right. auto. Qed.
Lemma upsert_keys {V} p (d : V) f m : In p (map fst m) -> map fst (upsert p d f m) = map fst m.
Proof. induction m as [|[q v] m IHm]; cbn [upsert map fst]; [intros []|]. intros H. destruct (Z.eqb_spec p q) as [->|N]; auto. cbn [map fst]. f_equal. apply IHm. destruct H; [congruence|auto]. Qed.
Definition pd_step (pers : list fl) (d : Z) (m : list (Z * list (Z * fl))) (pt : fl * fl) := if mem (fst pt) pers then upsert (fst pt) [] (fun l => l ++ [(d, snd pt)]) m else m.
Lemma c_point_ok pers d pt s : length pers <= 10 -> inv pers s -> exists s', c_point pers d pt s = Ret s' /\ inv pers s' /\ c_pd s' = pd_step pers d (c_pd s) pt.
Proof. intros L (N & I & X & C). unfold c_point, pd_step. destruct (mem (fst pt) pers) eqn:M; [|exists s; repeat split; auto]. apply mem_in in M. destruct (lookup (fst pt) (c_pd s)) as [v|] eqn:E; cbn [pbind].
  - apply lookup_in in E; auto. eexists. split; [reflexivity|]. split; [|reflexivity]. assert (K : In (fst pt) (map fst (c_pd s))) by (apply (in_map fst) in E; exact E). unfold inv. cbn [c_idx c_col c_pd]. rewrite (upsert_keys _ _ _ _ K). split; auto. split; auto. split; auto. rewrite X. rewrite <- (map_length fst (c_pd s)), <- (map_length fst (upsert _ _ _ _)), (upsert_keys _ _ _ _ K). reflexivity.
  - apply lookup_none in E. assert (LT : c_idx s < 10). { assert (Q : length (fst pt :: map fst (c_pd s)) <= length pers) by (apply NoDup_incl_length; [constructor; auto|intros x [<-|H]; auto]). cbn [length] in Q. rewrite map_length in Q. lia. }
    unfold cols_at. apply Nat.ltb_lt in LT. rewrite LT. cbn [pbind c_idx c_col c_pd]. eexists. split; [reflexivity|]. destruct (upsert_new (fst pt) [] (fun l => l ++ [(d, snd pt)]) _ E) as [U1 U2]. unfold fl in *. rewrite U2. split; [|cbn [c_pd]; now rewrite U1]. unfold inv. cbn [c_idx c_col c_pd]. rewrite map_app. cbn [map fst app].
    split; [apply (Permutation_NoDup (Permutation_cons_append _ _)); constructor; auto|]. split; [intros x H; apply in_app_iff in H as [H|[<-|[]]]; auto|]. split; [rewrite app_length; cbn; lia|]. intros i p H. rewrite lookup_upsert. destruct (Nat.lt_ge_cases i (length (c_pd s))) as [Hi|Hi].
    + rewrite nth_error_app1 in H by (rewrite map_length; auto). destruct (Z.eqb_spec p (fst pt)) as [->|]; [exfalso; apply E; eapply nth_error_In; eauto|]. auto.
    + rewrite nth_error_app2 in H by (rewrite map_length; auto). rewrite map_length in H. match type of H with nth_error _ ?k = _ => destruct k as [|n] eqn:Ei end; [|destruct n; cbn in H; discriminate H]. cbn in H. injection H as <-. rewrite Z.eqb_refl. assert (Hj : i <= length (c_pd s)) by (apply Nat.sub_0_le; exact Ei). assert (i = c_idx s) by (rewrite X; apply Nat.le_antisymm; assumption). destruct (lookup (fst pt) (c_col s)); congruence. Qed.
Lemma pfold_ok {A S T} (P : S -> Prop) (g : S -> T) (h : T -> A -> T) (f : A -> S -> py S) l : (forall a s, P s -> exists s', f a s = Ret s' /\ P s' /\ g s' = h (g s) a) -> forall s, P s -> exists s', pfold f l s = Ret s' /\ P s' /\ g s' = fold_left h l (g s).
Proof. intros H. induction l as [|a l IHl]; intros s Ps; cbn [pfold fold_left]; [exists s; auto|]. destruct (H a s Ps) as (s1 & -> & P1 & <-). cbn [pbind]. apply IHl. exact P1. Qed.
Lemma c_points_ok pers pcol data : length pers <= 10 -> exists s, pfold (fun x => pfold (c_point pers (fst x)) (snd x)) (sorted_metrics data) (mkC 0 pcol []) = Ret s /\ inv pers s /\ c_pd s = pd pers data.
Proof. intros L. apply (pfold_ok (inv pers) c_pd (fun m x => fold_left (pd_step pers (fst x)) (snd x) m)).
  - intros x s Hs. apply (pfold_ok (inv pers) c_pd (pd_step pers (fst x))); auto. intros pt s' Hs'. now apply c_point_ok.
  - split; [constructor|]. split; [intros ? []|]. split; auto. intros [|i] p H; cbn in H; discriminate H. Qed.

(** ** one directory *)
Definition top (solver : text) (c : nat) (data : list cres) : list ccmd := map (fun x => Rates (map fst (snd x)) (map snd (snd x)) solver (fst x) c) (filter (fun x => drawn_distance (fst x)) (sorted_metrics data)).
(** the directory can be drawn *)
Definition rates_complete (pers : list fl) (data : list cres) : Prop := forall p, In p pers -> at_p p data <> [] -> forall ds, dists data ds -> length (at_p p data) = length ds.
Lemma inv_lookup pers s pl : inv pers s -> In pl (c_pd s) -> exists i, lookup (fst pl) (c_col s) = Some i /\ i < length (c_pd s).
Proof. intros (_ & _ & _ & C) H. apply (in_map fst) in H. apply In_nth_error in H as [i H]. exists i. split; auto. rewrite <- (map_length fst). apply nth_error_Some. congruence. Qed.
Lemma dists_unique data a b : dists data a -> dists data b -> a = b.
Proof. intros [Sa Ia] [Sb Ib]. assert (E : forall d, In d a <-> In d b) by (intros; rewrite Ia, Ib; reflexivity). clear Ia Ib. apply Sorted_StronglySorted in Sa; [|intros ? ? ?; lia]. apply Sorted_StronglySorted in Sb; [|intros ? ? ?; lia]. revert b Sb E. induction Sa as [|x a Sa IHa Fa]; intros b Sb E.
  - destruct b as [|y b]; auto. destruct (proj2 (E y)); left; auto.
  - destruct Sb as [|y b Sb Fb]; [destruct (proj1 (E x)); left; auto|]. rewrite Forall_forall in Fa, Fb. assert (x = y). { destruct (proj1 (E x) (or_introl eq_refl)) as [|H]; auto. destruct (proj2 (E y) (or_introl eq_refl)) as [|H']; auto. apply Fb in H. apply Fa in H'. lia. }
    subst y. f_equal. apply IHa; auto. intros d. split; intros H; [destruct (proj1 (E d) (or_intror H)) as [<-|]|destruct (proj2 (E d) (or_intror H)) as [<-|]]; auto; [apply Fa in H|apply Fb in H]; lia. Qed.
Lemma low_spec pers s data ds z : inv pers s -> c_pd s = pd pers data -> ds = map fst (sorted_metrics data) ->
  (rates_complete pers data -> exists low, pmap (c_line ds z (c_col s)) (items (c_pd s)) = Ret low) /\ (~ rates_complete pers data -> pmap (c_line ds z (c_col s)) (items (c_pd s)) = Raise ValueError).
Proof. intros HI E Ed. subst ds. set (ds := map fst (sorted_metrics data)). assert (P : forall p l, In (p, l) (items (c_pd s)) -> exists i, lookup p (c_col s) = Some i /\ In p pers /\ at_p p data <> [] /\ length l = length (at_p p data)).
  { intros p l H. apply (proj1 (items_in _ _)) in H. destruct (inv_lookup _ _ _ HI H) as (i & Hi & _). rewrite E in H. apply c_pd_in in H as (H1 & H2 & ->). exists i. split; auto. split; auto. split; auto. rewrite map_length. apply Permutation_length, filter_perm, flat_perm. }
  split.
  - intros RC. apply pmap_total. intros [p l] H. destruct (P p l H) as (i & Hi & H1 & H2 & H3). unfold c_line. cbn [fst snd]. rewrite Hi, H3, (RC p H1 H2 ds (sm_dists data)), Nat.eqb_refl. eauto.
  - intros NR. destruct (pmap_exn (c_line ds z (c_col s)) ValueError (items (c_pd s))) as [[low X]|X]; auto.
    + intros [p l] H. destruct (P p l H) as (i & Hi & _). unfold c_line. cbn [fst snd]. rewrite Hi. destruct (_ =? _); eauto.
    + exfalso. apply NR. intros p Hp N ds' D. assert (H : In (p, map (fun r => (dist r, time r)) (at_p p (flat data))) (items (c_pd s))) by (apply items_in; rewrite E; apply c_pd_in; auto). rewrite <- (dists_unique _ _ _ (sm_dists data) D). fold ds.
      destruct (pmap_in' _ _ _ _ X H) as (b & _ & F). destruct (P _ _ H) as (i & Hi & _ & _ & HL). unfold c_line in F. cbn [fst snd] in F. rewrite Hi in F. destruct (Nat.eqb_spec (length (map (fun r => (dist r, time r)) (at_p p (flat data)))) (length ds)) as [Q|Q]; [lia|discriminate]. Qed.
Lemma one_each' (f : Z * list (fl * fl) -> list cres) ms : (forall x, In x ms -> length (f x) <= 1 /\ forall r, In r (f x) -> dist r = fst x) -> length (flat_map f ms) = length ms -> map dist (flat_map f ms) = map fst ms.
Proof. intros H. assert (G : length (flat_map f ms) <= length ms /\ (length (flat_map f ms) = length ms -> map dist (flat_map f ms) = map fst ms)); [|apply G].
  induction ms as [|d ms IHd]; cbn [flat_map length map]; auto. rewrite app_length. destruct (H d (or_introl eq_refl)) as [L K]. destruct IHd as [L' IHd]; [intros; apply H; right; auto|]. split; [lia|]. intros E. destruct (f d) as [|r [|r' l]] eqn:Ef; cbn [length] in *; try lia. rewrite map_app. cbn [map]. rewrite (K r (or_introl eq_refl)). cbn [app]. f_equal. apply IHd. lia. Qed.
Lemma own_distances p data : length (at_p p data) = length (sorted_metrics data) -> NoDup (map dist (at_p p data)) -> map dist (at_p p (flat data)) = map fst (sorted_metrics data).
Proof. intros L ND. assert (PP : Permutation (at_p p (flat data)) (at_p p data)) by apply filter_perm, flat_perm. apply (Permutation_NoDup (Permutation_map dist (Permutation_sym PP))) in ND. rewrite <- (Permutation_length PP) in L. revert L ND. unfold at_p, flat. rewrite filter_flat. match goal with |- _ -> _ -> map dist (flat_map ?h _) = _ => set (g := h) end. intros L ND. apply one_each'; auto. intros x Hx.
  assert (X : forall r, In r (g x) -> dist r = fst x). { intros r Hr. apply filter_In in Hr as [Hr _]. apply in_map_iff in Hr as (pt & <- & _). reflexivity. }
  split; auto. destruct (g x) as [|a [|b l]] eqn:E; cbn; auto. exfalso. apply in_split in Hx as (u & v & Huv). rewrite Huv, flat_map_app, map_app in ND. cbn [flat_map] in ND. rewrite E, map_app in ND. cbn [map] in ND. apply nodup_tail in ND. cbn in ND. apply NoDup_cons_iff in ND as [NI _]. apply NI. left. rewrite (X a), (X b); auto; cbn; auto. Qed.
Lemma drawn_iff d : drawn_distance d = true <-> (d = 17 \/ d = 21)%Z.
Proof. unfold drawn_distance. rewrite orb_true_iff, !Z.eqb_eq. reflexivity. Qed.
Lemma combine_fs {A B} (l : list (A * B)) : combine (map fst l) (map snd l) = l.
Proof. induction l as [|[a b] l IHl]; cbn; congruence. Qed.
Lemma sorted_pairs l : Sorted Z.le (map fst (isort (lex Z.leb Z.leb) l : list (fl * fl))).
Proof. assert (O : lin (lex Z.leb Z.leb)) by (apply lin_lex; apply lin_Z). assert (S : Sorted (fun a b => lex Z.leb Z.leb a b = true) (isort (lex Z.leb Z.leb) l)).
  { apply (isort_sorted (lex Z.leb Z.leb) (l_ord _ O)). }
  eapply sorted_map; [|exact S]. intros [a b] [a' b'] H. unfold lex in H. cbn [fst snd] in *. destruct ((a <=? a')%Z && (a' <=? a)%Z) eqn:E; [apply andb_true_iff in E; lia|lia]. Qed.
Definition rate_colours (pers : list fl) (data : list cres) (b : list ccmd) : Prop :=
  (forall x y p z c x' y' p' z' c', In (Distances x y p z c) b -> In (Distances x' y' p' z' c') b -> (c = c' <-> p = p')) /\
  (forall ps x y p z c, rates_of pers data ps -> In (Distances x y p z c) b -> c < length ps).
Definition rates_colour (c : nat) (b : list ccmd) : Prop := forall x y s d c', In (Rates x y s d c') b -> c' = c.
Lemma batch_ok pers solver c data s low : inv pers s -> c_pd s = pd pers data -> pmap (c_line (map fst (sorted_metrics data)) (text_eqb solver (tx "z3")) (c_col s)) (items (c_pd s)) = Ret low ->
  batch_shows pers (solver, data) (top solver c data ++ low) /\ rates_colour c (top solver c data ++ low) /\ rate_colours pers data (top solver c data ++ low).
Proof. intros HI E F. assert (T : forall cm, In cm (top solver c data) -> exists d l, (d = 17 \/ d = 21)%Z /\ In (d, l) (sorted_metrics data) /\ cm = Rates (map fst l) (map snd l) solver d c).
  { intros cm H. unfold top in H. apply in_map_iff in H as ([d l] & <- & H). apply filter_In in H as [H D]. apply drawn_iff in D. exists d, l. auto. }
  assert (W : forall cm, In cm low -> exists p l i, In (p, l) (c_pd s) /\ lookup p (c_col s) = Some i /\ length l = length (map fst (sorted_metrics data)) /\ cm = Distances (map fst (sorted_metrics data)) (map snd l) p (text_eqb solver (tx "z3")) i).
  { intros cm H. destruct (pmap_in _ _ _ _ F H) as ([p l] & Hp & G). apply (proj1 (items_in _ _)) in Hp. unfold c_line in G. cbn [fst snd] in G. destruct (lookup p (c_col s)) as [i|] eqn:Li; [|discriminate]. destruct (Nat.eqb_spec (length l) (length (map fst (sorted_metrics data)))) as [Q|Q]; [|discriminate]. injection G as <-. exists p, l, i. auto. }
  assert (DD : forall x y p z c', In (Distances x y p z c') (top solver c data ++ low) -> In (Distances x y p z c') low). { intros x y p z c' H. apply in_app_iff in H as [H|H]; auto. apply T in H as (? & ? & _ & _ & X). discriminate. }
  assert (RR : forall x y s0 d c', In (Rates x y s0 d c') (top solver c data ++ low) -> In (Rates x y s0 d c') (top solver c data)). { intros x y s0 d c' H. apply in_app_iff in H as [H|H]; auto. apply W in H as (? & ? & ? & _ & _ & _ & X). discriminate. }
  split; [|split; [|split]].
  - split; [|split; [|split]].
    + intros x y s0 d c' H. apply RR, T in H as (d' & l & D & H & X). injection X as -> -> -> -> ->. split; auto. split; auto. pose proof (sm_perm _ _ _ H) as Q. apply sm_in in H as [N El]. split; auto. split; [now rewrite !map_length|]. rewrite (proj2 (drawn_iff d') D) in El. split.
      * rewrite El. apply sorted_pairs.
      * rewrite combine_fs. etransitivity; [exact Q|]. match goal with |- Permutation ?A ?B => assert (Y : A = B); [|rewrite Y; apply Permutation_refl] end. apply map_ext. intros [a [b e]]. reflexivity.
    + intros d D N. set (l := isort (lex Z.leb Z.leb) (map snd (at_dist d data))). exists (map fst l), (map snd l), c. apply in_app_iff. left. unfold top. apply in_map_iff. exists (d, l). split; [reflexivity|]. apply filter_In. split; [|now apply drawn_iff]. apply sm_in. split; auto. now rewrite (proj2 (drawn_iff d) D).
    + intros x y p z c' H. apply DD, W in H as (q & l & i & H & Li & Ll & X). injection X as -> -> -> -> ->. rewrite E in H. apply c_pd_in in H as (H1 & H2 & ->). split; auto. split; [apply text_eqb_eq|]. split; [apply sm_dists|]. rewrite !map_length in Ll. assert (PP : Permutation (at_p q (flat data)) (at_p q data)) by apply filter_perm, flat_perm. split; [now rewrite !map_length|]. split; [rewrite map_length, <- (Permutation_length PP); auto|].
      intros ND. rewrite map_map. rewrite <- (own_distances q data); auto; [|rewrite <- (Permutation_length PP); auto]. rewrite combine_map. apply Permutation_map, PP.
    + intros p Hp N. assert (H : In (p, map (fun r => (dist r, time r)) (at_p p (flat data))) (items (c_pd s))) by (apply items_in; rewrite E; apply c_pd_in; auto). destruct (pmap_in' _ _ _ _ F H) as (b & Hb & G). destruct (W b Hb) as (q & l & i & _ & _ & _ & ->). unfold c_line in G. cbn [fst snd] in G. destruct (lookup p (c_col s)) as [j|]; [|discriminate]. destruct (_ =? _); [|discriminate]. injection G as _ G _. subst q. do 4 eexists. apply in_app_iff. right. exact Hb.
  - intros x y s0 d c' H. apply RR, T in H as (d' & l & _ & _ & X). congruence.
  - intros x y p z c1 x' y' p' z' c1' H H'. apply DD, W in H as (q & l & i & H & Li & _ & X). apply DD, W in H' as (q' & l' & i' & H' & Li' & _ & X'). injection X as _ _ -> _ ->. injection X' as _ _ -> _ ->. split; [intros <-|intros <-; congruence].
    destruct HI as (N & _ & _ & C). apply (in_map fst) in H, H'. apply In_nth_error in H as [n Hn], H' as [n' Hn']. pose proof (C _ _ Hn) as A. pose proof (C _ _ Hn') as A'. cbn [fst] in *. rewrite Li in A. rewrite Li' in A'. injection A as <-. injection A' as <-. congruence.
  - intros ps x y p z c' R H. apply DD, W in H as (q & l & i & H & Li & _ & X). injection X as _ _ -> _ ->. destruct (inv_lookup _ _ _ HI H) as (j & Lj & B). cbn [fst] in Lj. rewrite Li in Lj. injection Lj as <-. rewrite (rates_length _ _ _ _ R (pd_rates pers data)). rewrite E in B. now rewrite map_length. Qed.

(** ** all directories *)
Definition last_idx (pers : list fl) (done : list (text * list cres)) (idx : nat) : Prop := (done = [] /\ idx = 0) \/ exists l s data ps, done = l ++ [(s, data)] /\ rates_of pers data ps /\ idx = length ps.
Definition known (done : list (text * list cres)) (cs : list nat) (scol : list (text * nat)) : Prop :=
  (forall s c, tlookup s scol = Some c -> exists i, nth_error (map fst done) i = Some s /\ (forall j, j < i -> nth_error (map fst done) j <> Some s) /\ nth_error cs i = Some c) /\ (forall s, tlookup s scol = None -> ~ In s (map fst done)).
Definition state (pers : list fl) (done : list (text * list cres)) (cs : list nat) (idx : nat) (scol : list (text * nat)) : Prop := colours pers done cs /\ length cs = length done /\ known done cs scol /\ last_idx pers done idx.
Lemma rates_few pers data ps : rates_of pers data ps -> length ps <= length pers.
Proof. intros [N H]. apply NoDup_incl_length; auto. intros p Hp. apply H in Hp. tauto. Qed.
Lemma known_weaken done cs scol s data c : length cs = length done -> known done cs scol -> (exists c', tlookup s scol = Some c') -> known (done ++ [(s, data)]) (cs ++ [c]) scol.
Proof. intros L [K1 K2] [c' Hc']. split.
  - intros s' c1 H. destruct (K1 s' c1 H) as (i & H1 & H2 & H3). assert (Hi : i < length done) by (rewrite <- (map_length fst); apply nth_error_Some; congruence). exists i. rewrite map_app. split; [rewrite nth_error_app1; auto; now rewrite map_length|]. split; [|rewrite nth_error_app1; auto; lia]. intros j Hj. rewrite nth_error_app1 by (rewrite map_length; lia). auto.
  - intros s' H X. rewrite map_app in X. apply in_app_iff in X as [X|[<-|[]]]; [apply (K2 s' H X)|]. cbn in H. congruence. Qed.
Lemma known_new done cs scol s data c : length cs = length done -> known done cs scol -> tlookup s scol = None -> known (done ++ [(s, data)]) (cs ++ [c]) ((s, c) :: scol).
Proof. intros L [K1 K2] N. split.
  - intros s' c1 H. cbn [tlookup] in H. rewrite map_app. destruct (text_eqb s' s) eqn:E.
    + apply text_eqb_eq in E. subst s'. injection H as <-. exists (length done). split; [rewrite nth_error_app2; rewrite map_length; auto; now rewrite Nat.sub_diag|]. split; [|rewrite nth_error_app2 by lia; now rewrite L, Nat.sub_diag].
      intros j Hj X. rewrite nth_error_app1 in X by (rewrite map_length; lia). apply nth_error_In in X. apply (K2 s N X).
    + destruct (K1 s' c1 H) as (i & H1 & H2 & H3). assert (Hi : i < length done) by (rewrite <- (map_length fst); apply nth_error_Some; congruence). exists i. split; [rewrite nth_error_app1; auto; now rewrite map_length|]. split; [|rewrite nth_error_app1; auto; lia]. intros j Hj. rewrite nth_error_app1 by (rewrite map_length; lia). auto.
  - intros s' H X. cbn [tlookup] in H. destruct (text_eqb s' s) eqn:E; [discriminate|]. apply text_eqb_neq in E. rewrite map_app in X. apply in_app_iff in X as [X|[X|[]]]; [apply (K2 s' H X)|cbn in X; congruence]. Qed.
Lemma state_step pers done cs idx scol s data ps : length pers < 10 -> state pers done cs idx scol -> rates_of pers data ps ->
  exists idx' scol' c, match tlookup s scol with Some _ => Ret (idx, scol) | None => pbind (cols_at idx) (fun c => Ret (S idx, (s, c) :: scol)) end = Ret (idx', scol') /\ tlookup s scol' = Some c /\ state pers (done ++ [(s, data)]) (cs ++ [c]) (length ps) scol'.
Proof. intros LP (C & L & K & LI) R. assert (Small : idx < 10). { destruct LI as [[_ ->]|(l & s' & data' & ps' & _ & R' & ->)]; [lia|]. apply rates_few in R'. lia. }
  assert (LI' : last_idx pers (done ++ [(s, data)]) (length ps)) by (right; exists done, s, data, ps; auto). destruct (tlookup s scol) as [c|] eqn:E.
  - exists idx, scol, c. split; auto. split; auto. split; [|split; [rewrite !app_length; cbn; lia|split; auto; apply known_weaken; eauto]]. destruct K as [K1 _]. destruct (K1 s c E) as (i & H1 & H2 & H3). apply (col_again pers done cs s data i c); auto.
  - unfold cols_at. apply Nat.ltb_lt in Small. rewrite Small. cbn [pbind]. exists (S idx), ((s, idx) :: scol), idx. split; auto. cbn [tlookup]. rewrite text_eqb_refl. split; auto. split; [|split; [rewrite !app_length; cbn; lia|split; auto; apply known_new; auto]].
    destruct LI as [[-> ->]|(l & s' & data' & ps' & -> & R' & ->)].
    + destruct cs; [|discriminate L]. apply col_first.
    + apply col_new; auto. apply K. exact E. Qed.
Lemma loop_ok pers : length pers < 10 -> forall dirs done cs idx scol pcol, state pers done cs idx scol ->
  (Forall (fun x => rates_complete pers (snd x)) dirs -> exists bs, c_loop pers dirs idx scol pcol = Ret bs) /\
  (Exists (fun x => ~ rates_complete pers (snd x)) dirs -> c_loop pers dirs idx scol pcol = Raise ValueError) /\
  (forall bs, c_loop pers dirs idx scol pcol = Ret bs -> exists cs', colours pers (done ++ dirs) (cs ++ cs') /\ Forall2 (batch_shows pers) dirs bs /\ Forall2 rates_colour cs' bs /\ Forall2 (fun x b => rate_colours pers (snd x) b) dirs bs).
Proof. intros LP. induction dirs as [|[s data] dirs IHd]; intros done cs idx scol pcol St.
  - cbn [c_loop]. split; [eauto|]. split; [intros H; inversion H|]. intros bs [= <-]. exists []. rewrite !app_nil_r. split; [apply St|]. repeat split; constructor.
  - cbn [c_loop]. destruct (state_step pers done cs idx scol s data (map fst (pd pers data)) LP St (pd_rates pers data)) as (idx' & scol' & c & -> & Tc & St'). cbn [pbind snd]. rewrite Tc. cbn [pbind].
    fold (sorted_metrics data). destruct (c_points_ok pers pcol data) as (s1 & -> & HI & E); [lia|]. cbn [pbind]. fold (top s c data).
    destruct (low_spec pers s1 data (map fst (sorted_metrics data)) (text_eqb s (tx "z3")) HI E eq_refl) as [RC NR].
    assert (Ix : c_idx s1 = length (map fst (pd pers data))) by (destruct HI as (_ & _ & -> & _); rewrite E; now rewrite map_length). assert (St2 : state pers (done ++ [(s, data)]) (cs ++ [c]) (c_idx s1) scol') by (rewrite Ix; exact St').
    specialize (IHd _ _ _ _ (c_col s1) St2) as (I1 & I2 & I3). split; [|split].
    + intros H. inversion H as [|x y Hx Hy]; subst. destruct (RC Hx) as [low ->]. cbn [pbind]. destruct (I1 Hy) as [bs ->]. cbn [pbind]. eauto.
    + intros H. destruct (pmap _ (items (c_pd s1))) as [low|e] eqn:F.
      * cbn [pbind]. inversion H as [x y Hx|x y Hy]; subst; [specialize (NR Hx); congruence|]. rewrite (I2 Hy). reflexivity.
      * cbn [pbind]. f_equal. clear - F HI E RC. revert F. match goal with |- pmap ?h ?l = _ -> _ => intros F; destruct (pmap_exn h ValueError l) as [[low X]|X] end; [|congruence|congruence].
        intros [p l] Hpl. apply (proj1 (items_in _ _)) in Hpl. destruct (inv_lookup _ _ _ HI Hpl) as (j & Lj & _). unfold c_line. rewrite Lj. destruct (_ =? _); eauto.
    + intros bs H. destruct (pmap _ (items (c_pd s1))) as [low|e] eqn:F; cbn [pbind] in H; [|discriminate]. destruct (c_loop pers dirs _ _ _) as [rest|] eqn:G; cbn [pbind] in H; [|discriminate]. injection H as <-.
      destruct (I3 rest eq_refl) as (cs' & C & B & R1 & R2). destruct (batch_ok pers s c data s1 low HI E F) as (B1 & B2 & B3). exists (c :: cs'). rewrite <- !app_assoc in C. cbn [app] in C. split; auto. Qed.

(** ** C80 *)
(** With fewer than ten chosen rates (the code has three): one batch of lines for every directory with files.  In the upper panel the distances 17 and 21 of that directory, each with all its results from left to right; in the lower one, for each chosen
    rate that was measured, the times over all distances of the directory (at their own distances if no distance has two results at that rate), marked as z3 exactly for the directory of that name.  The lines of the upper panel have the colour of the
    solver, which depends on the number of rates in the directory before; different rates of a directory have different colours. *)
Theorem C80_comparison : forall pers dirs bs, length pers < 10 -> generate_plots_comp pers dirs = Ret bs ->
  Forall2 (batch_shows pers) (with_files dirs) bs /\ Forall2 (fun x b => rate_colours pers (snd x) b) (with_files dirs) bs /\ exists cs, colours pers (with_files dirs) cs /\ Forall2 rates_colour cs bs.
Proof. intros pers dirs bs L H. destruct (loop_ok pers L (with_files dirs) [] [] 0 [] []) as (_ & _ & G).
  - split; [constructor|]. split; [reflexivity|]. split; [split; [intros s c X; discriminate X|intros s _ []]|left; auto].
  - destruct (G bs H) as (cs & C & B & R1 & R2). cbn [app] in C. eauto 6. Qed.
Print Assumptions C80_comparison.
(** The figure is drawn exactly if each directory has, at each chosen rate, no result or as many as distances; otherwise ValueError.  The list of colours never runs out. *)
Theorem C80_comparison_drawn : forall pers dirs, length pers < 10 ->
  (Forall (fun x => rates_complete pers (snd x)) dirs -> exists bs, generate_plots_comp pers dirs = Ret bs) /\
  (Exists (fun x => ~ rates_complete pers (snd x)) dirs -> generate_plots_comp pers dirs = Raise ValueError).
Proof. intros pers dirs L. destruct (loop_ok pers L (with_files dirs) [] [] 0 [] []) as (G1 & G2 & _).
  - split; [constructor|]. split; [reflexivity|]. split; [split; [intros s c X; discriminate X|intros s _ []]|left; auto].
  - split.
    + intros H. apply G1. rewrite Forall_forall in *. intros x Hx. apply filter_In in Hx as [Hx _]. auto.
    + intros H. apply G2. apply Exists_exists in H as (x & Hx & N). apply Exists_exists. exists x. split; auto. apply filter_In. split; auto. destruct (snd x) as [|r l]; auto. exfalso. apply N. intros p _ X. exfalso. apply X. reflexivity. Qed.
Print Assumptions C80_comparison_drawn.
(** Different solvers can have the same colour: when the first directory has results at none of the chosen rates the first two have, and when each directory has results at all three, all but the first. *)
Definition three_rates : list fl := [1; 51; 131]%Z.
Definition full (d : Z) : list cres := [(d, (1, 10)); (d, (51, 20)); (d, (131, 30))]%Z.
Theorem C80_refuted_colours : ~ (forall dirs bs b b' x y s d c x' y' s' d' c', generate_plots_comp three_rates dirs = Ret bs -> In b bs -> In b' bs -> In (Rates x y s d c) b -> In (Rates x' y' s' d' c') b' -> s <> s' -> c <> c').
Proof. intros H. set (dirs := [(tx "z3", full 17%Z); (tx "a", full 17%Z); (tx "b", full 17%Z)]).
  assert (K : exists b0 r1 r2, generate_plots_comp three_rates dirs = Ret [b0; Rates [1; 51; 131]%Z [10; 20; 30]%Z (tx "a") 17%Z 3 :: r1; Rates [1; 51; 131]%Z [10; 20; 30]%Z (tx "b") 17%Z 3 :: r2]).
  { eexists. eexists. eexists. vm_compute. reflexivity. }
  destruct K as (b0 & r1 & r2 & E). eapply (H dirs _ _ _ _ _ _ _ _ _ _ _ _ _ E); [right; left; reflexivity|right; right; left; reflexivity|left; reflexivity|left; reflexivity|discriminate|reflexivity]. Qed.
Print Assumptions C80_refuted_colours.
Example C80_comparison_nonvacuous :
  generate_plots_comp three_rates [(tx "z3", [(17, (51, 5)); (3, (51, 2)); (17, (7, 4))]%Z); (tx "results", []); (tx "cashw", full 21%Z); (tx "z3", full 3%Z)] = Ret
    [[Rates [7; 51] [4; 5] (tx "z3") 17 0; Distances [3; 17] [2; 5] 51 true 0]%Z;
     [Rates [1; 51; 131] [10; 20; 30] (tx "cashw") 21 1; Distances [21] [10] 1 false 0; Distances [21] [20] 51 false 1; Distances [21] [30] 131 false 2]%Z;
     [Distances [3] [10] 1 true 0; Distances [3] [20] 51 true 1; Distances [3] [30] 131 true 2]%Z] /\
  generate_plots_comp three_rates [(tx "z3", [(17, (51, 5)); (3, (1, 2))]%Z)] = Raise ValueError /\
  (* two results for distance 17, none for distance 21: the second is drawn at 21 *)
  generate_plots_comp three_rates [(tx "z3", [(17, (51, 5)); (17, (51, 9)); (21, (7, 4))]%Z)] = Ret [[Rates [51; 51] [5; 9] (tx "z3") 17 0; Rates [7] [4] (tx "z3") 21 0; Distances [17; 21] [5; 9] 51 true 0]]%Z.
Proof. vm_compute. split; [reflexivity|]. split; reflexivity. Qed.
