(** * PropRunFiles: property C80 - the result files of the colour code decoder and the figures made from them *)
From Coq Require Import List Arith Bool ZArith Ascii String Lia Permutation.
From Verif Require Import RunFilesModel.
From Verif Require Import TextProofs SaveProofs RunFilesProofs PlotProofs PropPlot PropPlot2.
Import ListNotations.
Local Open Scope nat_scope.

(** ** specification *)
(** k/10000 is the decimal nearest to the double p (the even one if there are two): [rounds p k], RunFilesProofs *)
Definition rate_ok (a : args) : Prop := (0 <= a_rate a <= one)%Z.
Definition last_component (s b : text) : Prop := ~ In "/"%char b /\ (s = b \/ exists d, s = d ++ "/"%char :: b).
(** the two runs are told apart by nothing but what the file name drops *)
Definition same_file (a b : args) : Prop := a_dir a = a_dir b /\ a_lattice a = a_lattice b /\ a_distance a = a_distance b /\
  (exists k, rounds (a_rate a) k /\ rounds (a_rate b) k) /\ exists s, last_component (a_solver a) s /\ last_component (a_solver b) s.
(** the run gives the result d *)
Definition succeeded {D} (ao : args * outcome D) (d : D) : Prop := exists l, a_lattice (fst ao) = lattice_value l /\ snd ao l = Ret d.
(** the contents of the files of a directory, in some order *)
Definition listing {D} (k : disk D) (dir : text) (data : list D) : Prop := exists names, NoDup names /\ (forall n, In n names <-> k dir n <> None) /\ map (k dir) names = map Some data.
(** the results of the successful runs with this results directory *)
Definition result_of {D} (dir : text) (ao : args * outcome D) : list D :=
  if text_eqb (a_dir (fst ao)) dir then match lattice_from_string (a_lattice (fst ao)) with Raise _ => [] | Ret l => match snd ao l with Ret d => [d] | Raise _ => [] end end else [].
Definition results {D} (dir : text) (l : list (args * outcome D)) : list D := flat_map (result_of dir) l.

(** ** proofs *)
Lemma last_unique s b b' : last_component s b -> last_component s b' -> b = b'.
Proof. intros [N H] [N' H']. assert (E : forall s b, ~ In "/"%char b -> (s = b \/ exists d, s = d ++ "/"%char :: b) -> basename s = b).
  { clear. intros s b N [->|[d ->]]; unfold basename; [rewrite basename_from_no; auto|apply basename_from_app; auto]. }
  rewrite <- (E s b), <- (E s b'); auto. Qed.
Lemma last_basename s : last_component s (basename s).
Proof. destruct (basename_spec s) as (b & N & H). assert (basename s = b) as ->; [|split; auto]. unfold basename. destruct H as [->|[d ->]]; [rewrite basename_from_no; auto|apply basename_from_app; auto]. Qed.
Lemma from_string_iff s l : lattice_from_string s = Ret l <-> s = lattice_value l.
Proof. unfold lattice_from_string. destruct (text_eqb s (lattice_value Hexagon)) eqn:E1; [apply text_eqb_eq in E1; subst; destruct l; split; intros X; auto; discriminate X|]. apply text_eqb_neq in E1.
  destruct (text_eqb s (lattice_value SquareOctagon)) eqn:E2; [apply text_eqb_eq in E2; subst; destruct l; split; intros X; auto; discriminate X|]. apply text_eqb_neq in E2. destruct l; split; intros X; try discriminate; congruence. Qed.
Lemma same_name v l l' a b : rate_ok a -> rate_ok b -> a_lattice a = lattice_value l -> a_lattice b = lattice_value l' -> (a_dir a = a_dir b /\ filename v l a = filename v l' b <-> same_file a b).
Proof. intros Ra Rb La Lb. unfold same_file. split.
  - intros [Hd H]. apply filename_inj in H as (-> & H2 & H3 & H4); auto. split; auto. split; [congruence|]. split; auto. split.
    + exists (round4 (a_rate a)). split; [apply round4_rounds|]. rewrite H3. apply round4_rounds.
    + exists (basename (a_solver a)). split; [apply last_basename|]. rewrite H4. apply last_basename.
  - intros (H0 & H1 & H2 & (k & K1 & K2) & (s & S1 & S2)). split; auto. assert (l = l') as <-. { rewrite La, Lb in H1. destruct l, l'; auto; discriminate H1. }
    unfold filename. rewrite H2. rewrite (rounds_unique _ _ _ (round4_rounds (a_rate a)) K1), (rounds_unique _ _ _ (round4_rounds (a_rate b)) K2). rewrite (last_unique _ _ _ (last_basename (a_solver a)) S1), (last_unique _ _ _ (last_basename (a_solver b)) S2). reflexivity. Qed.
Lemma write_get {D} dir name (d : D) k dir' name' : write dir name d k dir' name' = if text_eqb dir' dir && text_eqb name' name then Some d else k dir' name'.
Proof. reflexivity. Qed.
Definition named {D} (v : bool) (dir : text) (ao : args * outcome D) : list (text * D) :=
  if text_eqb (a_dir (fst ao)) dir then match lattice_from_string (a_lattice (fst ao)) with Raise _ => [] | Ret l => match snd ao l with Ret d => [(filename v l (fst ao), d)] | Raise _ => [] end end else [].
Lemma named_in {D} v dir (ao : args * outcome D) n d : In (n, d) (named v dir ao) <-> a_dir (fst ao) = dir /\ exists l, a_lattice (fst ao) = lattice_value l /\ snd ao l = Ret d /\ n = filename v l (fst ao).
Proof. unfold named. destruct (text_eqb _ _) eqn:E.
  - apply text_eqb_eq in E. destruct (lattice_from_string _) as [l|] eqn:L.
    + apply from_string_iff in L. destruct (snd ao l) eqn:O; cbn [In].
      * split; [intros [[= <- <-]|[]]; split; auto; exists l; auto|]. intros (_ & l' & L' & O' & ->). rewrite L in L'. assert (l = l') as <-. { destruct l, l'; auto; discriminate L'. } left. congruence.
      * split; [intros []|]. intros (_ & l' & L' & O' & ->). rewrite L in L'. assert (l = l') as <-. { destruct l, l'; auto; discriminate L'. } congruence.
    + split; [intros []|]. intros (_ & l & L' & _). apply from_string_iff in L'. congruence.
  - apply text_eqb_neq in E. split; [intros []|]. intros [X _]. congruence. Qed.
Lemma run_get {D} v (ao : args * outcome D) k dir n : fst (run v (fst ao) (snd ao) k) dir n = match named v dir ao with (n', d) :: _ => if text_eqb n n' then Some d else k dir n | [] => k dir n end.
Proof. unfold run, named. destruct (lattice_from_string _) as [l|]; [|destruct (text_eqb _ _); reflexivity]. destruct (snd ao l); cbn [fst]; [|destruct (text_eqb _ _); reflexivity].
  rewrite write_get. destruct (text_eqb (a_dir (fst ao)) dir) eqn:E.
  - apply text_eqb_eq in E. subst. now rewrite text_eqb_refl.
  - apply text_eqb_neq in E. replace (text_eqb dir (a_dir (fst ao))) with false; auto. symmetry. apply text_eqb_neq. congruence. Qed.
Lemma runs_app {D} v (l l' : list (args * outcome D)) k : runs v (l ++ l') k = runs v l' (runs v l k).
Proof. unfold runs. apply fold_left_app. Qed.
Lemma runs_snoc {D} v (l : list (args * outcome D)) ao k : runs v (l ++ [ao]) k = fst (run v (fst ao) (snd ao) (runs v l k)).
Proof. rewrite runs_app. reflexivity. Qed.
Lemma named_one {D} v dir (ao : args * outcome D) n d : In (n, d) (named v dir ao) -> named v dir ao = [(n, d)].
Proof. unfold named. destruct (text_eqb _ _); [|intros []]. destruct (lattice_from_string _) as [l|]; [|intros []]. destruct (snd ao l); [|intros []]. intros [X|[]]. now rewrite X. Qed.
Lemma runs_keep {D} v (l : list (args * outcome D)) k dir n : (forall ao d, In ao l -> ~ In (n, d) (named v dir ao)) -> runs v l k dir n = k dir n.
Proof. revert k. induction l as [|ao l IHl]; intros k H; [reflexivity|]. change (runs v (ao :: l) k) with (runs v l (fst (run v (fst ao) (snd ao) k))). rewrite IHl by (intros; apply H; right; auto). rewrite run_get. destruct (named v dir ao) as [|[n' d'] m] eqn:E; auto.
  destruct (text_eqb n n') eqn:T; auto. apply text_eqb_eq in T. subst n'. exfalso. apply (H ao d'); [left; auto|]. rewrite E. left. auto. Qed.
Lemma runs_last {D} v (l : list (args * outcome D)) k dir n : runs v l k dir n = k dir n /\ (forall ao d, In ao l -> ~ In (n, d) (named v dir ao)) \/
  exists l1 ao l2 d, l = l1 ++ ao :: l2 /\ In (n, d) (named v dir ao) /\ runs v l k dir n = Some d /\ forall ao' d', In ao' l2 -> ~ In (n, d') (named v dir ao').
Proof. induction l as [|ao l IHl] using rev_ind; [left; split; auto|]. rewrite runs_snoc, run_get. destruct (named v dir ao) as [|[n' d'] m] eqn:E; [|destruct (text_eqb n n') eqn:T].
  - destruct IHl as [[IHl N]|(l1 & a & l2 & d & -> & H1 & H2 & H3)]; [left|right].
    + split; auto. intros ao' d' H. apply in_app_iff in H as [H|[<-|[]]]; [eauto|]. rewrite E. intros [].
    + exists l1, a, (l2 ++ [ao]), d. rewrite <- app_assoc. cbn. split; auto. split; auto. split; auto. intros ao' d' H. apply in_app_iff in H as [H|[<-|[]]]; [eauto|]. rewrite E. intros [].
  - right. apply text_eqb_eq in T. subst n'. exists l, ao, [], d'. split; auto. rewrite E. split; [left; auto|]. split; auto.
  - apply text_eqb_neq in T. assert (M : forall d, ~ In (n, d) (named v dir ao)). { intros d H. apply named_one in H. rewrite E in H. congruence. } clear E.
    destruct IHl as [[IHl N]|(l1 & a & l2 & d & -> & H1 & H2 & H3)]; [left|right].
    + split; auto. intros ao' d'' H. apply in_app_iff in H as [H|[<-|[]]]; [eauto|]. apply M.
    + exists l1, a, (l2 ++ [ao]), d. rewrite <- app_assoc. cbn. split; auto. split; auto. split; auto. intros ao' d'' H. apply in_app_iff in H as [H|[<-|[]]]; [eauto|]. apply M. Qed.

(** ** C80 *)
(** Two runs write the same file exactly if they agree in directory, lattice, distance, the error rate to four decimals and the last component of the solver's path. *)
Theorem C80_names : forall v l l' a b, rate_ok a -> rate_ok b -> a_lattice a = lattice_value l -> a_lattice b = lattice_value l' ->
  (a_dir a = a_dir b /\ filename v l a = filename v l' b <-> same_file a b).
Proof. intros. now apply same_name. Qed.
Print Assumptions C80_names.
(** A run that fails - unknown lattice, or an exception in the simulation - leaves everything as it was; otherwise exactly one file changes, in the directory of the results, and holds the result. *)
Theorem C80_run : forall D v a (o : outcome D) k,
  (forall d, succeeded (a, o) d -> snd (run v a o k) = Ret tt /\ exists n, fst (run v a o k) (a_dir a) n = Some d /\ forall dir' n', dir' <> a_dir a \/ n' <> n -> fst (run v a o k) dir' n' = k dir' n') /\
  ((forall d, ~ succeeded (a, o) d) -> fst (run v a o k) = k /\ exists e, snd (run v a o k) = Raise e) /\
  ((forall l, a_lattice a <> lattice_value l) -> run v a o k = (k, Raise ValueError)).
Proof. intros D v a o k. split; [|split].
  - intros d (l & L & O). cbn in L, O. unfold run. rewrite (proj2 (from_string_iff _ _) L), O. cbn [fst snd]. split; auto. exists (filename v l a). rewrite write_get, !text_eqb_refl. split; auto. intros dir' n' H. rewrite write_get. destruct (text_eqb dir' (a_dir a)) eqn:E; auto. destruct (text_eqb n' _) eqn:E'; auto. apply text_eqb_eq in E, E'. destruct H; congruence.
  - intros H. unfold run. destruct (lattice_from_string _) as [l|e] eqn:L; [|split; [reflexivity|exists e; reflexivity]]. destruct (o l) as [d|e] eqn:O; [|split; [reflexivity|exists e; reflexivity]]. exfalso. apply (H d). exists l. split; auto. now apply from_string_iff.
  - intros H. unfold run. assert (lattice_from_string (a_lattice a) = Raise ValueError) as ->; auto. unfold lattice_from_string. rewrite (proj2 (text_eqb_neq _ _) (H Hexagon)), (proj2 (text_eqb_neq _ _) (H SquareOctagon)). reflexivity. Qed.
Print Assumptions C80_run.
(** After any sequence of runs the result of each is in its directory, unless a later one wrote the same file; and every file was there before or holds the result of the last run that wrote it. *)
Theorem C80_sequence : forall D v (l : list (args * outcome D)) k, Forall (fun ao => rate_ok (fst ao)) l ->
  (forall l1 ao l2 d, l = l1 ++ ao :: l2 -> succeeded ao d -> (forall ao' d', In ao' l2 -> succeeded ao' d' -> ~ same_file (fst ao) (fst ao')) -> exists n, runs v l k (a_dir (fst ao)) n = Some d) /\
  (forall dir n d, runs v l k dir n = Some d -> k dir n = Some d \/ exists l1 ao l2, l = l1 ++ ao :: l2 /\ a_dir (fst ao) = dir /\ succeeded ao d /\ forall ao' d', In ao' l2 -> succeeded ao' d' -> ~ same_file (fst ao) (fst ao')).
Proof. intros D v l k R. rewrite Forall_forall in R. split.
  - intros l1 ao l2 d -> (lt & L & O) N. exists (filename v lt (fst ao)). rewrite runs_app. change (runs v (ao :: l2) (runs v l1 k)) with (runs v l2 (fst (run v (fst ao) (snd ao) (runs v l1 k)))). rewrite runs_keep.
    + rewrite run_get. assert (H : In (filename v lt (fst ao), d) (named v (a_dir (fst ao)) ao)) by (apply named_in; split; auto; exists lt; auto). rewrite (named_one _ _ _ _ _ H). now rewrite text_eqb_refl.
    + intros ao' d' Hin H. apply named_in in H as (E & lt' & L' & O' & F). apply (N ao' d' Hin); [exists lt'; auto|]. apply (same_name v lt lt'); auto; try (apply R, in_app_iff; right; cbn; auto).
  - intros dir n d H. destruct (runs_last v l k dir n) as [[E _]|(l1 & ao & l2 & d' & -> & I & E & N)]; [left; congruence|right]. assert (d' = d) by congruence. subst d'. exists l1, ao, l2. split; auto. apply named_in in I as (Ed & lt & L & O & F). split; auto. split; [exists lt; auto|].
    intros ao' d' Hin (lt' & L' & O') SF. apply (N ao' d' Hin). apply named_in. apply (same_name v lt lt') in SF; auto; try (apply R, in_app_iff; right; cbn; auto). destruct SF as [E1 E2]. split; [congruence|]. exists lt'. split; auto. split; auto. congruence. Qed.
Print Assumptions C80_sequence.
Lemma results_named {D} v dir (l : list (args * outcome D)) : results dir l = map snd (flat_map (named v dir) l).
Proof. unfold results. induction l as [|ao l IHl]; cbn [flat_map map]; auto. rewrite map_app, IHl. f_equal. unfold result_of, named. destruct (text_eqb _ _); auto. destruct (lattice_from_string _) as [lt|]; auto. destruct (snd ao lt); auto. Qed.
Lemma runs_pairs {D} v dir (l : list (args * outcome D)) k : (forall n, k dir n = None) -> NoDup (map fst (flat_map (named v dir) l)) -> forall n d, runs v l k dir n = Some d <-> In (n, d) (flat_map (named v dir) l).
Proof. intros K N n d. split.
  - intros H. destruct (runs_last v l k dir n) as [[E _]|(l1 & ao & l2 & d' & -> & I & E & _)]; [rewrite K in E; congruence|]. apply in_flat_map. exists ao. split; [apply in_app_iff; right; left; auto|]. congruence.
  - intros H. destruct (runs_last v l k dir n) as [[E X]|(l1 & ao & l2 & d' & -> & I & E & _)]; [apply in_flat_map in H as (ao & H1 & H2); destruct (X ao d H1 H2)|].
    rewrite E. f_equal. assert (H' : In (n, d') (flat_map (named v dir) (l1 ++ ao :: l2))) by (apply in_flat_map; exists ao; split; auto; apply in_app_iff; right; left; auto).
    clear - N H H'. induction (flat_map (named v dir) (l1 ++ ao :: l2)) as [|[m e] p IHp]; [destruct H|]. cbn in N. apply NoDup_cons_iff in N as [N1 N2]. destruct H as [H|H], H' as [H'|H']; [congruence| | |auto].
    + exfalso. apply N1. injection H as -> ->. apply (in_map fst) in H'. exact H'.
    + exfalso. apply N1. injection H' as -> ->. apply (in_map fst) in H. exact H. Qed.
(** If no two successful runs with this directory, empty before, are told apart only by what the name drops, then the directory holds exactly their results, each once. *)
Theorem C80_listing : forall D v (l : list (args * outcome D)) k dir, Forall (fun ao => rate_ok (fst ao)) l -> (forall n, k dir n = None) ->
  ForallOrdPairs (fun x y => forall d d', succeeded x d -> succeeded y d' -> a_dir (fst x) = dir -> ~ same_file (fst x) (fst y)) l ->
  (exists data, listing (runs v l k) dir data) /\ forall data, listing (runs v l k) dir data -> Permutation data (results dir l).
Proof. intros D v l k dir R K P. assert (N : NoDup (map fst (flat_map (named v dir) l))).
  { clear K k. induction P as [|ao l H P IHP]; cbn [flat_map map]; [constructor|]. apply Forall_cons_iff in R as [Ra R]. specialize (IHP R). destruct (named v dir ao) as [|[n d] m] eqn:E; auto.
    assert (I : In (n, d) (named v dir ao)) by (rewrite E; left; auto). rewrite (named_one _ _ _ _ _ I) in E. injection E as <-. cbn [app map fst]. constructor; auto. intros X. apply in_map_iff in X as ([n' d'] & En & X). cbn in En. subst n'. apply in_flat_map in X as (ao' & H1 & H2).
    apply named_in in I as (E1 & lt & L & O & F). apply named_in in H2 as (E1' & lt' & L' & O' & F'). rewrite Forall_forall in H, R. apply (H ao' H1 d d'); auto; [exists lt; auto|exists lt'; auto|]. apply (same_name v lt lt' (fst ao) (fst ao')); [exact Ra|apply R; auto|exact L|exact L'|split; congruence]. }
  pose proof (runs_pairs v dir l k K N) as G. rewrite (results_named v). set (ps := flat_map (named v dir) l) in *. split.
  - exists (map snd ps), (map fst ps). split; auto. split.
    + intros n. rewrite in_map_iff. split; [intros ([n' d] & <- & H); apply G in H; cbn; congruence|]. intros H. destruct (runs v l k dir n) as [d|] eqn:E; [|congruence]. exists (n, d). split; auto. now apply G.
    + rewrite !map_map. apply map_ext_in. intros [n d] H. now apply G.
  - intros data (names & Nn & In_n & M). assert (Q : Permutation names (map fst ps)).
    { apply NoDup_Permutation; auto. intros n. rewrite In_n, in_map_iff. split; [intros H; destruct (runs v l k dir n) as [d|] eqn:E; [|congruence]; exists (n, d); split; auto; now apply G|intros ([n' d] & <- & H); apply G in H; cbn; congruence]. }
    apply (Permutation_map (runs v l k dir)) in Q. rewrite M in Q. assert (Z : map (runs v l k dir) (map fst ps) = map Some (map snd ps)) by (rewrite !map_map; apply map_ext_in; intros [n d] H; now apply G). rewrite Z in Q.
    apply (Permutation_map (fun o => match o with Some d => [d] | None => [] end)) in Q. rewrite !map_map in Q.
    assert (W : forall (A : Type) (a b : list (list A)), Permutation a b -> Permutation (concat a) (concat b)). { intros A a b H. induction H; cbn; auto; [now apply Permutation_app_head| |etransitivity; eauto]. rewrite !app_assoc. apply Permutation_app_tail, Permutation_app_comm. }
    apply W in Q. assert (V : forall l0 : list D, concat (map (fun x => [x]) l0) = l0) by (induction l0; cbn; congruence). rewrite V in Q. rewrite <- (map_map snd (fun x => [x])), V in Q. exact Q. Qed.
Print Assumptions C80_listing.
(** The figure drawn from the directory shows exactly these runs. *)
Corollary C80_figures : forall v l k dir data fit lo hi pers p1 cmds, Forall (fun ao => rate_ok (fst ao)) l -> (forall n, k dir n = None) ->
  ForallOrdPairs (fun x y => forall d d', succeeded x d -> succeeded y d' -> a_dir (fst x) = dir -> ~ same_file (fst x) (fst y)) l ->
  listing (runs v l k) dir data -> generate_plots fit lo hi pers p1 data = Ret cmds ->
  forall i x y e d, In (ErrorBar 0 i x y e d) cmds -> shows x y e (map (point i) (of_distance d (results dir l))).
Proof. intros v l k dir data fit lo hi pers p1 cmds R K P L G i x y e d H. destruct (C80_listing _ v l k dir R K P) as [_ Q]. specialize (Q data L). destruct (C77_curves _ _ _ _ _ _ _ G) as [C _]. destruct (C i x y e d H) as [_ (A & B & S1 & S2)].
  split; auto. split; auto. split; auto. etransitivity; [exact S2|]. apply Permutation_map, filter_perm, Q. Qed.
Print Assumptions C80_figures.
(** Error rates more than 1/10000 apart never share a file, nor do those of run.sh (the doubles nearest to i/1000). *)
Theorem C80_rates : forall a b, ((one < 10000 * Z.abs (a_rate a - a_rate b))%Z -> ~ same_file a b) /\
  forall i j, i <> j -> (20000 * Z.abs (1000 * a_rate a - i * one) < 1000 * one)%Z -> (20000 * Z.abs (1000 * a_rate b - j * one) < 1000 * one)%Z -> ~ same_file a b.
Proof. intros a b. split.
  - intros H (_ & _ & _ & (k & K1 & K2) & _). destruct (Z.le_gt_cases (a_rate b) (a_rate a)) as [L|L].
    + assert (X := rounds_far (a_rate b) (a_rate a) k k K2 K1). lia.
    + assert (X := rounds_far (a_rate a) (a_rate b) k k K1 K2). lia.
  - intros i j N A B (_ & _ & _ & (k & [K1 _] & [K2 _]) & _). pose proof one_pos. assert (k = 10 * i)%Z by nia. assert (k = 10 * j)%Z by nia. lia. Qed.
Print Assumptions C80_rates.
(** Closer rates can: 1/16 + 1/4 of 1/10000 is recorded in the file of 1/16, and replaces it.  So does the answer of an external program that happens to be called z3. *)
Theorem C80_refuted_distinct : forall D v lat dist p p' sims dir solver solver' (o o' : outcome D) d d' k,
  (0 <= p <= one)%Z -> (0 <= p' <= one)%Z -> (exists q, rounds p q /\ rounds p' q) -> (exists s, last_component solver s /\ last_component solver' s) ->
  o lat = Ret d -> o' lat = Ret d' -> (forall n, k dir n = None) ->
  let a := mkArgs (lattice_value lat) dist p sims dir solver in let b := mkArgs (lattice_value lat) dist p' sims dir solver' in
  forall data, listing (runs v [(a, o); (b, o')] k) dir data -> data = [d'].
Proof. intros D v lat dist p p' sims dir solver solver' o o' d d' k R R' Q SS O O' K a b data (names & N & I & M).
  assert (F : filename v lat a = filename v lat b). { apply (same_name v lat lat a b); auto. unfold same_file. cbn. auto. }
  assert (G : forall n, runs v [(a, o); (b, o')] k dir n = if text_eqb n (filename v lat b) then Some d' else None).
  { intros n. unfold runs. cbn [fold_left fst snd]. unfold run at 1. cbn [a_lattice]. change (a_lattice b) with (lattice_value lat). rewrite (proj2 (from_string_iff _ lat) eq_refl), O'. cbn [fst]. rewrite write_get. change (a_dir b) with dir. rewrite text_eqb_refl. cbn [andb]. destruct (text_eqb n (filename v lat b)) eqn:E; auto.
    unfold run. change (a_lattice a) with (lattice_value lat). rewrite (proj2 (from_string_iff _ lat) eq_refl), O. cbn [fst]. rewrite write_get, F, E, andb_false_r. apply K. }
  assert (P : Permutation names [filename v lat b]). { apply NoDup_Permutation; auto; [constructor; [intros []|constructor]|]. intros n. rewrite I, G. destruct (text_eqb n (filename v lat b)) eqn:E; [apply text_eqb_eq in E; subst; cbn; split; [auto|discriminate]|apply text_eqb_neq in E; split; [congruence|intros [X|[]]; exfalso; exact (E (eq_sym X))]]. }
  apply Permutation_sym, Permutation_length_1_inv in P. subst names. cbn [map] in M. rewrite G, text_eqb_refl in M. destruct data as [|x [|y data]]; try discriminate M. injection M as <-. reflexivity. Qed.
Print Assumptions C80_refuted_distinct.
(** The command: maxsat runs the decoder with these arguments, tn the tensor network decoder, which knows neither lattice nor solver - the type square_octagon is simulated on the hexagonal code -, and its files are never those of maxsat; any other
    decoder raises ValueError and writes nothing. *)
Theorem C80_cli : forall D v a (o : outcome D) otn k,
  cli v (tx "maxsat") a o otn k = run v a o k /\
  (forall lat solver o', let b := mkArgs lat (a_distance a) (a_rate a) (a_sims a) (a_dir a) solver in cli v (tx "tn") b o' otn k = cli v (tx "tn") a o otn k) /\
  (forall e, otn = Raise e -> cli v (tx "tn") a o otn k = (k, Raise e)) /\
  (forall d, otn = Ret d -> snd (cli v (tx "tn") a o otn k) = Ret tt /\ exists n, fst (cli v (tx "tn") a o otn k) (a_dir a) n = Some d /\ (forall dir' n', dir' <> a_dir a \/ n' <> n -> fst (cli v (tx "tn") a o otn k) dir' n' = k dir' n') /\ (forall l b, n <> filename v l b)) /\
  (forall dec, dec <> tx "maxsat" -> dec <> tx "tn" -> cli v dec a o otn k = (k, Raise ValueError)).
Proof. intros D v a o otn k. split; [reflexivity|]. split; [intros; destruct otn; reflexivity|]. split; [intros e ->; reflexivity|]. split.
  - intros d ->. split; [reflexivity|]. exists (tn_filename a). change (cli v (tx "tn") a o (Ret d) k) with (write (a_dir a) (tn_filename a) d k, @Ret unit tt). cbn [fst snd]. rewrite write_get, !text_eqb_refl. split; auto. split; [|intros; apply tn_filename_other]. intros dir' n' H. rewrite write_get. destruct (text_eqb dir' (a_dir a)) eqn:E; auto. destruct (text_eqb n' _) eqn:E'; auto. apply text_eqb_eq in E, E'. destruct H; congruence.
  - intros dec H H'. unfold cli. rewrite (proj2 (text_eqb_neq _ _) H), (proj2 (text_eqb_neq _ _) H'). reflexivity. Qed.
Print Assumptions C80_cli.
(** Two tn runs share a file exactly if they agree in directory, distance and rounded rate. *)
Theorem C80_tn_names : forall a b, rate_ok a -> rate_ok b -> (tn_filename a = tn_filename b <-> a_distance a = a_distance b /\ exists k, rounds (a_rate a) k /\ rounds (a_rate b) k).
Proof. intros a b Ra Rb. split.
  - intros H. apply tn_filename_inj in H as [H1 H2]; auto. split; auto. exists (round4 (a_rate a)). split; [apply round4_rounds|]. rewrite H2. apply round4_rounds.
  - intros [H (k & K1 & K2)]. unfold tn_filename. rewrite H, (rounds_unique _ _ _ (round4_rounds (a_rate a)) K1), (rounds_unique _ _ _ (round4_rounds (a_rate b)) K2). reflexivity. Qed.
Print Assumptions C80_tn_names.

(** ** concrete cases *)
Definition ex_args (p : Z) (solver : string) : args := mkArgs (tx "hexagon") 5 p 100 (tx "./results") (tx solver).
(** the double 1/16 *)
Definition sixteenth : Z := (one / 16)%Z.
Transparent one.
Example C80_name : filename false Hexagon (ex_args sixteenth "./solvers/z3") = tx "code=hexagon,distance=5,p=0.0625,solver=z3.json" /\
  filename true SquareOctagon (ex_args (one / 8) "z3") = tx "code=LatticeType.SQUARE_OCTAGON,distance=5,p=0.125,solver=z3.json" /\
  filename false Hexagon (ex_args 0 "z3") = tx "code=hexagon,distance=5,p=0.0,solver=z3.json" /\ filename false Hexagon (ex_args one "") = tx "code=hexagon,distance=5,p=1.0,solver=.json" /\
  filename false Hexagon (ex_args (one / 32) "z3") = tx "code=hexagon,distance=5,p=0.0312,solver=z3.json" /\ filename false Hexagon (ex_args (3 * (one / 32)) "z3") = tx "code=hexagon,distance=5,p=0.0938,solver=z3.json".
Proof. vm_compute. repeat split. Qed.
Example C80_same_file : same_file (ex_args sixteenth "z3") (ex_args (sixteenth + one / 40000) "/usr/bin/z3").
Proof. unfold same_file, ex_args. cbn [a_dir a_lattice a_distance a_rate a_solver]. split; auto. split; auto. split; auto. split.
  - exists 625%Z. split; (split; [vm_compute; discriminate|vm_compute; discriminate]).
  - exists (tx "z3"). split; (split; [cbn; intuition discriminate|]); [left; reflexivity|right; exists (tx "/usr/bin"); reflexivity]. Qed.
Definition ex_outcome (n : nat) : outcome nat := fun _ => Ret n.
Definition ex_runs : list (args * outcome nat) :=
  [(ex_args sixteenth "z3", ex_outcome 1); (ex_args (one / 8)%Z "z3", ex_outcome 2); (mkArgs (tx "triangle") 5%Z (one / 8)%Z 1%Z (tx "./results") (tx "z3"), ex_outcome 3); (ex_args (one / 8)%Z "cashw", ex_outcome 4)].
Opaque one.
Example C80_listing_nonvacuous : Forall (fun ao => rate_ok (fst ao)) ex_runs /\
  ForallOrdPairs (fun x y => forall d d', succeeded x d -> succeeded y d' -> a_dir (fst x) = tx "./results" -> ~ same_file (fst x) (fst y)) ex_runs /\ results (tx "./results") ex_runs = [1; 2; 4] /\
  listing (runs false ex_runs (fun _ _ => None)) (tx "./results") [4; 1; 2].
Proof. assert (Far : forall s s', ~ same_file (ex_args sixteenth s) (ex_args (one / 8)%Z s')) by (intros s s'; apply C80_rates; vm_compute; reflexivity).
  assert (Tri : forall d, ~ succeeded (mkArgs (tx "triangle") 5%Z (one / 8)%Z 1%Z (tx "./results") (tx "z3"), ex_outcome 3) d) by (intros d ([] & E & _); discriminate E).
  split; [apply Forall_forall; intros x H; cbn [In ex_runs] in H; destruct H as [<-|[<-|[<-|[<-|[]]]]]; split; vm_compute; discriminate|]. split.
  - unfold ex_runs. apply FOP_cons; [|apply FOP_cons; [|apply FOP_cons; [|apply FOP_cons; [constructor|constructor]]]].
    + apply Forall_cons; [|apply Forall_cons; [|apply Forall_cons; [|constructor]]]; intros d d' H H' _; [apply Far|destruct (Tri _ H')|apply Far].
    + apply Forall_cons; [|apply Forall_cons; [|constructor]]; intros d d' H H' _; [destruct (Tri _ H')|]. intros (_ & _ & _ & _ & (s & S1 & S2)). pose proof (last_unique _ _ _ S1 (last_basename _)) as E1. pose proof (last_unique _ _ _ S2 (last_basename _)) as E2. subst s. vm_compute in E2. discriminate E2.
    + apply Forall_cons; [|constructor]; intros d d' H. destruct (Tri _ H).
  - split; [vm_compute; reflexivity|]. exists [filename false Hexagon (ex_args (one / 8)%Z "cashw"); filename false Hexagon (ex_args sixteenth "z3"); filename false Hexagon (ex_args (one / 8)%Z "z3")].
    split; [|split; [|vm_compute; reflexivity]].
    + assert (N : forall a b : text, text_eqb a b = false -> a <> b) by (intros a b; apply text_eqb_neq). constructor; [|constructor; [|constructor; [|constructor]]]; intros H; cbn [In] in H; [destruct H as [H|[H|[]]]|destruct H as [H|[]]|destruct H]; revert H; apply N; vm_compute; reflexivity.
    + intros n. pose proof (runs_last false ex_runs (fun _ _ => None) (tx "./results") n) as [[E X]|(l1 & ao & l2 & d & E & I & R & _)].
      * rewrite E. split; [|congruence]. intros H. exfalso. cbn [In] in H. destruct H as [<-|[<-|[<-|[]]]].
        -- apply (X (ex_args (one / 8)%Z "cashw", ex_outcome 4) 4); [unfold ex_runs; cbn [In]; auto|apply named_in; split; [reflexivity|exists Hexagon; split; [reflexivity|split; reflexivity]]].
        -- apply (X (ex_args sixteenth "z3", ex_outcome 1) 1); [unfold ex_runs; cbn [In]; auto|apply named_in; split; [reflexivity|exists Hexagon; split; [reflexivity|split; reflexivity]]].
        -- apply (X (ex_args (one / 8)%Z "z3", ex_outcome 2) 2); [unfold ex_runs; cbn [In]; auto|apply named_in; split; [reflexivity|exists Hexagon; split; [reflexivity|split; reflexivity]]].
      * rewrite R. split; [discriminate|]. intros _. assert (H : In ao ex_runs) by (rewrite E; apply in_app_iff; right; left; auto). apply named_in in I as (_ & lt & L & O & ->). clear - L H. unfold ex_runs in H. cbn [In] in H.
        assert (K : tx "hexagon" = lattice_value lt -> lt = Hexagon) by (destruct lt; auto; intros X; discriminate X).
        destruct H as [<-|[<-|[<-|[<-|[]]]]]; cbn [fst] in *.
        -- rewrite (K L). right. left. reflexivity.
        -- rewrite (K L). right. right. left. reflexivity.
        -- destruct lt; discriminate L.
        -- rewrite (K L). left. reflexivity. Qed.
