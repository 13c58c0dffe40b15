(* Property C67: collecting result files.  [results s folder] are the readable results of a folder: the dictionaries in its
   ".json" files that decode. *)
From Coq Require Import List String Ascii Arith Bool ZArith Lia Permutation.
From Verif Require Import StatsModel StatsProofs PropStats FilesModel FilesProofs.
Import ListNotations.
Local Open Scope nat_scope.
Local Open Scope list_scope.

(* ---- specification ---- *)
Definition result_of (folder : apath) (e : apath * node) : list dict :=
  match e with
  | (q, File (CDict d)) => if apath_eqb (removelast q) folder && is_json (last q ""%string) then [d] else []
  | _ => []
  end.
Definition results (s : fs) (folder : apath) : list dict := flat_map (result_of folder) s.
(* ... and of all folders in a folder *)
Definition result_below (p : apath) (e : apath * node) : list dict :=
  match e with
  | (q, File (CDict d)) =>
    if (2 <=? List.length q) && apath_eqb (removelast (removelast q)) p && is_json (last q ""%string) then [d] else []
  | _ => []
  end.
Definition results_below (s : fs) (p : apath) : list dict := flat_map (result_below p) s.

(* a result as the simulators write it *)
Definition usable (d : dict) : Prop :=
  (exists k, get "code_K" d = Some (VZ k) /\ k <> 0%Z) /\ (exists r, get "nr_runs" d = Some (VZ r) /\ (0 < r)%Z) /\
  (exists a, get "x_success_cnt" d = Some (VZ a)) /\ (exists a, get "z_success_cnt" d = Some (VZ a)).
(* a ".json" entry of a folder to be merged: a result, or a file that does not decode *)
Definition mergeable (n : node) : Prop := n = File CBroken \/ exists d, n = File (CDict d) /\ usable d.
(* every entry other than the root is in a directory *)
Definition is_tree (s : fs) : Prop := forall q x n, lookup (q ++ [x]) s = Some n -> lookup q s = Some Dir.
Definition counts : list string := ["nr_runs"; "x_success_cnt"; "z_success_cnt"]%string.
Definition abs (p : apath) : ppath := {| absolute := true; parts := p |}.
Definition rel (p : apath) : ppath := {| absolute := false; parts := p |}.

(* ---- walking over the folders ---- *)
Lemma result_of_child (folder q : apath) (d : dict) (x : string) : q = folder ++ [x] -> result_of folder (q, File (CDict d)) = if is_json x then [d] else [].
Proof. intros ->. unfold result_of. rewrite removelast_last, last_last, apath_eqb_refl. auto. Qed.
Lemma result_of_other (folder q : apath) (n : node) : child_of folder q = None -> result_of folder (q, n) = [].
Proof.
  intros E. unfold result_of. destruct n as [|[d|l|]]; auto.
  destruct (apath_eqb_spec (removelast q) folder) as [R|R]; auto. simpl.
  destruct q as [|a q]; [reflexivity|]. exfalso.
  assert (H := app_removelast_last ""%string (l := a :: q) ltac:(discriminate)). rewrite R in H. rewrite H, child_of_self in E. discriminate.
Qed.

Definition clean (s : fs) (folder : apath) : Prop :=
  forall y n, is_json y = true -> lookup (folder ++ [y]) s = Some n -> n = File CBroken \/ exists d, n = File (CDict d).

Lemma load_folder_abs cwd s f : unique_paths s -> clean s f ->
  load_folder cwd s (abs f) (children f s) = FOk (map CDict (results s f)).
Proof.
  intros U C.
  assert (G : forall l, incl l s -> load_folder cwd s (abs f) (children f l) = FOk (map CDict (results l f))).
  { induction l as [|[q n] l IH]; intros I; [reflexivity|].
    assert (IH' := IH (fun e J => I e (or_intror J))).
    change (results ((q, n) :: l) f) with (result_of f (q, n) ++ results l f).
    change (children f ((q, n) :: l)) with (match child_of f q with Some x => [x] | None => [] end ++ children f l).
    destruct (child_of f q) as [y|] eqn:E.
    - assert (L : lookup q s = Some n). { apply in_lookup; auto. apply I. simpl; auto. }
      apply child_of_spec in E. cbn [app load_folder].
      change (resolve cwd (join (abs f) (sub (abs f) y))) with (f ++ [y]). rewrite <- E, L. destruct (is_json y) eqn:J.
      + rewrite E in L. destruct (C y n J L) as [->|[d ->]].
        * exact IH'.
        * rewrite (result_of_child f q d y E), J. rewrite IH'. reflexivity.
      + destruct n as [|[d|?|]]; try exact IH'. rewrite (result_of_child f q d y E), J. exact IH'.
    - rewrite (result_of_other f q n E). exact IH'. }
  apply G. apply incl_refl.
Qed.

Lemma dicts_map l : dicts (map CDict l) = FOk l.
Proof. induction l as [|d l IH]; simpl; [auto|]. rewrite IH. auto. Qed.

(* the names of the folders in p that hold results *)
Definition nonempty {A} (l : list A) : bool := match l with [] => false | _ => true end.
Definition folders (s l : fs) (p : apath) : list string :=
  filter (fun x => is_dir (p ++ [x]) s && nonempty (results s (p ++ [x]))) (children p l).

Lemma merge_folders_abs merge cwd s p : unique_paths s ->
  (forall x, lookup (p ++ [x]) s = Some Dir -> clean s (p ++ [x])) -> merge [] = MOk [] ->
  (forall x, lookup (p ++ [x]) s = Some Dir -> results s (p ++ [x]) <> [] -> exists m, merge (results s (p ++ [x])) = MOk m /\ m <> []) ->
  exists out, merge_folders merge cwd s (abs p) (children p s) = FOk out /\
    Forall2 (fun x m => merge (results s (p ++ [x])) = MOk m) (folders s s p) out.
Proof.
  intros U C M0 M. unfold folders. generalize (children p s) as names.
  induction names as [|x names [out [E F]]]; [exists []; split; [reflexivity|constructor]|].
  cbn [merge_folders filter]. change (join (abs p) (sub (abs p) x)) with (abs (p ++ [x])).
  change (resolve cwd (abs (p ++ [x]))) with (p ++ [x]).
  destruct (is_dir (p ++ [x]) s) eqn:D.
  - assert (L : lookup (p ++ [x]) s = Some Dir). { unfold is_dir in D. destruct (lookup (p ++ [x]) s) as [[|]|]; congruence. }
    change {| absolute := true; parts := p ++ [x] |} with (abs (p ++ [x])).
    rewrite (load_folder_abs cwd s (p ++ [x]) U (C x L)). cbn [fbind]. unfold merge_contents. rewrite dicts_map. cbn [fbind].
    destruct (results s (p ++ [x])) as [|d ds] eqn:R.
    + rewrite M0. cbn [fbind]. change {| absolute := true; parts := p |} with (abs p). rewrite E. simpl. exists out. auto.
    + destruct (M x L) as [m [Em Nm]]; [rewrite R; discriminate|]. rewrite R in Em. rewrite Em. cbn [fbind].
      change {| absolute := true; parts := p |} with (abs p). rewrite E. simpl. exists (m :: out). split.
      * destruct m; [congruence|auto].
      * constructor; auto. rewrite R. auto.
  - simpl. exists out. auto.
Qed.

(* ---- merging the results of a folder ---- *)
Lemma usable_merge ds : ds <> [] -> Forall usable ds ->
  exists m k, merge_datasets ds = MOk m /\ (exists d, hd_error ds = Some d /\ get "code_K" d = Some (VZ k)) /\
    get "nr_runs" m = Some (VZ (total "nr_runs" ds)) /\
    side_entries "x" m (total "x_success_cnt" ds) (total "nr_runs" ds) k /\
    side_entries "z" m (total "z_success_cnt" ds) (total "nr_runs" ds) k.
Proof.
  destruct ds as [|d ds]; [congruence|]. intros _ F.
  assert (KEY : forall d', usable d' -> forall key, In key counts -> exists a, get key d' = Some (VZ a)).
  { intros d' [_ [[r [R _]] [[a A] [b B]]]] key I. simpl in I. intuition; subst; eauto. }
  assert (P : (0 < total "nr_runs" (d :: ds))%Z).
  { assert (Q : forall l, Forall usable l -> (0 <= total "nr_runs" l)%Z).
    { induction 1 as [|d' l [_ [[r [R Rp]] _]] _ IH]; [cbn; lia|]. cbn [total fold_right]. unfold count. rewrite R.
      change (fold_right _ 0%Z l) with (total "nr_runs" l). lia. }
    inversion F as [|? ? [_ [[r [R Rp]] _]] F']; subst. cbn [total fold_right]. unfold count at 1. rewrite R.
    change (fold_right _ 0%Z ds) with (total "nr_runs" ds). assert (H := Q ds F'). lia. }
  assert (F0 := F). inversion F as [|? ? [[k [K KZ]] _] F']; subst.
  destruct (C56_merge_totals d ds k) as [m [E [E1 [E2 [E3 _]]]]]; auto; [|lia|].
  { intros key I. split; [apply KEY; auto; inversion F0; auto|]. apply Forall_forall. intros d' I'.
    rewrite Forall_forall in F'. destruct (KEY d' (F' d' I') key I) as [a A]. unfold intkey. rewrite A. auto. }
  exists m, k. split; auto. split; [exists d; auto|]. auto.
Qed.

Lemma result_of_usable s p x : unique_paths s ->
  (forall y n, is_json y = true -> lookup (p ++ [x; y]) s = Some n -> mergeable n) -> Forall usable (results s (p ++ [x])).
Proof.
  intros U C. apply Forall_forall. intros d I. apply in_flat_map in I. destruct I as [[q n] [I J]].
  assert (L := in_lookup _ _ _ U I). unfold result_of in J. destruct n as [|[d'|?|]]; try contradiction.
  destruct (apath_eqb_spec (removelast q) (p ++ [x])) as [R|]; [|contradiction].
  destruct (is_json (last q ""%string)) eqn:K; [|contradiction]. destruct J as [->|[]].
  assert (Q : q = p ++ [x; last q ""%string]).
  { destruct q as [|a q]; [discriminate K|]. rewrite (app_removelast_last ""%string (l := a :: q)) at 1 by discriminate.
    rewrite R, <- app_assoc. reflexivity. }
  rewrite Q in L. destruct (C _ _ K L) as [D|[d' [[= <-] D]]]; [discriminate|auto].
Qed.

Lemma count_mergeable_folder s p x : unique_paths s ->
  (forall y n, is_json y = true -> lookup (p ++ [x; y]) s = Some n -> mergeable n) -> clean s (p ++ [x]).
Proof.
  intros U C y n J L. rewrite <- app_assoc in L. destruct (C y n J L) as [->|[d [-> _]]]; eauto.
Qed.

(* C67: merging the folder p collects, for every folder in p that holds readable results, exactly one entry with the summed
   counts and the rates of the sums; files that do not decode are left out; nothing but the output file changes *)
Theorem C67_merge cwd p s : unique_paths s -> lookup p s = Some Dir ->
  (forall x y n, lookup (p ++ [x]) s = Some Dir -> is_json y = true -> lookup (p ++ [x; y]) s = Some n -> mergeable n) ->
  let target := removelast p ++ [(last p "" ++ ".json")%string] in
  lookup target s <> Some Dir ->
  exists names out s', merge_json_files cwd (abs p) s = FOk s' /\
    lookup target s' = Some (File (CList out)) /\ (forall q, q <> target -> lookup q s' = lookup q s) /\
    NoDup names /\ (forall x, In x names <-> lookup (p ++ [x]) s = Some Dir /\ results s (p ++ [x]) <> []) /\
    Forall2 (fun x m => exists k, get "nr_runs" m = Some (VZ (total "nr_runs" (results s (p ++ [x])))) /\
      side_entries "x" m (total "x_success_cnt" (results s (p ++ [x]))) (total "nr_runs" (results s (p ++ [x]))) k /\
      side_entries "z" m (total "z_success_cnt" (results s (p ++ [x]))) (total "nr_runs" (results s (p ++ [x]))) k /\
      exists d, hd_error (results s (p ++ [x])) = Some d /\ get "code_K" d = Some (VZ k)) names out.
Proof.
  intros U D C target NT.
  assert (US : forall x, lookup (p ++ [x]) s = Some Dir -> Forall usable (results s (p ++ [x]))).
  { intros x L. apply result_of_usable; auto. intros y n. apply C. auto. }
  destruct (merge_folders_abs merge_datasets cwd s p) as [out [E F]]; auto.
  { intros x L. apply count_mergeable_folder; auto. intros y n. apply C; auto. }
  { intros x L N. destruct (usable_merge _ N (US x L)) as [m [k [E [_ [E1 _]]]]]. exists m. split; auto. intros ->. discriminate E1. }
  exists (folders s s p), out, (write target (File (CList out)) s).
  split.
  { unfold merge_json_files, merge_files. change (resolve cwd (abs p)) with p. unfold is_dir at 1. rewrite D, E. cbn [fbind].
    change (parent p ++ [(name (abs p) ++ ".json")%string]) with target.
    destruct (is_dir target s) eqn:T; auto. exfalso. unfold is_dir in T. destruct (lookup target s) as [[|]|]; congruence. }
  split. { apply lookup_write_same. }
  split. { intros q N. apply lookup_write_other; auto. }
  split. { apply NoDup_filter, children_nodup; auto. }
  assert (IN : forall x, In x (folders s s p) <-> lookup (p ++ [x]) s = Some Dir /\ results s (p ++ [x]) <> []).
  { intros x. unfold folders. rewrite filter_In, in_children, andb_true_iff. unfold is_dir, nonempty. split.
    - intros [_ [A B]]. destruct (lookup (p ++ [x]) s) as [[|]|]; try discriminate. split; auto. intros Z. rewrite Z in B. discriminate.
    - intros [A B]. rewrite A. split; [apply lookup_in in A; apply (in_map fst) in A; auto|]. split; auto.
      destruct (results s (p ++ [x])); congruence. }
  split; auto.
  clear E NT target. assert (IN' : forall x, In x (folders s s p) -> lookup (p ++ [x]) s = Some Dir /\ results s (p ++ [x]) <> []).
  { intros x. apply IN. }
  clear IN. induction F as [|x m names out Em F IH]; constructor.
  - destruct (IN' x) as [L N]; [simpl; auto|]. destruct (usable_merge _ N (US x L)) as [m' [k [E' [E0 [E1 [E2 E3]]]]]].
    rewrite Em in E'. injection E' as <-. exists k. auto.
  - apply IH. intros y I. apply IN'. simpl; auto.
Qed.

Lemma total_app key a b : total key (a ++ b) = (total key a + total key b)%Z.
Proof. induction a as [|d a IH]; simpl; auto. unfold total in *. simpl. rewrite IH. lia. Qed.
Lemma total_flat key (names : list string) (f : string -> list dict) :
  total key (flat_map f names) = fold_right (fun x a => (total key (f x) + a)%Z) 0%Z names.
Proof. induction names as [|x r IH]; simpl; auto. rewrite total_app, IH. auto. Qed.

Lemma result_below_split (p : apath) (x : string) (e : apath * node) : forall names, NoDup names -> (forall y d, e = (p ++ [x; y], File (CDict d)) -> is_json y = true -> In x names) ->
  (forall q d, e = (q, File (CDict d)) -> forall x' y, q = p ++ [x'; y] -> x' = x) -> forall key,
  total key (result_below p e) = fold_right (fun x a => (total key (result_of (p ++ [x]) e) + a)%Z) 0%Z names.
Proof.
  intros names ND IN UN key. destruct e as [q n].
  assert (Z0 : forall l, (forall z, In z l -> result_of (p ++ [z]) (q, n) = []) ->
    fold_right (fun x a => (total key (result_of (p ++ [x]) (q, n)) + a)%Z) 0%Z l = 0%Z).
  { induction l as [|z l IH]; intros A; [reflexivity|]. cbn [fold_right]. rewrite A by (simpl; auto). rewrite IH; [reflexivity|].
    intros w I. apply A. simpl; auto. }
  unfold result_below. destruct n as [|[d|?|]]; try (symmetry; apply Z0; intros; reflexivity).
  destruct ((2 <=? List.length q) && apath_eqb (removelast (removelast q)) p && is_json (last q ""%string)) eqn:B.
  - apply andb_prop in B. destruct B as [B J]. apply andb_prop in B. destruct B as [Lq B].
    destruct (apath_eqb_spec (removelast (removelast q)) p) as [R|]; [|discriminate]. apply Nat.leb_le in Lq.
    assert (Q : exists x' y, q = p ++ [x'; y]).
    { destruct q as [|a q]; [simpl in Lq; lia|]. assert (H := app_removelast_last ""%string (l := a :: q) ltac:(discriminate)).
      destruct (removelast (a :: q)) as [|b r] eqn:E.
      - exfalso. rewrite H in Lq. simpl in Lq. lia.
      - assert (H' := app_removelast_last ""%string (l := b :: r) ltac:(discriminate)). rewrite R in H'. rewrite H' in H.
        rewrite <- app_assoc in H. simpl in H. eauto. }
    destruct Q as [x' [y Q]]. assert (x' = x) by (eapply UN; eauto). subst x'.
    assert (Ly : last q ""%string = y). { rewrite Q. change [x; y] with ([x] ++ [y]). rewrite app_assoc, last_last. auto. }
    rewrite Ly in J. assert (I : In x names). { apply (IN y d); [rewrite Q; reflexivity|exact J]. }
    assert (Qa : q = (p ++ [x]) ++ [y]). { rewrite <- app_assoc. auto. }
    assert (OTHER : forall z, z <> x -> result_of (p ++ [z]) (q, File (CDict d)) = []).
    { intros z N. apply result_of_other. destruct (child_of (p ++ [z]) q) as [w|] eqn:E; auto. apply child_of_spec in E.
      rewrite Q, <- app_assoc in E. apply app_inv_head in E. simpl in E. congruence. }
    clear - ND I OTHER Qa J Z0. induction names as [|z names IH]; [contradiction|]. apply NoDup_cons_iff in ND. destruct ND as [N0 ND]. cbn [fold_right].
    destruct (string_dec z x) as [->|N].
    + rewrite Z0 by (intros w Iw; apply OTHER; congruence). rewrite (result_of_child (p ++ [x]) q d y Qa), J. lia.
    + rewrite (OTHER z N). simpl. apply IH; auto. destruct I; congruence.
  - symmetry. apply Z0. intros z _. unfold result_of.
    destruct (apath_eqb_spec (removelast q) (p ++ [z])) as [R|]; auto. cbn [andb].
    destruct (is_json (last q ""%string)) eqn:J; auto. exfalso. rewrite R, removelast_last, apath_eqb_refl in B. rewrite ?J in B.
    destruct (2 <=? List.length q) eqn:L2; [discriminate|]. apply Nat.leb_gt in L2.
    apply (f_equal (@List.length string)) in R. rewrite app_length in R. simpl in R.
    destruct q as [|a [|b q]]; simpl in *; lia.
Qed.

(* no run is lost or counted twice: every count summed over the output is its sum over all readable results below p *)
Theorem C67_merge_conserves cwd p s : unique_paths s -> is_tree s -> lookup p s = Some Dir ->
  (forall x y n, lookup (p ++ [x]) s = Some Dir -> is_json y = true -> lookup (p ++ [x; y]) s = Some n -> mergeable n) ->
  let target := removelast p ++ [(last p "" ++ ".json")%string] in
  lookup target s <> Some Dir ->
  exists out s', merge_json_files cwd (abs p) s = FOk s' /\ lookup target s' = Some (File (CList out)) /\
    forall key, In key counts -> total key out = total key (results_below s p).
Proof.
  intros U T D C target NT.
  destruct (C67_merge cwd p s U D C NT) as [names [out [s' [E [L [_ [ND [IN F]]]]]]]].
  exists out, s'. split; auto. split; auto. intros key K.
  assert (A : total key out = fold_right (fun x a => (total key (results s (p ++ [x])) + a)%Z) 0%Z names).
  { clear - F K. induction F as [|x m names out [k [E1 [E2 [E3 _]]]] F IH]; [reflexivity|]. cbn [fold_right total].
    change (fold_right _ 0%Z out) with (total key out). rewrite IH. f_equal. unfold count.
    destruct E2 as [E2 _], E3 as [E3 _]. simpl in E2, E3. simpl in K. destruct K as [<-|[<-|[<-|[]]]].
    - rewrite E1. auto.
    - rewrite E2. auto.
    - rewrite E3. auto. }
  rewrite A. clear A F E.
  assert (G : forall l, incl l s -> total key (results_below l p) = fold_right (fun x a => (total key (results l (p ++ [x])) + a)%Z) 0%Z names).
  { induction l as [|[q n] l IH]; intros I.
    - simpl. clear. induction names; simpl; auto.
    - unfold results_below, results. cbn [flat_map]. rewrite total_app.
      fold (results_below l p). rewrite IH by (intros e J; apply I; simpl; auto).
      assert (S2 : total key (result_below p (q, n)) = fold_right (fun x a => (total key (result_of (p ++ [x]) (q, n)) + a)%Z) 0%Z names).
      { destruct (match n with File (CDict _) => true | _ => false end && (2 <=? List.length q) && apath_eqb (removelast (removelast q)) p) eqn:B.
        - apply andb_prop in B. destruct B as [B R]. apply andb_prop in B. destruct B as [B Lq].
          destruct (apath_eqb_spec (removelast (removelast q)) p) as [R'|]; [|discriminate]. apply Nat.leb_le in Lq.
          set (x := last (removelast q) ""%string).
          apply (result_below_split p x).
          + auto.
          + intros y d E J. injection E as E1 E2. rewrite E1 in I. apply IN.
            assert (Lk : lookup (p ++ [x; y]) s = Some (File (CDict d))). { apply in_lookup; auto. apply I. left. subst n. reflexivity. }
            split.
            * apply (T (p ++ [x]) y (File (CDict d))). rewrite <- app_assoc. exact Lk.
            * intros Z. apply lookup_in in Lk. assert (In d (results s (p ++ [x]))); [|rewrite Z in *; contradiction].
              unfold results. apply in_flat_map. exists (p ++ [x; y], File (CDict d)). split; auto.
              rewrite (result_of_child (p ++ [x]) _ d y), J; [simpl; auto|]. rewrite <- app_assoc. auto.
          + intros q' d E x' y Q. injection E as -> _. unfold x. rewrite Q. change [x'; y] with ([x'] ++ [y]).
            rewrite app_assoc, removelast_last, last_last. auto.
        - transitivity 0%Z.
          + unfold result_below. destruct n as [|[d|?|]]; auto. rewrite andb_true_l in B. rewrite B. auto.
          + clear - B. induction names as [|z names IHn]; [reflexivity|]. cbn [fold_right]. rewrite <- IHn.
            replace (result_of (p ++ [z]) (q, n)) with (@nil dict); [reflexivity|]. unfold result_of.
            destruct n as [|[d|?|]]; auto. destruct (apath_eqb_spec (removelast q) (p ++ [z])) as [R|]; auto. cbn [andb].
            exfalso. rewrite R, removelast_last, apath_eqb_refl in B. simpl in B. rewrite andb_true_r in B.
            apply (f_equal (@List.length string)) in R. rewrite app_length in R. simpl in R.
            destruct q as [|a [|b q]]; simpl in *; [lia|lia|discriminate]. }
      rewrite S2. clear. induction names as [|z names IHn]; [reflexivity|]. cbn [fold_right]. rewrite total_app.
      fold (results l (p ++ [z])). lia. }
  symmetry. apply G. apply incl_refl.
Qed.
