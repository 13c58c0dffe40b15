(* Property C67, second part: relative folders and load_data; C68: the output files of simulations. *)
From Coq Require Import List String Ascii Arith Bool ZArith Lia Permutation.
From Verif Require Import StatsModel StatsProofs PropStats FilesModel FilesProofs PropFiles.
Import ListNotations.
Local Open Scope nat_scope.
Local Open Scope list_scope.

(* ------------------------------------------------------------------ C67: relative folders *)
Lemma merge_folders_none merge cwd s input names :
  (forall x, In x names -> is_dir (resolve cwd (join input (sub input x))) s = false) -> merge_folders merge cwd s input names = FOk [].
Proof.
  induction names as [|x r IH]; intros A; [reflexivity|]. cbn [merge_folders]. rewrite A by (simpl; auto). apply IH.
  intros y I. apply A. simpl; auto.
Qed.

(* A folder given by a relative path (other than "."): the path is joined with itself, so that nothing is found, and the
   output, which may hold what an earlier merge has collected, becomes the empty list.  This is so for each of the four
   functions, which differ in [merge] *)
Theorem C67_merge_relative merge cwd ps s : ps <> [] -> lookup (cwd ++ ps) s = Some Dir ->
  (forall x, lookup (cwd ++ ps ++ ps ++ [x]) s <> Some Dir) ->
  let target := removelast (cwd ++ ps) ++ [(last ps "" ++ ".json")%string] in
  lookup target s <> Some Dir ->
  exists s', merge_files merge cwd (rel ps) s = FOk s' /\ lookup target s' = Some (File (CList [])) /\
    forall q, q <> target -> lookup q s' = lookup q s.
Proof.
  intros NE D NO target NT. unfold merge_files. change (resolve cwd (rel ps)) with (cwd ++ ps). unfold is_dir at 1. rewrite D.
  rewrite merge_folders_none.
  - cbn [fbind]. change (parent (cwd ++ ps) ++ [(name (rel ps) ++ ".json")%string]) with target.
    destruct (is_dir target s) eqn:T; [exfalso; unfold is_dir in T; destruct (lookup target s) as [[|]|]; congruence|].
    eexists. split; [reflexivity|]. split; [apply lookup_write_same|]. intros q N. apply lookup_write_other; auto.
  - intros x _. change (resolve cwd (join (rel ps) (sub (rel ps) x))) with (cwd ++ ps ++ ps ++ [x]).
    unfold is_dir. specialize (NO x).
    match goal with |- match ?t with _ => _ end = _ => destruct t as [[|]|] eqn:E end; auto. congruence.
Qed.

Lemma merge_folders_raise merge cwd s input x : forall names, In x names ->
  is_dir (resolve cwd (join input (sub input x))) s = true ->
  load_folder cwd s (join input (sub input x)) (children (resolve cwd (join input (sub input x))) s) = FRaise ->
  merge_folders merge cwd s input names = FRaise.
Proof.
  induction names as [|z r IH]; intros I D L; [contradiction|]. cbn [merge_folders]. destruct I as [->|I].
  - rewrite D, L. reflexivity.
  - specialize (IH I D L). rewrite IH. destruct (is_dir (resolve cwd (join input (sub input z))) s); auto.
    match goal with |- fbind ?t _ = _ => destruct t end; auto. cbn [fbind].
    match goal with |- fbind ?t _ = _ => destruct t end; auto.
Qed.
Lemma load_folder_raise cwd s folder y : forall names, In y names -> is_json y = true ->
  (forall c, lookup (resolve cwd (join folder (sub folder y))) s <> Some (File c)) -> load_folder cwd s folder names = FRaise.
Proof.
  induction names as [|z r IH]; intros I J N; [contradiction|]. cbn [load_folder]. destruct I as [->|I].
  - rewrite J. destruct (lookup (resolve cwd (join folder (sub folder y))) s) as [[|c]|]; auto. destruct (N c); auto.
  - rewrite (IH I J N). destruct (is_json z); auto. destruct (lookup (resolve cwd (join folder (sub folder z))) s) as [[|[]]|]; auto.
Qed.

(* ... and the current directory given as ".": the first folder with a ".json" entry makes the call raise *)
Theorem C67_merge_dot merge cwd s x y n : unique_paths s -> lookup cwd s = Some Dir -> lookup (cwd ++ [x]) s = Some Dir ->
  is_json y = true -> lookup (cwd ++ [x; y]) s = Some n -> (forall c, lookup (cwd ++ [x; x; y]) s <> Some (File c)) ->
  merge_files merge cwd (rel []) s = FRaise.
Proof.
  intros U D Dx J L N. unfold merge_files. change (resolve cwd (rel [])) with (cwd ++ []). rewrite app_nil_r.
  unfold is_dir at 1. rewrite D. rewrite (merge_folders_raise merge cwd s (rel []) x); [reflexivity| | |].
  - apply in_children. apply lookup_in in Dx. apply (in_map fst) in Dx. auto.
  - change (resolve cwd (join (rel []) (sub (rel []) x))) with (cwd ++ [x]). unfold is_dir. rewrite Dx. auto.
  - apply (load_folder_raise cwd s _ y); auto.
    + change (resolve cwd (join (rel []) (sub (rel []) x))) with (cwd ++ [x]). apply in_children.
      apply lookup_in in L. apply (in_map fst) in L. simpl in L. rewrite <- app_assoc. auto.
Qed.

(* load_data: a file that does not decode is rebuilt from the folder of the same name, and what is returned is the merge of
   that folder *)
Theorem C67_load_rebuild cwd d stem s : stem <> ""%string ->
  lookup (d ++ [(stem ++ ".json")%string]) s = Some (File CBroken) ->
  unique_paths s -> lookup (d ++ [stem]) s = Some Dir ->
  (forall x y n, lookup (d ++ [stem; x]) s = Some Dir -> is_json y = true -> lookup (d ++ [stem; x; y]) s = Some n -> mergeable n) ->
  exists out s', load_data cwd s [abs (d ++ [(stem ++ ".json")%string])] = FOk ([CList out], s') /\
    merge_json_files cwd (abs (d ++ [stem])) s = FOk s' /\
    lookup (d ++ [(stem ++ ".json")%string]) s' = Some (File (CList out)).
Proof.
  intros N B U D C.
  destruct (C67_merge cwd (d ++ [stem]) s) as [names [out [s' [E [L _]]]]]; auto.
  { intros x y n Lx J Ly. rewrite <- app_assoc in Lx, Ly. exact (C x y n Lx J Ly). }
  { rewrite removelast_last, last_last. congruence. }
  rewrite removelast_last, last_last in L. exists out, s'. split; auto.
  cbn [load_data]. change (resolve cwd (abs (d ++ [(stem ++ ".json")%string]))) with (d ++ [(stem ++ ".json")%string]). rewrite B.
  unfold drop_suffix. change (name (abs (d ++ [(stem ++ ".json")%string]))) with (last (d ++ [(stem ++ ".json")%string]) ""%string).
  rewrite last_last, suffix_json by auto. cbn [absolute parts abs]. rewrite removelast_last.
  change {| absolute := true; parts := d ++ [stem] |} with (abs (d ++ [stem])). rewrite E. cbn [fbind]. rewrite L. reflexivity.
Qed.
(* ... but with a relative file name the empty list is returned, and kept in the file, whatever the folder holds *)
Theorem C67_load_relative cwd ps stem s : stem <> ""%string ->
  lookup (cwd ++ ps ++ [(stem ++ ".json")%string]) s = Some (File CBroken) -> lookup (cwd ++ ps ++ [stem]) s = Some Dir ->
  (forall x, lookup (cwd ++ (ps ++ [stem]) ++ (ps ++ [stem]) ++ [x]) s <> Some Dir) ->
  exists s', load_data cwd s [rel (ps ++ [(stem ++ ".json")%string])] = FOk ([CList []], s') /\
    lookup (cwd ++ ps ++ [(stem ++ ".json")%string]) s' = Some (File (CList [])).
Proof.
  intros N B D NO.
  destruct (C67_merge_relative merge_datasets cwd (ps ++ [stem]) s) as [s' [E [L _]]]; auto.
  { destruct ps; discriminate. }
  { rewrite app_assoc, removelast_last, last_last, <- app_assoc. congruence. }
  rewrite app_assoc, removelast_last, last_last, <- app_assoc in L. exists s'. split; auto.
  cbn [load_data]. change (resolve cwd (rel (ps ++ [(stem ++ ".json")%string]))) with (cwd ++ ps ++ [(stem ++ ".json")%string]). rewrite B.
  unfold drop_suffix. change (name (rel (ps ++ [(stem ++ ".json")%string]))) with (last (ps ++ [(stem ++ ".json")%string]) ""%string).
  rewrite last_last, suffix_json by auto. cbn [absolute parts rel]. rewrite removelast_last.
  change {| absolute := false; parts := ps ++ [stem] |} with (rel (ps ++ [stem])). unfold merge_json_files. rewrite E. cbn [fbind].
  rewrite L. reflexivity.
Qed.

Definition res1 : dict := sample_result 10 9 8.
Definition res2 : dict := sample_result 20 15 20.
Local Open Scope string_scope.
Definition sample_fs : fs :=
  [([], Dir); (["d"], Dir); (["d"; "code"], Dir); (["d"; "code"; "a"], Dir); (["d"; "code"; "a"; "id_0.json"], File (CDict res1));
   (["d"; "code"; "a"; "id_1.json"], File CBroken); (["d"; "code"; "a"; "id_2.json"], File (CDict res2));
   (["d"; "code"; "a"; "notes.txt"], File CBroken);
   (["d"; "code"; "b"], Dir); (["d"; "code"; "b"; "id_0.json"], File (CDict res2)); (["d"; "code"; "empty"], Dir);
   (["d"; "code.json"], File CBroken)].
Lemma sample_usable r x z : (0 < r)%Z -> usable (sample_result r x z).
Proof.
  intros P. split; [exists 2%Z; split; [reflexivity|lia]|]. split; [exists r; split; [reflexivity|auto]|].
  split; eexists; reflexivity.
Qed.
Lemma sample_ok : unique_paths sample_fs /\ is_tree sample_fs /\
  (forall x y n, lookup ["d"; "code"; x] sample_fs = Some Dir -> is_json y = true -> lookup ["d"; "code"; x; y] sample_fs = Some n -> mergeable n).
Proof.
  split; [|split].
  - unfold unique_paths, sample_fs. simpl. repeat constructor; simpl; intuition discriminate.
  - intros q x n L. apply lookup_in in L. unfold sample_fs in L. simpl in L.
    repeat (destruct L as [E|L]; [injection E as E _; destruct q as [|? [|? [|? [|? [|? ?]]]]]; try discriminate E;
      (injection E; intros; subst; reflexivity) || (destruct q; discriminate E)|]); contradiction.
  - intros x y n _ J L. apply lookup_in in L. unfold sample_fs in L. simpl in L.
    repeat (destruct L as [E|L]; [try discriminate E; injection E as <- <- <-; try discriminate J;
      (left; reflexivity) || (right; eexists; split; [reflexivity|apply sample_usable; lia])|]); contradiction.
Qed.
(* the hypotheses of the theorems hold of this file system: two results and a broken file in one folder, one in another *)
Example C67_nonvacuous : exists out s', merge_json_files ["elsewhere"] (abs ["d"; "code"]) sample_fs = FOk s' /\
  lookup ["d"; "code.json"] s' = Some (File (CList out)) /\
  total "nr_runs" out = 50%Z /\ map (get "nr_runs") out = [Some (VZ 30); Some (VZ 20)] /\
  exists s'', merge_json_files ["d"] (rel ["code"]) sample_fs = FOk s'' /\ lookup ["d"; "code.json"] s'' = Some (File (CList [])).
Proof.
  eexists. eexists. split; [reflexivity|]. split; [reflexivity|]. split; [reflexivity|]. split; [reflexivity|].
  eexists. split; reflexivity.
Qed.
Example C67_nonvacuous_use : exists out s', load_data [] sample_fs [abs ["d"; "code.json"]] = FOk ([CList out], s') /\ total "nr_runs" out = 50%Z.
Proof.
  destruct sample_ok as [U [T C]].
  destruct (C67_load_rebuild [] ["d"] "code" sample_fs) as [out [s' [E [M L]]]]; auto; try discriminate; try reflexivity.
  destruct (C67_merge_conserves [] ["d"; "code"] sample_fs) as [out' [s'' [E' [L' K]]]]; auto; try reflexivity; try discriminate.
  change (["d"] ++ ["code"])%list with ["d"; "code"] in M. rewrite M in E'. injection E' as <-.
  assert (out = out'). { simpl in L, L'. congruence. } subst out'. exists out, s'. split; auto. rewrite K by (simpl; auto). reflexivity.
Qed.
Print Assumptions C67_merge.
Print Assumptions C67_merge_conserves.
Print Assumptions C67_merge_relative.
