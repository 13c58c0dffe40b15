(** * PropUfh: the forest of TreeNode (C26) and the heuristic decoder UFHeuristic (C30, C32) *)
From Verif Require Export PropUf UfhProofs4.

(** ** C26.  After any sequence of unions of vertices 0..n+m-1 (the n bits and m checks): Find ends; it returns a vertex without parent that
    is reached by following parent links; two vertices have the same root iff they are linked by the pairs united so far; a root stores the
    number of vertices and, in some order and without repetition, the check vertices of its tree; the children lists are the inverse of the
    parent links. *)
Theorem C26_forest : forall n m ops, (forall v w, In (v, w) ops -> v < n + m /\ w < n + m) ->
  let f := fold_left (fun f e => Union n f (fst e) (snd e)) ops (initForest n m) in
  forall v, v < n + m ->
    findOpt f v = Some (Find f v) /\ Find f v < n + m /\ t_parent (nd f (Find f v)) = None /\ (exists k, path f v (Find f v) k) /\
    (forall w, w < n + m -> (Find f v = Find f w <-> clos_refl_sym_trans nat (fun a b => In (a, b) ops) v w)) /\
    (t_parent (nd f v) = None ->
       Find f v = v /\ t_size (nd f v) = length (filter (fun w => Find f w =? v) (seq 0 (n + m))) /\
       Permutation (t_checks (nd f v)) (filter (fun w => (n <=? w) && (Find f w =? v)) (seq 0 (n + m)))) /\
    (forall c, In c (t_children (nd f v)) <-> c < n + m /\ t_parent (nd f c) = Some v) /\ NoDup (t_children (nd f v)).
Proof. intros n m ops Ho f v Hv. set (N := n + m) in *.
  destruct (run_ok n N ops [] (initForest n m) (fun v => v) (init_ok n N m eq_refl) Ho) as (rho & F & J).
  { intros a b []. } { intros a b _ _. split; [intros ->; apply rst_refl|]. intros K. induction K as [x y []| | |]; congruence. }
  change (runUnions n (initForest n m) ops) with f in F. assert (Ef : forall w, w < N -> Find f w = rho w) by (intros w Hw; apply (Find_ok n N f rho w F Hw)).
  destruct (rho_root n N f rho v F Hv) as (R1 & R2 & R3). assert (F' := F). destruct F' as (L & F2 & F3 & F4 & F5 & F6).
  rewrite (Ef v Hv). split; [apply (findOpt_ok n N f rho v F Hv)|]. split; auto. split; auto. split; [destruct (F2 v Hv) as (_ & k & P & _); eauto|].
  split; [intros w Hw; rewrite (Ef w Hw); apply (J v w Hv Hw)|]. split; [|split; [intros c; apply F4; auto|apply F5; auto]].
  intros Hr. destruct (F3 v Hv Hr) as [S1 S2]. split; [apply (root_rho n N f rho v F Hv Hr)|].
  assert (Efl : forall p : nat -> bool, filter (fun w => p w && (Find f w =? v)) (seq 0 N) = filter (fun w => p w && (rho w =? v)) (seq 0 N)).
  { intros p. apply filter_ext_in. intros w Hw. apply in_seq in Hw. rewrite Ef by lia. auto. }
  rewrite Efl. split; auto. rewrite S1. f_equal. symmetry. apply (Efl (fun _ => true)). Qed.
Print Assumptions C26_forest.
(** a union joins the tree of fewer vertices to the other one *)
Theorem C26_union_by_size : forall n m ops v w, (forall v w, In (v, w) ops -> v < n + m /\ w < n + m) -> v < n + m -> w < n + m ->
  let f := fold_left (fun f e => Union n f (fst e) (snd e)) ops (initForest n m) in
  Find f v <> Find f w -> t_size (nd f (Find f v)) < t_size (nd f (Find f w)) ->
  Find (Union n f v w) v = Find f w /\ Find (Union n f v w) w = Find f w /\ t_size (nd (Union n f v w) (Find f w)) = t_size (nd f (Find f v)) + t_size (nd f (Find f w)).
Proof. intros n m ops v w Ho Hv Hw f D S. set (N := n + m) in *.
  destruct (run_ok n N ops [] (initForest n m) (fun v => v) (init_ok n N m eq_refl) Ho) as (rho & F & J).
  { intros a b []. } { intros a b _ _. split; [intros ->; apply rst_refl|]. intros K. induction K as [x y []| | |]; congruence. }
  change (runUnions n (initForest n m) ops) with f in F. rewrite !(Find_ok n N f rho) in * by auto. assert (L : length f = N) by apply F.
  destruct (rho_root n N f rho v F Hv) as (_ & _ & R3). destruct (rho_root n N f rho w F Hw) as (_ & Rw & R4).
  destruct (union_ok n N f rho v w F Hv Hw) as [[E _]|(a & b & _ & Dab & E & F1)]; [tauto|]. destruct Dab as [(-> & -> & _)|(-> & -> & K)]; [|lia].
  rewrite !(Find_ok n N _ _ _ F1) by auto. unfold moved. rewrite Nat.eqb_refl. destruct (Nat.eqb_spec (rho w) (rho v)); [congruence|]. split; auto. split; auto.
  rewrite E, (add_nd n N f _ _ _ L R3 R4 D). destruct (Nat.eqb_spec (rho w) (rho v)); [congruence|]. rewrite Nat.eqb_refl. cbn [t_size]. lia. Qed.
Print Assumptions C26_union_by_size.
Example C26_nonvacuous : let f := fold_left (fun f e => Union 5 f (fst e) (snd e)) [(0,5);(1,6);(1,5);(3,8);(6,0)] (initForest 5 4) in
  map (Find f) (seq 0 9) = [5;5;2;8;4;5;5;7;8] /\ t_size (nd f 5) = 4 /\ t_checks (nd f 5) = [5;6] /\ t_parent (nd f 1) = Some 6 /\ t_parent (nd f 6) = Some 5.
Proof. repeat split; reflexivity. Qed.

(** ** C32.  Decoding with UFHeuristic: for every matrix and every syndrome whose flagged checks contain a qubit, every growth policy but
    SingleQubitRandom, every order in which the sets are iterated and every random choice, a reset decoder returns; the estimate is a set of
    qubits, and no flagged check contains two of them. *)
Theorem C32_decode_returns : forall n H g ch fuel s, wf n H -> H <> [] -> 0 < n ->
  (forall k l, Permutation l (ch_C ch k l)) -> (forall k l, Permutation l (ch_B ch k l)) -> (forall l, Permutation l (ch_E ch l)) ->
  g <> SingleQubitRandom -> length s = length H -> n + length H <= fuel ->
  (forall c, nth c s false = true -> exists i, nth i (nth c H []) false = true) ->
  exists f l, doDecoding fuel g ch n H (initForest n (length H)) s = Finished (f, l, supp_vec n l) /\ NoDup l /\ Forall (fun i => i < n) l /\
    forall c i j, nth c s false = true -> In i l -> In j l -> nth i (nth c H []) false = true -> nth j (nth c H []) false = true -> i = j.
Proof. intros n H g ch fuel s HH Hne Hn PC PB PE Hg Ls Hf Hz. apply (decode_fresh n H HH Hne Hn g ch fuel s); auto. split; [exact PC|]. split; [exact PB|exact PE]. Qed.
Print Assumptions C32_decode_returns.
Lemma dot_none : forall r v : vec, (forall i, nth i r false && nth i v false = false) -> dot r v = false.
Proof. induction r as [|a r IHr]; intros v K; [reflexivity|]. destruct v as [|b v]; [reflexivity|]. simpl. rewrite (IHr v) by (intros i; apply (K (S i))). specialize (K 0). simpl in K. now rewrite K. Qed.
Lemma dot_one : forall (r v : vec) i, nth i r false && nth i v false = true -> (forall j, nth j r false && nth j v false = true -> j = i) -> dot r v = true.
Proof. induction r as [|a r IHr]; intros v i K U; [destruct i; discriminate|]. destruct v as [|b v]; [destruct i; rewrite ?andb_false_r in K; discriminate|]. simpl. destruct i as [|i].
  - simpl in K. rewrite K. rewrite (dot_none r v); auto. intros j. destruct (nth j r false && nth j v false) eqn:E; auto. specialize (U (S j) E). discriminate.
  - assert (E0 : a && b = false) by (destruct (a && b) eqn:E; auto; specialize (U 0 E); discriminate). rewrite E0. rewrite (IHr v i); auto. intros j Ej. specialize (U (S j) Ej). lia. Qed.
Lemma nth_supp n l i : nth i (supp_vec n l) false = (i <? n) && smem i l.
Proof. unfold supp_vec. destruct (Nat.ltb_spec i n).
  - rewrite (nth_indep _ false ((fun i => existsb (Nat.eqb i) l) 0)) by (now rewrite map_length, seq_length). rewrite (map_nth (fun i => existsb (Nat.eqb i) l)). rewrite seq_nth by auto. reflexivity.
  - rewrite nth_overflow; auto. now rewrite map_length, seq_length. Qed.
(** so the syndrome of the estimate is the given one exactly when the estimate touches every flagged check and no other *)
Theorem C32_syndrome_iff : forall n H g ch fuel s, wf n H -> H <> [] -> 0 < n ->
  (forall k l, Permutation l (ch_C ch k l)) -> (forall k l, Permutation l (ch_B ch k l)) -> (forall l, Permutation l (ch_E ch l)) ->
  g <> SingleQubitRandom -> length s = length H -> n + length H <= fuel ->
  (forall c, nth c s false = true -> exists i, nth i (nth c H []) false = true) ->
  exists f l, doDecoding fuel g ch n H (initForest n (length H)) s = Finished (f, l, supp_vec n l) /\
    forall c, nth c s false = true -> (nth c (mulMV H (supp_vec n l)) false = true <-> exists i, In i l /\ nth i (nth c H []) false = true).
Proof. intros n H g ch fuel s HH Hne Hn PC PB PE Hg Ls Hf Hz.
  destruct (C32_decode_returns n H g ch fuel s HH Hne Hn PC PB PE Hg Ls Hf Hz) as (f & l & E & ND & Fl & U). exists f, l. split; auto. intros c Hc.
  destruct (Hz c Hc) as (i0 & Hi0). assert (Hcl : c < length H). { destruct (Nat.lt_ge_cases c (length H)); auto. rewrite (nth_overflow H) in Hi0 by auto. destruct i0; discriminate. }
  assert (Lr : length (nth c H []) = n) by (unfold wf in HH; rewrite Forall_forall in HH; apply HH, nth_In; auto).
  unfold mulMV. rewrite (nth_indep _ false ((fun r => dot r (supp_vec n l)) [])) by (rewrite map_length; auto). rewrite (map_nth (fun r => dot r (supp_vec n l))).
  specialize (fun i j => U c i j Hc). set (r := nth c H []) in *. clearbody r. rewrite Forall_forall in Fl. split.
  - intros D. destruct (existsb (fun i => nth i r false) l) eqn:Ex; [apply existsb_exists in Ex; auto|]. exfalso.
    rewrite dot_none in D; [discriminate|]. intros i. rewrite nth_supp. destruct (nth i r false) eqn:E1; auto. simpl. apply andb_false_iff. right. apply smem_false. intros Hi.
    assert (existsb (fun i => nth i r false) l = true) by (apply existsb_exists; eauto). congruence.
  - intros (i & Hi & Er). apply (dot_one r _ i).
    + rewrite Er, nth_supp. rewrite (proj2 (smem_In i l) Hi). rewrite (proj2 (Nat.ltb_lt i n) (Fl i Hi)). reflexivity.
    + intros j Kj. apply andb_true_iff in Kj as [K1 K2]. rewrite nth_supp in K2. apply andb_true_iff in K2 as [_ K2]. apply (U j i); auto. apply smem_In; auto. Qed.
Print Assumptions C32_syndrome_iff.
Definition idch : choices := mkCh (fun _ l => l) (fun _ l => l) (fun _ => 0) (fun l => l).
Definition rvch : choices := mkCh (fun _ => @rev nat) (fun _ => @rev nat) (fun _ => 0) (@rev nat).
(** the syndrome of every single error of the Hamming code is reproduced *)
Example C32_nonvacuous : forall i, i < 7 -> exists f l v, doDecoding 10 AllComponents idch 7 hamming7 (initForest 7 3) (mulMV hamming7 (unitv 7 i)) = Finished (f, l, v) /\
  mulMV hamming7 v = mulMV hamming7 (unitv 7 i).
Proof. intros i Hi. do 7 (destruct i as [|i]; [eexists; eexists; eexists; split; [vm_compute; reflexivity|]; vm_compute; reflexivity|]). lia. Qed.

(** the estimate need not have the syndrome it was computed from: two errors, with the policy AllComponents *)
Theorem C32_decode_syndrome_refuted : exists n H e f l v, wf n H /\ length e = n /\ (forall r, In r H -> exists i, nth i r false = true) /\
  doDecoding (n + length H) AllComponents idch n H (initForest n (length H)) (mulMV H e) = Finished (f, l, v) /\ mulMV H v <> mulMV H e.
Proof. exists 2, [bb [1;0]; bb [1;1]], (bb [1;1]). eexists. eexists. eexists. split; [repeat constructor|]. split; [reflexivity|].
  split; [intros r [<-|[<-|[]]]; exists 0; reflexivity|]. split; [vm_compute; reflexivity|]. vm_compute. discriminate. Qed.
Print Assumptions C32_decode_syndrome_refuted.
(** nor need it touch every flagged check: the policies SingleSmallest and SingleRandom, a single error of the Hamming code *)
Theorem C32_flagged_untouched_refuted : exists n H e f l v c, wf n H /\ (exists i, e = unitv n i) /\
  doDecoding (n + length H) SingleRandom idch n H (initForest n (length H)) (mulMV H e) = Finished (f, l, v) /\
  nth c (mulMV H e) false = true /\ forall i, In i l -> nth i (nth c H []) false = false.
Proof. exists 7, hamming7, (unitv 7 2). eexists. eexists. eexists. exists 1. split; [repeat constructor|]. split; [exists 2; reflexivity|].
  split; [vm_compute; reflexivity|]. split; [reflexivity|]. intros i [<-|[]]; reflexivity. Qed.
Print Assumptions C32_flagged_untouched_refuted.
(** the answer depends on the order in which the sets are iterated: one order reproduces the syndrome of a single error, another does not *)
Theorem C32_order_dependent_refuted : exists n H e f l v f' l' v', wf n H /\ (exists i, e = unitv n i) /\
  doDecoding (n + length H) AllComponents idch n H (initForest n (length H)) (mulMV H e) = Finished (f, l, v) /\ mulMV H v <> mulMV H e /\
  doDecoding (n + length H) AllComponents rvch n H (initForest n (length H)) (mulMV H e) = Finished (f', l', v') /\ v' = e.
Proof. exists 5, rep5, (unitv 5 1). do 6 eexists. split; [repeat constructor|]. split; [exists 1; reflexivity|].
  split; [vm_compute; reflexivity|]. split; [vm_compute; discriminate|]. split; [vm_compute; reflexivity|]. vm_compute; reflexivity. Qed.
Print Assumptions C32_order_dependent_refuted.
(** a decoder that is used again without reset does not answer like a fresh one: the second decoding of a single error of the Hamming code
    returns an estimate of another syndrome *)
Theorem C32_reuse_refuted : exists n H e f l v f' l' v', wf n H /\ (exists i, e = unitv n i) /\
  doDecoding (n + length H) AllComponents idch n H (initForest n (length H)) (mulMV H e) = Finished (f, l, v) /\ v = e /\
  doDecoding (n + length H) AllComponents idch n H f (mulMV H e) = Finished (f', l', v') /\ mulMV H v' <> mulMV H e.
Proof. exists 7, hamming7, (unitv 7 0). do 6 eexists. split; [repeat constructor|]. split; [exists 0; reflexivity|].
  split; [vm_compute; reflexivity|]. split; [vm_compute; reflexivity|]. split; [vm_compute; reflexivity|]. vm_compute. discriminate. Qed.
Print Assumptions C32_reuse_refuted.
(** a flagged check without qubits (possible when hX and hZ differ, see C30): the decoder never returns *)
Theorem C32_empty_check_refuted : exists n H s, wf n H /\ length s = length H /\ forall fuel g ch, g <> SingleQubitRandom ->
  (forall k l, Permutation l (ch_C ch k l)) -> (forall k l, Permutation l (ch_B ch k l)) ->
  doDecoding fuel g ch n H (initForest n (length H)) s = Running.
Proof. exists 1, [[false]], [true]. split; [repeat constructor|]. split; [reflexivity|]. intros fuel g ch Hg PC PB. unfold doDecoding.
  change (syndrome_nodes 1 [true]) with [1]. cbv iota. destruct fuel as [|fuel]; [reflexivity|]. cbn [turns].
  change (length [1] <? length [[false]] + length (hd [] [[false]])) with true. cbv iota. unfold turn.
  assert (EC : forall k, ch_C ch k [1] = [1]) by (intros k; apply Permutation_length_1_inv, PC).
  assert (EB : forall k, ch_B ch k [1] = [1]) by (intros k; apply Permutation_length_1_inv, PB).
  set (f0 := initForest 1 (length [[false]])). assert (Eb : t_boundary (nd f0 1) = [1]) by reflexivity.
  assert (E : growTurn g [[false]] (ch_C ch (S fuel)) (ch_B ch (S fuel)) (ch_r ch (S fuel)) f0 [1] [] = Ok ([], [1], [1])).
  { destruct g; cbn [growTurn sinserts fold_right]; unfold growEdges; rewrite ?EC; cbn [flat_map]; [| | | |congruence].
    - rewrite Eb, EB. reflexivity.
    - rewrite Eb, EB. reflexivity.
    - replace (smallestComp f0 (hd 0 [1]) None [1]) with 1 by reflexivity. rewrite Eb, EB. reflexivity.
    - replace (nth (ch_r ch (S fuel) mod length [1]) [1] 0) with 1 by (rewrite Nat.mod_1_r; reflexivity). rewrite Eb, EB. reflexivity. }
  match goal with |- context [growTurn ?a ?b ?c ?d ?e ?ff ?g0 ?h] => replace (growTurn a b c d e ff g0 h) with (@Ok (list (nat*nat) * list nat * list nat) ([], [1], [1])) by (symmetry; exact E) end.
  reflexivity. Qed.
Print Assumptions C32_empty_check_refuted.

(** ** C30 for the heuristic decoder: both halves of a syndrome are decoded with the one matrix the decoder keeps as hZ, and the estimate of the
    second half comes first *)
Theorem C30_heuristic_two_sided : forall n hx hz sx sz g ch ch2 fuel, wf n hz -> hz <> [] -> wf n hx -> hx <> [] -> length sx = length sz -> length hx < length sx + length sz ->
  forall fx lx vx fz lz vz,
  doDecoding fuel g ch n hx (initForest n (length hx)) sx = Finished (fx, lx, vx) -> doDecoding fuel AllComponents ch2 n hx (initForest n (length hx)) sz = Finished (fz, lz, vz) ->
  ufhDecode fuel g ch ch2 (decoderSetCode (codeXZ hx hz)) (sx ++ sz) = Finished (lz ++ lx, vz ++ vx).
Proof. intros n hx hz sx sz g ch ch2 fuel Wz Nz Wx Nx Hl Hlen fx lx vx fz lz vz Ex Ez. unfold ufhDecode. cbn [decoderSetCode codeXZ c_hX c_hZ c_n].
  rewrite ?(hd_length n hz Wz Nz), ?(hd_length n hx Wx Nx). rewrite app_length. destruct (Nat.ltb_spec (length hx) (length sx + length sz)); [|lia].
  rewrite <- Hl. replace ((length sx + length sx) / 2) with (length sx) by (replace (length sx + length sx) with (length sx * 2) by lia; now rewrite Nat.div_mul).
  assert (E1 : firstn (length sx) (sx ++ sz) = sx) by (rewrite firstn_app, firstn_all, Nat.sub_diag; cbn [firstn]; apply app_nil_r).
  assert (E2 : skipn (length sx) (sx ++ sz) = sz) by (rewrite skipn_app, skipn_all, Nat.sub_diag; reflexivity).
  rewrite E1, E2, Ex. now rewrite Ez. Qed.
Print Assumptions C30_heuristic_two_sided.
Example C30_heuristic_nonvacuous : ufhDecode 20 AllComponents idch idch (decoderSetCode (codeXZ hamming7 hamming7)) (bb [1;0;0;0;1;0]) = Finished ([1;0], bb [0;1;0;0;0;0;0; 1;0;0;0;0;0;0]).
Proof. vm_compute. reflexivity. Qed.
