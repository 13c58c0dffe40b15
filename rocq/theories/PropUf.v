(** * PropUf: the union-find decoder UFDecoder (C27-C30) *)
From Verif Require Export UfProofs3.

Definition bb (l : list nat) : vec := map (fun x => x =? 1) l.

(** ** C27.  The traversal always ends; each component consists of given nodes, without repetition, and is connected through its own nodes;
    every given node is in a component or next to a node of one. *)
Theorem C27_components_connected : forall n H nodes, wf n H -> H <> [] -> 0 < n -> StronglySorted lt nodes ->
  comps_from (comp_fuel nodes) H nodes nodes [] = Some (getConnectedComps H nodes) /\
  (forall C, In C (getConnectedComps H nodes) ->
     C <> [] /\ NoDup C /\ incl C nodes /\ forall x y, In x C -> In y C -> walk n H C x y) /\
  (forall x, In x nodes -> exists C, In C (getConnectedComps H nodes) /\ (In x C \/ exists y, In y C /\ edge n H y x)).
Proof. intros n H nodes HH Hne Hn Hs. split; [apply (comps_some n H HH Hne Hn); auto|]. destruct (comps_ok n H HH Hne Hn nodes Hs) as [K1 K2]. split.
  - intros C HC. destruct (K1 C HC) as (A & B & I & W). repeat split; auto. apply asc_NoDup; auto.
  - exact K2. Qed.
Print Assumptions C27_components_connected.

(** the components need not cover the nodes: the queue is read at one end and popped at the other *)
Theorem C27_components_cover_refuted : exists n H nodes x, wf n H /\ H <> [] /\ 0 < n /\ StronglySorted lt nodes /\
  In x nodes /\ forall C, In C (getConnectedComps H nodes) -> ~ In x C.
Proof. exists 1, [[true];[true]], [0;1;2], 1. split; [repeat constructor|]. split; [discriminate|]. split; [lia|]. split; [repeat constructor|].
  split; [right; left; auto|]. assert (E : getConnectedComps [[true];[true]] [0;1;2] = [[0;2]]) by reflexivity. rewrite E.
  intros C [<-|[]] [?|[?|[]]]; discriminate. Qed.
Print Assumptions C27_components_cover_refuted.
(** nor need they be disjoint *)
Theorem C27_components_disjoint_refuted : exists n H nodes C D x, wf n H /\ H <> [] /\ 0 < n /\ StronglySorted lt nodes /\
  getConnectedComps H nodes = [C; D] /\ C <> D /\ In x C /\ In x D.
Proof. exists 3, [bb [1;1;0]; bb [0;0;1]; bb [1;0;0]], [0;1;3;5], [0;5], [0;1;3;5], 0. split; [repeat constructor|]. split; [discriminate|].
  split; [lia|]. split; [repeat constructor|]. split; [reflexivity|]. split; [discriminate|]. simpl; auto. Qed.
Print Assumptions C27_components_disjoint_refuted.
Example C27_nonvacuous : getConnectedComps [bb [1;1;0;0]; bb [0;1;1;0]; bb [0;0;0;1]] [1;3;5;6] = [[1;5]; [3;6]].
Proof. reflexivity. Qed.

(** ** C28.  With the syndrome of an error, the estimate of each component of a node set (whose bits lie in a check) is computed without error;
    if the component has a bit all of whose checks are in it, the estimate satisfies every check in the component or adjacent to one of its
    bits; otherwise it is empty. *)
Theorem C28_component_estimate : forall n H e nodes C, wf n H -> H <> [] -> 0 < n -> length e = n -> StronglySorted lt nodes ->
  (forall x, In x nodes -> x < n + length H) ->
  (forall i, In i nodes -> i < n -> exists c, edge n H i c) ->
  In C (getConnectedComps H nodes) ->
  exists est, getEstimateForComponent n H H C (syndrome_nodes n (mulMV H e)) = Ok est /\ NoDup est /\ Forall (fun i => i < n) est /\
    ((exists b, In b C /\ b < n /\ forall c, edge n H b c -> In c C) ->
     forall c, c < length H -> (In (n + c) C \/ exists b, In b C /\ edge n H b (n + c)) ->
       dot (nth c H []) (supp_vec n est) = dot (nth c H []) e) /\
    (~ (exists b, In b C /\ b < n /\ forall c, edge n H b c -> In c C) -> est = []).
Proof. intros n H e nodes C HH Hne Hn He Hs Hb Hbit HC.
  destruct (comp_est n H HH Hne Hn (mulMV H e) e He eq_refl nodes C (conj Hs (conj Hb Hbit)) HC) as (est & E & A & F & K1 & K2).
  exists est. split; auto. split; [apply asc_NoDup; auto|]. split; auto. split.
  - intros (b & B1 & B2 & B3) c Hc Ht. rewrite K2; [|intros E0|split; auto].
    + unfold mulMV. rewrite (nth_indep _ false ((fun r => dot r e) [])) by (rewrite map_length; auto). now rewrite (map_nth (fun r => dot r e)).
    + assert (Hi : In b (computeInteriorBitNodes n H C)) by (apply (interior_In n H HH Hne Hn); auto). rewrite E0 in Hi. destruct Hi.
  - intros Hno. apply K1. destruct (computeInteriorBitNodes n H C) as [|b B] eqn:E0; auto. exfalso. apply Hno. exists b.
    apply (interior_In n H HH Hne Hn). rewrite E0. left; auto. Qed.
Print Assumptions C28_component_estimate.
Definition rep5 : mat := [bb [1;1;0;0;0]; bb [0;1;1;0;0]; bb [0;0;1;1;0]; bb [0;0;0;1;1]].
Example C28_nonvacuous : getConnectedComps rep5 [0;1;5;6] = [[0;1;5;6]] /\
  getEstimateForComponent 5 rep5 rep5 [0;1;5;6] (syndrome_nodes 5 (mulMV rep5 (bb [1;0;0;0;0]))) = Ok [0].
Proof. split; reflexivity. Qed.

(** the syndrome of any error: decoding does not throw, with any policy but SingleQubitRandom; the estimate is a set of qubits *)
Theorem C28_decode_no_exception : forall n H e g rnd fuel, wf n H -> H <> [] -> 0 < n -> length e = n -> g <> SingleQubitRandom ->
  doDecode fuel g rnd n H H (mulMV H e) = Running \/
  exists l, doDecode fuel g rnd n H H (mulMV H e) = Finished (l, supp_vec n l) /\ NoDup l /\ Forall (fun i => i < n) l.
Proof. intros n H e g rnd fuel HH Hne Hn He Hg. destruct (decode_ok n H HH Hne Hn (mulMV H e) e He eq_refl g rnd fuel Hg) as [?|(l & E & A & F)]; auto.
  right. exists l. split; auto. split; auto. apply asc_NoDup; auto. Qed.
Print Assumptions C28_decode_no_exception.
(** no syndrome, no correction *)
Theorem C28_zero_syndrome : forall n H e g rnd fuel, wf n H -> H <> [] -> 0 < n -> length e = n -> mulMV H e = vzero (length H) ->
  doDecode fuel g rnd n H H (mulMV H e) = Finished ([], vzero n).
Proof. intros n H e g rnd fuel HH Hne Hn He Hz. rewrite (decode_zero n H Hn (mulMV H e) g rnd fuel).
  - do 2 f_equal. unfold supp_vec, vzero. clear. generalize 0. induction n as [|n IHn]; intros a; simpl; f_equal; auto.
  - rewrite Hz. intros K. apply repeat_spec in K. discriminate. Qed.
Print Assumptions C28_zero_syndrome.
(** when the growth ends in one component that reaches every check, the correction reproduces the syndrome *)
Theorem C28_decode_single_component : forall n H e g rnd fuel A C l v, wf n H -> H <> [] -> 0 < n -> length e = n -> g <> SingleQubitRandom ->
  grow_loop fuel g rnd n H H (syndrome_nodes n (mulMV H e)) (syndrome_nodes n (mulMV H e)) = Finished A -> getConnectedComps H A = [C] ->
  (exists b, In b C /\ b < n /\ forall c, edge n H b c -> In c C) ->
  (forall c, c < length H -> In (n + c) C \/ exists b, In b C /\ edge n H b (n + c)) ->
  doDecode fuel g rnd n H H (mulMV H e) = Finished (l, v) -> mulMV H v = mulMV H e.
Proof. intros n H e g rnd fuel A C l v HH Hne Hn He Hg EA EC (b & B1 & B2 & B3) Ht E.
  eapply (decode_single n H HH Hne Hn (mulMV H e) e He eq_refl g rnd fuel A C l v); eauto.
  - intros E0. assert (Hi : In b (computeInteriorBitNodes n H C)) by (apply (interior_In n H HH Hne Hn); auto). rewrite E0 in Hi. destruct Hi.
  - intros c Hc. split; auto. Qed.
Print Assumptions C28_decode_single_component.
Definition hamming7 : mat := [bb [1;0;1;0;1;0;1]; bb [0;1;1;0;0;1;1]; bb [0;0;0;1;1;1;1]].
Definition zr : nat -> nat := fun _ => 0.
(** the hypotheses are met by every single error on the Hamming code *)
Example C28_single_nonvacuous : forallb (fun i =>
  let s := syndrome_nodes 7 (mulMV hamming7 (supp_vec 7 [i])) in
  match grow_loop 20 AllComponents zr 7 hamming7 hamming7 s s with
  | Finished A => match getConnectedComps hamming7 A with
                  | [C] => negb (length (computeInteriorBitNodes 7 hamming7 C) =? 0) &&
                           forallb (fun c => smem (7 + c) C || existsb (fun b => (b <? 7) && nth b (nth c hamming7 []) false) C) [0;1;2]
                  | _ => false end
  | _ => false end &&
  match doDecode 20 AllComponents zr 7 hamming7 hamming7 (mulMV hamming7 (supp_vec 7 [i])) with
  | Finished (_, v) => if list_eq_dec Bool.bool_dec (mulMV hamming7 v) (mulMV hamming7 (supp_vec 7 [i])) then true else false | _ => false end) (seq 0 7) = true.
Proof. vm_compute. reflexivity. Qed.

(** in general the correction does not reproduce the syndrome: a single error on the five-qubit repetition code *)
Theorem C28_decode_syndrome_refuted : exists n H e l v, wf n H /\ H <> [] /\ 0 < n /\ length e = n /\ connected n H /\
  (exists i, e = unitv n i) /\ doDecode (n + length H) AllComponents zr n H H (mulMV H e) = Finished (l, v) /\ mulMV H v <> mulMV H e.
Proof. exists 5, rep5, (unitv 5 4). eexists. eexists. split; [repeat constructor|]. split; [discriminate|]. split; [lia|]. split; [reflexivity|].
  split. { assert (W : forall v, v < 9 -> walk 5 rep5 (seq 0 9) 0 v).
    { assert (Z0 : walk 5 rep5 (seq 0 9) 0 0) by (constructor; simpl; auto).
      assert (st : forall u v i c, walk 5 rep5 (seq 0 9) 0 u -> i < 5 -> c < 4 -> nth i (nth c rep5 []) false = true ->
        ((u = i /\ v = 5 + c) \/ (u = 5 + c /\ v = i)) -> walk 5 rep5 (seq 0 9) 0 v).
      { intros u v i c W Hi Hc E D. eapply walk_step; [exact W|exists i, c; auto|]. apply in_seq. lia. }
      assert (Z5 : walk 5 rep5 (seq 0 9) 0 5) by (apply (st 0 5 0 0); auto; lia).
      assert (Z1 : walk 5 rep5 (seq 0 9) 0 1) by (apply (st 5 1 1 0); auto; lia).
      assert (Z6 : walk 5 rep5 (seq 0 9) 0 6) by (apply (st 1 6 1 1); auto; lia).
      assert (Z2 : walk 5 rep5 (seq 0 9) 0 2) by (apply (st 6 2 2 1); auto; lia).
      assert (Z7 : walk 5 rep5 (seq 0 9) 0 7) by (apply (st 2 7 2 2); auto; lia).
      assert (Z3 : walk 5 rep5 (seq 0 9) 0 3) by (apply (st 7 3 3 2); auto; lia).
      assert (Z8 : walk 5 rep5 (seq 0 9) 0 8) by (apply (st 3 8 3 3); auto; lia).
      assert (Z4 : walk 5 rep5 (seq 0 9) 0 4) by (apply (st 8 4 4 3); auto; lia).
      intros v Hv. do 9 (destruct v as [|v]; [assumption|]). lia. }
    intros u v Hu Hv. apply (walk_trans _ _ _ _ 0); [apply walk_sym|]; apply W; assumption. }
  split; [exists 4; reflexivity|]. split; [vm_compute; reflexivity|]. vm_compute. discriminate. Qed.
Print Assumptions C28_decode_syndrome_refuted.
(** the estimate may use qubits outside the component, and turn a single error of a distance-three code into a logical one *)
Theorem C28_estimate_local_refuted : exists n H e C est, wf n H /\ H <> [] /\ 0 < n /\ (exists i, e = unitv n i) /\
  In C (getConnectedComps H (standardGrowth (length H + n) H (syndrome_nodes n (mulMV H e)))) /\
  getEstimateForComponent n H H C (syndrome_nodes n (mulMV H e)) = Ok est /\ (exists b, In b est /\ ~ In b C) /\
  in_kernel n H (vxor e (supp_vec n est)) /\ vxor e (supp_vec n est) <> vzero n.
Proof. exists 3, [bb [1;1;0]; bb [0;1;1]], (unitv 3 2). eexists. eexists. split; [repeat constructor|]. split; [discriminate|]. split; [lia|].
  split; [exists 2; reflexivity|]. split; [vm_compute; left; reflexivity|]. split; [vm_compute; reflexivity|].
  split; [exists 0; split; [simpl; auto|simpl; intuition discriminate]|]. split; [|vm_compute; discriminate].
  apply in_kernel_mulMV; reflexivity. Qed.
Print Assumptions C28_estimate_local_refuted.

(** ** C29.  Growing never removes a vertex; it only adds neighbours. *)
Theorem C29_growth_monotone : forall n H g r nodes nodes', wf n H -> H <> [] -> 0 < n -> StronglySorted lt nodes ->
  grow g (length H + n) H r nodes = Ok nodes' ->
  StronglySorted lt nodes' /\ incl nodes nodes' /\ forall x, In x nodes' -> In x nodes \/ exists u, edge n H u x.
Proof. intros n H g r A B HH Hne Hn. exact (grow_ok n H HH Hne Hn g r A B). Qed.
Print Assumptions C29_growth_monotone.
(** the all-components step adds every neighbour; it adds nothing exactly when the set is closed under neighbours *)
Theorem C29_all_components_progress : forall n H r nodes, wf n H -> H <> [] -> 0 < n -> StronglySorted lt nodes ->
  (forall x, In x nodes -> x < n + length H) ->
  exists nodes', grow AllComponents (length H + n) H r nodes = Ok nodes' /\
    (forall u v, In u nodes -> edge n H u v -> In v nodes') /\
    ((forall u v, In u nodes -> edge n H u v -> In v nodes) -> nodes' = nodes) /\
    (~ (forall u v, In u nodes -> edge n H u v -> In v nodes) -> length nodes < length nodes').
Proof. intros n H r A HH Hne Hn HA Hb. exists (standardGrowth (length H + n) H A). split; auto. split; [|split].
  - intros u v Hu He. apply (std_nbr n H HH Hne Hn A u v); auto.
  - intros Hc. apply (std_closed n H HH Hne Hn A); auto.
  - intros Hc. destruct (std_progress n H HH Hne Hn A HA Hb); auto. exfalso; auto. Qed.
Print Assumptions C29_all_components_progress.
Example C29_nonvacuous : grow AllComponents 9 rep5 0 [5] = Ok [0;1;5] /\ grow SingleSmallest 9 rep5 0 [1;5;6;8] = Ok [1;3;4;5;6;8].
Proof. split; reflexivity. Qed.
(** with the all-components policy, decoding the syndrome of any error on a connected Tanner graph ends within n + m turns *)
Theorem C29_all_components_terminates : forall n H e rnd fuel, wf n H -> H <> [] -> 0 < n -> length e = n -> connected n H -> n + length H <= fuel ->
  exists l v, doDecode fuel AllComponents rnd n H H (mulMV H e) = Finished (l, v).
Proof. intros n H e rnd fuel HH Hne Hn He Hc Hf. destruct (decode_connected n H HH Hne Hn (mulMV H e) e He eq_refl rnd fuel Hc Hf) as (l & E & _). eauto. Qed.
Print Assumptions C29_all_components_terminates.
(** without connectedness it may run forever *)
Theorem C29_all_components_disconnected_refuted : exists n H e, wf n H /\ H <> [] /\ 0 < n /\ length e = n /\
  forall rnd fuel, doDecode fuel AllComponents rnd n H H (mulMV H e) = Running.
Proof. set (H := [bb [1;1;0]; bb [0;0;1]; bb [1;0;0]]). set (s := syndrome_nodes 3 (mulMV H (bb [1;1;0]))).
  exists 3, H, (bb [1;1;0]). split; [repeat constructor|]. split; [discriminate|]. split; [lia|]. split; [reflexivity|].
  assert (L : forall rnd fuel, grow_loop fuel AllComponents rnd 3 H H s [0;1;3;5] = Running).
  { intros rnd. induction fuel as [|fuel IHf]; [vm_compute; reflexivity|]. transitivity (grow_loop fuel AllComponents rnd 3 H H s [0;1;3;5]); auto. }
  intros rnd fuel. assert (E : grow_loop fuel AllComponents rnd 3 H H s s = Running).
  { destruct fuel as [|[|fuel]]; [vm_compute; reflexivity..|]. transitivity (grow_loop fuel AllComponents rnd 3 H H s [0;1;3;5]); auto. }
  unfold doDecode. fold s. replace (existsb _ s) with false by reflexivity.
  change (match grow_loop fuel AllComponents rnd 3 H H s s with Running => Running | Threw e => Threw e | Finished nodes =>
    match (let* res := estimates 3 H H (getConnectedComps H nodes) s [] in let* v := setBits 3 res in Ok (res, v)) with Ok r => Finished r | Err e => Threw e end end = Running).
  now rewrite E. Qed.
Print Assumptions C29_all_components_disconnected_refuted.
(** the InvalidComponents policy runs forever on every non-zero syndrome of every code *)
Theorem C29_invalid_components_refuted : forall n H s rnd fuel, wf n H -> H <> [] -> 0 < n -> length s = length H -> In true s ->
  doDecode fuel InvalidComponents rnd n H H s = Running.
Proof. intros n H s rnd fuel HH Hne Hn Hs Ht. apply (invalid_runs n H HH Hne Hn); auto. Qed.
Print Assumptions C29_invalid_components_refuted.
(** SingleSmallest can run forever, even on a connected graph *)
Theorem C29_single_smallest_refuted : exists n H e, wf n H /\ H <> [] /\ 0 < n /\ length e = n /\ connected n H /\
  forall rnd fuel, doDecode fuel SingleSmallest rnd n H H (mulMV H e) = Running.
Proof. set (H := [bb [1;1]; bb [0;1]]). set (s := syndrome_nodes 2 (mulMV H (bb [1;1]))).
  exists 2, H, (bb [1;1]). split; [repeat constructor|]. split; [discriminate|]. split; [lia|]. split; [reflexivity|]. split.
  { assert (W : forall v, v < 4 -> walk 2 H (seq 0 4) 0 v).
    { assert (st : forall u v i c, walk 2 H (seq 0 4) 0 u -> i < 2 -> c < 2 -> nth i (nth c H []) false = true ->
        ((u = i /\ v = 2 + c) \/ (u = 2 + c /\ v = i)) -> walk 2 H (seq 0 4) 0 v).
      { intros u v i c W Hi Hc E D. eapply walk_step; [exact W|exists i, c; auto|]. apply in_seq. lia. }
      assert (Z0 : walk 2 H (seq 0 4) 0 0) by (constructor; simpl; auto).
      assert (Z2 : walk 2 H (seq 0 4) 0 2) by (apply (st 0 2 0 0); auto; lia).
      assert (Z1 : walk 2 H (seq 0 4) 0 1) by (apply (st 2 1 1 0); auto; lia).
      assert (Z3 : walk 2 H (seq 0 4) 0 3) by (apply (st 1 3 1 1); auto; lia).
      intros v Hv. do 4 (destruct v as [|v]; [assumption|]). lia. }
    intros u v Hu Hv. apply (walk_trans _ _ _ _ 0); [apply walk_sym|]; apply W; assumption. }
  assert (L : forall rnd fuel, grow_loop fuel SingleSmallest rnd 2 H H s [1;2;3] = Running).
  { intros rnd. induction fuel as [|fuel IHf]; [vm_compute; reflexivity|]. transitivity (grow_loop fuel SingleSmallest rnd 2 H H s [1;2;3]); auto. }
  intros rnd fuel. assert (E : grow_loop fuel SingleSmallest rnd 2 H H s s = Running).
  { destruct fuel as [|[|fuel]]; [vm_compute; reflexivity..|]. transitivity (grow_loop fuel SingleSmallest rnd 2 H H s [1;2;3]); auto. }
  unfold doDecode. fold s. replace (existsb _ s) with false by reflexivity.
  change (match grow_loop fuel SingleSmallest rnd 2 H H s s with Running => Running | Threw e => Threw e | Finished nodes =>
    match (let* res := estimates 2 H H (getConnectedComps H nodes) s [] in let* v := setBits 2 res in Ok (res, v)) with Ok r => Finished r | Err e => Threw e end end = Running).
  now rewrite E. Qed.
Print Assumptions C29_single_smallest_refuted.
(** SingleQubitRandom: the largest value its random number can take makes the first step read past the components *)
Theorem C29_single_qubit_random_refuted : forall n H s rnd fuel, wf n H -> H <> [] -> 0 < n -> length s = length H -> In true s ->
  rnd (S fuel) = length (getConnectedComps H (syndrome_nodes n s)) ->
  doDecode (S fuel) SingleQubitRandom rnd n H H s = Threw NullDeref.
Proof. intros n H s rnd fuel HH Hne Hn. apply (single_qubit_throws n H HH Hne Hn). Qed.
Print Assumptions C29_single_qubit_random_refuted.

(** ** C30.  One-sided codes are decoded with their matrix; of a two-sided code with hX = hZ each half of the syndrome is decoded with it, and
    the answer is the estimate of the second half followed by that of the first. *)
Theorem C30_one_sided : forall n hz s g r1 r2 fuel, wf n hz -> hz <> [] -> length s <= length hz ->
  ufDecode fuel g r1 r2 (decoderSetCode (codeZ hz)) s = doDecode fuel g r1 n hz hz s.
Proof. intros n hz s g r1 r2 fuel Hw Hne Hs. unfold ufDecode. cbn [decoderSetCode codeZ c_hX c_hZ c_n].
  destruct (Nat.ltb_spec (length hz) (length s)); [lia|]. now rewrite (hd_length n hz Hw Hne). Qed.
Print Assumptions C30_one_sided.
Theorem C30_two_sided_same_matrix : forall n h sx sz g r1 r2 fuel lx vx lz vz, wf n h -> h <> [] -> length sx = length h -> length sz = length h ->
  doDecode fuel g r1 n h h sx = Finished (lx, vx) -> doDecode fuel AllComponents r2 n h h sz = Finished (lz, vz) ->
  ufDecode fuel g r1 r2 (decoderSetCode (codeXZ h h)) (sx ++ sz) = Finished (lz ++ lx, vz ++ vx).
Proof. intros n h sx sz g r1 r2 fuel lx vx lz vz Hw Hne Hx Hz Ex Ez. unfold ufDecode. cbn [decoderSetCode codeXZ c_hX c_hZ c_n].
  rewrite (hd_length n h Hw Hne). rewrite app_length, Hx, Hz.
  assert (0 < length h) by (destruct h; [tauto|simpl; lia]). destruct (Nat.ltb_spec (length h) (length h + length h)); [|lia].
  replace ((length h + length h) / 2) with (length h) by (replace (length h + length h) with (length h * 2) by lia; now rewrite Nat.div_mul).
  assert (E1 : firstn (length h) (sx ++ sz) = sx) by (rewrite <- Hx, firstn_app, firstn_all, Nat.sub_diag; cbn [firstn]; apply app_nil_r).
  assert (E2 : skipn (length h) (sx ++ sz) = sz) by (rewrite <- Hx, skipn_app, skipn_all, Nat.sub_diag; reflexivity).
  rewrite E1, E2, Ex. now rewrite Ez. Qed.
Print Assumptions C30_two_sided_same_matrix.
Example C30_nonvacuous : ufDecode 20 AllComponents zr zr (decoderSetCode (codeXZ hamming7 hamming7)) (bb [1;0;0;0;1;0]) = Finished ([1;0], bb [0;1;0;0;0;0;0; 1;0;0;0;0;0;0]).
Proof. vm_compute. reflexivity. Qed.
(** the order is not that of the code's own error vectors (x part first): on the Steane code the error X on qubit 0 is "corrected" by Z on
    qubit 0, which leaves an error that is not a stabilizer *)
Theorem C30_result_order_refuted : exists h e s l v res, codeFromFiles h h = Ok (codeXZ h h) /\ orthogonal h h /\ getXSyndrome (codeXZ h h) e = Ok s /\
  ufDecode 20 AllComponents zr zr (decoderSetCode (codeXZ h h)) s = Finished (l, v) /\
  computeResidualErr e v = Ok res /\ isStabilizer1 (codeXZ h h) res = Ok false /\ e = unitv 14 0 /\ v = unitv 14 7.
Proof. exists hamming7, (unitv 14 0). eexists. eexists. exists (unitv 14 7). eexists. split; [reflexivity|]. split.
  { intros a b Ha Hb. simpl in Ha, Hb. intuition (subst; reflexivity). }
  split; [vm_compute; reflexivity|]. split; [vm_compute; reflexivity|]. split; [vm_compute; reflexivity|]. split; [vm_compute; reflexivity|]. auto. Qed.
Print Assumptions C30_result_order_refuted.
(** setCode exchanges the two matrices of a two-sided code: an X error which the one-sided code of hZ corrects is answered with an estimate
    that does not have its syndrome *)
Theorem C30_setCode_swap_refuted : exists hx hz e s v v' l l', orthogonal hx hz /\ length hx = length hz /\ e = unitv 6 2 /\
  getXSyndrome (codeXZ hx hz) e = Ok s /\
  ufDecode 20 AllComponents zr zr (decoderSetCode (codeZ hz)) s = Finished (l, v) /\ v = e /\
  ufDecode 20 AllComponents zr zr (decoderSetCode (codeXZ hx hz)) s = Finished (l', v') /\ mulMV hz v' <> s.
Proof. exists [bb [1;1;1;1;0;0]; bb [0;0;1;1;1;1]], [bb [1;1;0;0;0;0]; bb [0;0;1;1;1;1]], (unitv 6 2).
  eexists. exists (unitv 6 2). eexists. eexists. eexists. split. { intros a b Ha Hb. simpl in Ha, Hb. intuition (subst; reflexivity). }
  split; [reflexivity|]. split; [reflexivity|]. split; [vm_compute; reflexivity|]. split; [vm_compute; reflexivity|]. split; [reflexivity|].
  split; [vm_compute; reflexivity|]. vm_compute. discriminate. Qed.
Print Assumptions C30_setCode_swap_refuted.
(** matrices with different numbers of rows: a single Z error makes decode throw *)
Theorem C30_row_counts_refuted : exists hx hz e s, orthogonal hx hz /\ e = unitv 8 4 /\ getXSyndrome (codeXZ hx hz) e = Ok s /\
  ufDecode 20 AllComponents zr zr (decoderSetCode (codeXZ hx hz)) s = Threw OutOfRange.
Proof. exists [bb [1;1;1;1]], [bb [1;1;0;0]; bb [0;0;1;1]], (unitv 8 4). eexists. split. { intros a b Ha Hb. simpl in Ha, Hb. intuition (subst; reflexivity). }
  split; [reflexivity|]. split; [vm_compute; reflexivity|]. vm_compute. reflexivity. Qed.
Print Assumptions C30_row_counts_refuted.
