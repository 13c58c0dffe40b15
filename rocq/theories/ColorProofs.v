(** * ColorProofs: the layout built from a list of faces, for arbitrary coordinates. *)
From Verif Require Export ColorModel LightsProofs CssProofs.

Lemma ceqb_eq p q : ceqb p q = true <-> p = q.
Proof. destruct p, q. unfold ceqb. cbn. rewrite andb_true_iff, !Z.eqb_eq. split; [intros [-> ->]; auto|intros H; injection H; auto]. Qed.
Lemma ceqb_refl p : ceqb p p = true.
Proof. now apply ceqb_eq. Qed.
Lemma cmem_In p l : cmem p l = true <-> In p l.
Proof. unfold cmem. rewrite existsb_exists. split; [intros (q & H & E); apply ceqb_eq in E; now subst|intros H; exists p; split; auto; apply ceqb_refl]. Qed.
Lemma coord_dec (p q : coord) : {p = q} + {p <> q}.
Proof. decide equality; apply Z.eq_dec. Defined.
Lemma sadd_new p l : ~ In p l -> sadd p l = l ++ [p].
Proof. intros H. unfold sadd. destruct (cmem p l) eqn:E; auto. apply cmem_In in E. contradiction. Qed.

(** *** dictionary from coordinates to indices *)
Lemma index_from_spec p l : forall i k, index_from i p l = Some k -> i <= k < i + length l /\ nth (k - i) l (0,0)%Z = p.
Proof. induction l as [|q l IH]; intros i k; cbn; [discriminate|]. destruct (ceqb p q) eqn:E.
  - intros H. injection H as <-. apply ceqb_eq in E. rewrite Nat.sub_diag. split; [lia|auto].
  - intros H. apply IH in H. destruct H as [H1 H2]. split; [lia|]. replace (k - i) with (S (k - S i)) by lia. exact H2. Qed.
Lemma index_from_none p l : forall i, index_from i p l = None <-> ~ In p l.
Proof. induction l as [|q l IH]; intros i; cbn; [tauto|]. destruct (ceqb p q) eqn:E.
  - apply ceqb_eq in E. subst. split; [discriminate|tauto].
  - rewrite IH. split; [|tauto]. intros H [H'|H']; auto. subst. rewrite ceqb_refl in E. discriminate. Qed.
Lemma cti_spec data p k : NoDup data -> (coords_to_idx data p = Some k <-> k < length data /\ nth k data (0,0)%Z = p).
Proof. intros ND. unfold coords_to_idx. split.
  - intros H. apply index_from_spec in H. rewrite Nat.sub_0_r in H. intuition lia.
  - intros [H1 H2]. destruct (index_from 0 p data) as [k'|] eqn:E.
    + apply index_from_spec in E. rewrite Nat.sub_0_r in E. f_equal. apply (proj1 (NoDup_nth data (0,0)%Z) ND); try lia. destruct E. congruence.
    + apply index_from_none in E. elim E. rewrite <- H2. now apply nth_In. Qed.

(** *** the layout as a function of the list of faces *)
Definition qbs (data : list coord) (F : list coord) : list nat :=
  flat_map (fun p => match coords_to_idx data p with Some q => [q] | None => [] end) F.
Definition addF (data : list coord) (idx : nat) (F : list coord) (l : layout) : layout :=
  mkLayout (fold_left (fun d q => dappend q idx d) (qbs data F) (lay_q2f l)) (lay_f2q l ++ [(idx, qbs data F)])
    (set_nth idx (fold_left (fun row qb => set_nth qb true row) (qbs data F) (nth idx (lay_H l) [])) (lay_H l)).
Fixpoint addFs (data : list coord) (idx : nat) (Fs : list (list coord)) (l : layout) : layout :=
  match Fs with [] => l | F :: Fs' => addFs data (S idx) Fs' (addF data idx F l) end.

Lemma face_coords_eq data idx cs : forall qb d, face_coords data idx cs qb d = (qb ++ qbs data cs, fold_left (fun d q => dappend q idx d) (qbs data cs) d).
Proof. induction cs as [|c cs IH]; intros qb d; cbn; [now rewrite app_nil_r|]. destruct (coords_to_idx data c) as [q|]; rewrite IH; auto.
  rewrite <- app_assoc. reflexivity. Qed.
Lemma add_faces_eq data nb cs : forall idx l, add_faces data nb idx cs l = addFs data idx (map nb cs) l.
Proof. induction cs as [|c cs IH]; intros idx l; cbn; auto. rewrite IH. f_equal. unfold add_face. rewrite face_coords_eq. reflexivity. Qed.
Lemma addFs_app data Fs Gs : forall idx l, addFs data idx (Fs ++ Gs) l = addFs data (idx + length Fs) Gs (addFs data idx Fs l).
Proof. induction Fs as [|F Fs IH]; intros idx l; cbn; [now rewrite Nat.add_0_r|]. rewrite IH. f_equal. lia. Qed.

Definition frow (data F : list coord) : vec := map (fun p => cmem p F) data.
Definition flayout (data : list coord) (Fs : list (list coord)) : layout := addFs data 0 Fs (layout0 (length Fs) data).

Lemma hex_layout_eq data anc : hex_layout data anc = flayout data (map hex_nb anc).
Proof. unfold hex_layout, flayout. now rewrite add_faces_eq, map_length. Qed.
Lemma so_layout_eq n data sq oct : n = length sq + length oct -> so_layout n data sq oct = flayout data (map sq_nb sq ++ map oct_nb oct).
Proof. intros ->. unfold so_layout, flayout. rewrite !add_faces_eq, addFs_app, app_length, !map_length. reflexivity. Qed.

Lemma In_qbs data F q : NoDup data -> (In q (qbs data F) <-> q < length data /\ In (nth q data (0,0)%Z) F).
Proof. intros ND. unfold qbs. rewrite in_flat_map. split.
  - intros (p & Hp & H). destruct (coords_to_idx data p) as [k|] eqn:E; [|destruct H]. destruct H as [<-|[]]. apply (cti_spec data p k ND) in E. destruct E as [E1 E2]. rewrite E2. auto.
  - intros [H1 H2]. exists (nth q data (0,0)%Z). split; auto. rewrite (proj2 (cti_spec data _ q ND) (conj H1 eq_refl)). now left. Qed.
Lemma NoDup_qbs data F : NoDup data -> NoDup F -> NoDup (qbs data F).
Proof. intros ND. induction F as [|p F IH]; cbn; intros H; [constructor|]. inversion H; subst. destruct (coords_to_idx data p) as [k|] eqn:E; auto.
  cbn. constructor; auto. rewrite (In_qbs data F k ND). apply (cti_spec data p k ND) in E. destruct E as [_ ->]. tauto. Qed.
Lemma qbs_length data F : length (qbs data F) = length (filter (fun p => cmem p data) F).
Proof. induction F as [|p F IH]; cbn; auto. destruct (coords_to_idx data p) as [k|] eqn:E.
  - assert (cmem p data = true). { destruct (cmem p data) eqn:C; auto. assert (N : ~ In p data) by (rewrite <- cmem_In; congruence). apply (index_from_none p data 0) in N. unfold coords_to_idx in E. congruence. }
    rewrite H. cbn. f_equal. exact IH.
  - apply index_from_none in E. assert (cmem p data = false). { destruct (cmem p data) eqn:C; auto. apply cmem_In in C. contradiction. } rewrite H. exact IH. Qed.

Lemma set_all_length qb : forall row : vec, length (fold_left (fun row q => set_nth q true row) qb row) = length row.
Proof. induction qb as [|q qb IH]; intros row; cbn; auto. rewrite IH. apply set_nth_length. Qed.
Lemma set_all_nth qb : forall (row : vec) j, (forall q, In q qb -> q < length row) ->
  nth j (fold_left (fun row q => set_nth q true row) qb row) false = existsb (Nat.eqb j) qb || nth j row false.
Proof. induction qb as [|q qb IH]; intros row j H; cbn; auto. rewrite IH.
  - rewrite nth_set_nth by (apply H; now left). destruct (j =? q); cbn; [now rewrite orb_true_r|reflexivity].
  - intros q' Hq'. rewrite set_nth_length. apply H. now right. Qed.

Lemma row_eq data F : NoDup data -> fold_left (fun row qb => set_nth qb true row) (qbs data F) (vzero (length data)) = frow data F.
Proof. intros ND. apply (vec_ext (length data)).
  - rewrite set_all_length. apply vzero_length.
  - unfold frow. apply map_length.
  - intros j Hj. rewrite set_all_nth by (intros q Hq; apply (In_qbs data F q ND) in Hq; rewrite vzero_length; tauto). rewrite nth_vzero, orb_false_r.
    unfold frow. rewrite (nth_indep (map _ data) false (cmem (0,0)%Z F)) by now rewrite map_length. rewrite (map_nth (fun p => cmem p F)).
    apply eq_true_iff_eq. rewrite existsb_exists, cmem_In. split.
    + intros (q & Hq & E). apply Nat.eqb_eq in E. subst q. now apply (In_qbs data F j ND) in Hq.
    + intros H. exists j. split; [apply (In_qbs data F j ND); auto|apply Nat.eqb_refl]. Qed.

(** *** rows *)
Lemma set_nth_app {A} (a : list A) x y b : set_nth (length a) x (a ++ y :: b) = a ++ x :: b.
Proof. induction a; cbn; auto. now rewrite IHa. Qed.
Lemma addFs_H data Fs : NoDup data -> forall done l, lay_H l = done ++ repeat (vzero (length data)) (length Fs) ->
  lay_H (addFs data (length done) Fs l) = done ++ map (frow data) Fs.
Proof. intros ND. induction Fs as [|F Fs IH]; intros done l HL; cbn [addFs map]; [exact HL|].
  specialize (IH (done ++ [frow data F]) (addF data (length done) F l)). rewrite app_length in IH. cbn [length] in IH. rewrite Nat.add_1_r in IH.
  rewrite IH.
  - now rewrite <- app_assoc.
  - cbn [addF lay_H]. rewrite HL. cbn [length repeat]. rewrite app_nth2, Nat.sub_diag by lia. cbn [nth].
    rewrite set_nth_app, row_eq by auto. now rewrite <- app_assoc. Qed.
Lemma flayout_H data Fs : NoDup data -> lay_H (flayout data Fs) = map (frow data) Fs.
Proof. intros ND. apply (addFs_H data Fs ND []). reflexivity. Qed.

(** *** faces_to_qubits *)
Lemma addFs_f2q data Fs : forall idx l, lay_f2q (addFs data idx Fs l) = lay_f2q l ++ combine (seq idx (length Fs)) (map (qbs data) Fs).
Proof. induction Fs as [|F Fs IH]; intros idx l; cbn; [now rewrite app_nil_r|]. rewrite IH. cbn. now rewrite <- app_assoc. Qed.
Lemma flayout_f2q data Fs : lay_f2q (flayout data Fs) = combine (seq 0 (length Fs)) (map (qbs data) Fs).
Proof. unfold flayout. rewrite addFs_f2q. reflexivity. Qed.

(** *** qubits_to_faces *)
Definition q2f_of (n : nat) (g : nat -> list nat) : list (nat * list nat) := map (fun q => (q, g q)) (seq 0 n).
Lemma dappend_of n g k x : dappend k x (q2f_of n g) = q2f_of n (fun q => if q =? k then g q ++ [x] else g q).
Proof. unfold q2f_of. assert (G : forall l, NoDup l -> dappend k x (map (fun q => (q, g q)) l) = map (fun q => (q, if q =? k then g q ++ [x] else g q)) l).
  { induction l as [|a l IH]; cbn; auto. intros H. inversion H; subst. destruct (Nat.eqb_spec k a) as [->|Hne].
    - rewrite Nat.eqb_refl. f_equal. apply map_ext_in. intros q Hq. destruct (Nat.eqb_spec q a); [subst; contradiction|reflexivity].
    - destruct (Nat.eqb_spec a k); [congruence|]. f_equal. auto. }
  apply G, seq_NoDup. Qed.
Lemma q2f_ext n g h : (forall q, q < n -> g q = h q) -> q2f_of n g = q2f_of n h.
Proof. intros H. unfold q2f_of. apply map_ext_in. intros q Hq. apply in_seq in Hq. f_equal. apply H. lia. Qed.
Lemma dappend_all n x qb : forall g, NoDup qb -> fold_left (fun d q => dappend q x d) qb (q2f_of n g) = q2f_of n (fun q => if existsb (Nat.eqb q) qb then g q ++ [x] else g q).
Proof. induction qb as [|k qb IH]; intros g ND; cbn; [now apply q2f_ext|]. inversion ND; subst. rewrite dappend_of, IH by auto. apply q2f_ext. intros q _.
  destruct (Nat.eqb_spec q k) as [->|]; cbn; [|reflexivity]. destruct (existsb (Nat.eqb k) qb) eqn:E; auto.
  apply existsb_exists in E. destruct E as (k' & Hk & E). apply Nat.eqb_eq in E. subst. contradiction. Qed.
Lemma addFs_q2f data Fs : NoDup data -> Forall (@NoDup coord) Fs -> forall idx l g, lay_q2f l = q2f_of (length data) g ->
  lay_q2f (addFs data idx Fs l) = q2f_of (length data) (fun q => g q ++ filter (fun j => cmem (nth q data (0,0)%Z) (nth (j - idx) Fs [])) (seq idx (length Fs))).
Proof. intros ND. induction Fs as [|F Fs IH]; intros HF idx l g HL; cbn [addFs].
  - rewrite HL. apply q2f_ext. intros. cbn. now rewrite app_nil_r.
  - inversion HF; subst. rewrite (IH H2 (S idx) _ (fun q => if existsb (Nat.eqb q) (qbs data F) then g q ++ [idx] else g q)).
    + apply q2f_ext. intros q Hq. cbn [length seq filter]. rewrite Nat.sub_diag. cbn [nth].
      assert (E : existsb (Nat.eqb q) (qbs data F) = cmem (nth q data (0,0)%Z) F).
      { apply eq_true_iff_eq. rewrite existsb_exists, cmem_In. split.
        - intros (q' & Hq' & E). apply Nat.eqb_eq in E. subst q'. now apply (In_qbs data F q ND) in Hq'.
        - intros H. exists q. split; [apply (In_qbs data F q ND); auto|apply Nat.eqb_refl]. }
      rewrite E. assert (FE : filter (fun j => cmem (nth q data (0,0)%Z) (nth (j - S idx) Fs [])) (seq (S idx) (length Fs)) =
                        filter (fun j => cmem (nth q data (0,0)%Z) match j - idx with 0 => F | S m => nth m Fs [] end) (seq (S idx) (length Fs))).
      { apply filter_ext_in. intros j Hj. apply in_seq in Hj. replace (j - idx) with (S (j - S idx)) by lia. reflexivity. }
      rewrite FE. destruct (cmem (nth q data (0,0)%Z) F); [now rewrite <- app_assoc|reflexivity].
    + cbn [addF lay_q2f]. rewrite HL. apply dappend_all. now apply NoDup_qbs. Qed.
Lemma flayout_q2f data Fs : NoDup data -> Forall (@NoDup coord) Fs ->
  lay_q2f (flayout data Fs) = q2f_of (length data) (fun q => filter (fun j => cmem (nth q data (0,0)%Z) (nth j Fs [])) (seq 0 (length Fs))).
Proof. intros ND HF. unfold flayout. rewrite (addFs_q2f data Fs ND HF 0 _ (fun _ => [])) by reflexivity. apply q2f_ext. intros q Hq. cbn [app].
  apply filter_ext. intros j. now rewrite Nat.sub_0_r. Qed.

Lemma In_f2q data Fs j sws : In (j, sws) (lay_f2q (flayout data Fs)) <-> j < length Fs /\ sws = qbs data (nth j Fs []).
Proof. rewrite flayout_f2q.
  assert (G : forall l k, In (j, sws) (combine (seq k (length l)) (map (qbs data) l)) <-> k <= j < k + length l /\ sws = qbs data (nth (j - k) l [])).
  { induction l as [|b l IH]; intros k; cbn [length seq combine map].
    - cbn. split; [easy|lia].
    - cbn [In]. rewrite IH. split.
      + intros [H|[H1 H2]]; [injection H as <- <-; rewrite Nat.sub_diag; split; [lia|reflexivity]|].
        split; [lia|]. replace (j - k) with (S (j - S k)) by lia. exact H2.
      + intros [H1 H2]. destruct (Nat.eq_dec j k) as [->|Hne]; [left; rewrite Nat.sub_diag in H2; cbn in H2; now subst|]. right.
        split; [lia|]. replace (j - k) with (S (j - S k)) in H2 by lia. exact H2. }
  rewrite G, Nat.sub_0_r. split; intros [? ?]; split; auto; lia. Qed.
Lemma keys_f2q data Fs : map fst (lay_f2q (flayout data Fs)) = seq 0 (length Fs).
Proof. rewrite flayout_f2q. assert (G : forall (A B : Type) (a : list A) (b : list B), length a = length b -> map fst (combine a b) = a).
  { induction a as [|x a IH]; intros [|y b]; cbn; auto; try discriminate. intros H. f_equal. apply IH. lia. }
  apply G. now rewrite seq_length, map_length. Qed.

Lemma count_occ_nodup (l : list nat) x : NoDup l -> count_occ Nat.eq_dec l x = if in_dec Nat.eq_dec x l then 1 else 0.
Proof. intros ND. destruct (in_dec Nat.eq_dec x l) as [H|H].
  - apply (proj1 (NoDup_count_occ' Nat.eq_dec l) ND x H).
  - now apply count_occ_not_In. Qed.

(** the two dictionaries describe the same graph *)
Lemma flayout_graph data Fs : NoDup data -> Forall (@NoDup coord) Fs ->
  (forall F, In F Fs -> 2 <= length (filter (fun p => cmem p data) F)) ->
  graph_ok (lay_f2q (flayout data Fs)) (lay_q2f (flayout data Fs)).
Proof. intros ND HF H2. unfold graph_ok.
  assert (LA : length (lay_f2q (flayout data Fs)) = length Fs) by (rewrite <- (map_length fst), keys_f2q; apply seq_length).
  assert (KB : map fst (lay_q2f (flayout data Fs)) = seq 0 (length data)).
  { rewrite flayout_q2f by auto. unfold q2f_of. rewrite map_map. cbn. apply map_id. }
  assert (LB : length (lay_q2f (flayout data Fs)) = length data) by (rewrite <- (map_length fst), KB; apply seq_length).
  assert (IB : forall i ls, In (i, ls) (lay_q2f (flayout data Fs)) -> i < length data /\ ls = filter (fun j => cmem (nth i data (0,0)%Z) (nth j Fs [])) (seq 0 (length Fs))).
  { intros i ls H. rewrite flayout_q2f in H by auto. unfold q2f_of in H. apply in_map_iff in H. destruct H as (q & E & Hq). injection E as <- <-. apply in_seq in Hq. split; [lia|auto]. }
  rewrite LA, LB, keys_f2q, KB. split; [apply seq_NoDup|]. split; [apply seq_NoDup|].
  split; [intros j; rewrite in_seq; lia|]. split; [intros j; rewrite in_seq; lia|]. split; [|split].
  - intros j sws H. apply In_f2q in H. destruct H as [Hj ->]. split; [rewrite qbs_length; apply H2; apply nth_In; auto|].
    intros i Hi. apply (In_qbs data _ i ND) in Hi. tauto.
  - intros i ls H j Hj. apply IB in H. destruct H as [_ ->]. apply filter_In in Hj. destruct Hj as [Hj _]. apply in_seq in Hj. lia.
  - intros j sws i ls H1 H3. apply In_f2q in H1. destruct H1 as [Hj ->]. apply IB in H3. destruct H3 as [Hi ->].
    rewrite !count_occ_nodup.
    + destruct (in_dec Nat.eq_dec i (qbs data (nth j Fs []))) as [A|A], (in_dec Nat.eq_dec j _) as [B|B]; auto; exfalso.
      * apply (In_qbs data _ i ND) in A. apply B. apply filter_In. split; [apply in_seq; lia|]. now apply cmem_In.
      * apply filter_In in B. destruct B as [_ B]. apply cmem_In in B. apply A. apply (In_qbs data _ i ND). auto.
    + apply NoDup_filter, seq_NoDup.
    + apply NoDup_qbs; auto. rewrite Forall_forall in HF. apply HF. now apply nth_In. Qed.

(** *** overlaps *)
Definition overlap (data F G : list coord) : list coord := filter (fun p => cmem p data && cmem p G) F.
Lemma dot_map_odd {A} (f g : A -> bool) l : dot (map f l) (map g l) = Nat.odd (length (filter (fun p => f p && g p) l)).
Proof. induction l as [|a l IH]; [reflexivity|]. cbn [map dot filter]. rewrite IH. destruct (f a && g a).
  - cbn [length]. rewrite Nat.odd_succ, <- Nat.negb_odd. now destruct (Nat.odd _).
  - now destruct (Nat.odd _). Qed.
Lemma overlap_len data F G : NoDup data -> NoDup F -> length (filter (fun p => cmem p F && cmem p G) data) = length (overlap data F G).
Proof. intros ND NF. apply Permutation_length. apply NoDup_Permutation; [now apply NoDup_filter|now apply NoDup_filter|].
  intros p. unfold overlap. rewrite !filter_In, !andb_true_iff, !cmem_In. tauto. Qed.
Lemma frow_dot data F G : NoDup data -> NoDup F -> dot (frow data F) (frow data G) = Nat.odd (length (overlap data F G)).
Proof. intros. unfold frow. rewrite dot_map_odd. now rewrite overlap_len. Qed.
Lemma weight_map {A} (f : A -> bool) l : weight (map f l) = length (filter f l).
Proof. induction l as [|a l IH]; cbn; auto. rewrite IH. destruct (f a); reflexivity. Qed.
Lemma frow_weight data F : NoDup data -> NoDup F -> weight (frow data F) = length (filter (fun p => cmem p data) F).
Proof. intros ND NF. unfold frow. rewrite weight_map. apply Permutation_length. apply NoDup_Permutation; [now apply NoDup_filter|now apply NoDup_filter|].
  intros p. rewrite !filter_In, !cmem_In. tauto. Qed.
Lemma frow_length data F : length (frow data F) = length data.
Proof. apply map_length. Qed.
Lemma frows_wf data Fs : wf (length data) (map (frow data) Fs).
Proof. unfold wf. apply Forall_forall. intros r H. apply in_map_iff in H. destruct H as (F & <- & _). apply frow_length. Qed.

(** *** independence by pivots *)
Lemma classic_ex n (P : nat -> Prop) : (forall i, P i \/ ~ P i) -> (exists i, i < n /\ P i) \/ ~ (exists i, i < n /\ P i).
Proof. intros D. induction n as [|n [H|H]].
  - right. intros (i & Hi & _). lia.
  - left. destruct H as (i & Hi & Pi). exists i. split; auto.
  - destruct (D n) as [Pn|Pn]; [left; exists n; split; auto|]. right. intros (i & Hi & Pi). destruct (Nat.eq_dec i n); [subst; contradiction|]. apply H. exists i. split; auto. lia. Qed.
Lemma argmax (P : nat -> Prop) (mu : nat -> Z) n : (forall i, P i \/ ~ P i) -> (exists i, i < n /\ P i) -> exists i, i < n /\ P i /\ forall j, j < n -> P j -> (mu j <= mu i)%Z.
Proof. intros D. induction n as [|n IH]; intros (i & Hi & Pi); [lia|]. destruct (D n) as [Pn|Pn].
  - destruct (classic_ex n P D) as [E|E].
    + destruct (IH E) as (k & Hk & Pk & M). destruct (Z_le_gt_dec (mu n) (mu k)).
      * exists k. split; [lia|]. split; auto. intros j Hj Pj. destruct (Nat.eq_dec j n); [subst; lia|apply M; auto; lia].
      * exists n. split; [lia|]. split; auto. intros j Hj Pj. destruct (Nat.eq_dec j n); [subst; lia|]. specialize (M j ltac:(lia) Pj). lia.
    + exists n. split; [lia|]. split; auto. intros j Hj Pj. destruct (Nat.eq_dec j n); [subst; lia|]. elim E. exists j. split; [lia|auto].
  - destruct IH as (k & Hk & Pk & M).
    + exists i. split; auto. destruct (Nat.eq_dec i n); [subst; contradiction|lia].
    + exists k. split; [lia|]. split; auto. intros j Hj Pj. destruct (Nat.eq_dec j n); [subst; contradiction|]. apply M; auto. lia. Qed.

Lemma dot_single c d f : length c = length d -> f < length c -> nth f c false = true -> nth f d false = true ->
  (forall g, g < length c -> g <> f -> nth g c false && nth g d false = false) -> dot c d = true.
Proof. revert d f. induction c as [|a c IH]; intros [|b d] f HL Hf Ha Hb Ho; cbn in *; try lia. destruct f as [|f].
  - cbn in Ha, Hb. subst a b. assert (E : dot c d = false).
    { clear IH. assert (G : forall g, g < length c -> nth g c false && nth g d false = false) by (intros g Hg; apply (Ho (S g)); lia).
      assert (HL' : length c = length d) by lia. clear -G HL'. revert d G HL'. induction c as [|x c IHc]; intros [|y d] G HL'; cbn in *; auto; try discriminate.
      pose proof (G 0 ltac:(lia)) as G0. cbn in G0. rewrite G0. rewrite IHc; auto. intros g Hg. apply (G (S g)). lia. }
    rewrite E. reflexivity.
  - assert (E0 : a && b = false) by (apply (Ho 0); lia). rewrite E0. rewrite (IH d f); auto; try lia.
    intros g Hg Hne. apply (Ho (S g)); lia. Qed.

Lemma indep_pivot n M (piv : nat -> nat) (mu : nat -> Z) : wf n M ->
  (forall f, f < length M -> piv f < n /\ nth (piv f) (nth f M []) false = true /\
     forall g, g < length M -> g <> f -> nth (piv f) (nth g M []) false = true -> (mu f < mu g)%Z) -> indep n M.
Proof. intros W HP c Hc HZ. apply (vec_ext (length M)); [exact Hc|apply vzero_length|]. intros j Hj. rewrite nth_vzero.
  destruct (nth j c false) eqn:E; auto. exfalso.
  destruct (argmax (fun i => nth i c false = true) mu (length M)) as (f & Hf & Pf & Mx).
  { intros i. destruct (nth i c false); [now left|now right]. }
  { exists j. auto. }
  destruct (HP f Hf) as (Hp & Ht & Ho). assert (N : nth (piv f) (lincomb n c M) false = false) by (rewrite HZ; apply nth_vzero).
  rewrite nth_lincomb in N by auto. rewrite (dot_single c (col M (piv f)) f) in N; [discriminate| | |auto| |].
  - now rewrite col_length.
  - unfold vec in *. lia.
  - now rewrite nth_col.
  - intros g Hg Hne. destruct (nth g c false) eqn:Eg; auto. cbn. rewrite nth_col by (unfold vec in *; lia).
    destruct (nth (piv f) (nth g M []) false) eqn:Et; auto. exfalso. assert (Hg' : g < length M) by (unfold vec in *; lia).
    specialize (Ho g Hg' Hne Et). specialize (Mx g Hg' Eg). lia. Qed.

(** *** the matrix does not depend on the enumeration, up to renaming qubits and faces *)
Definition perm_fun (n : nat) (f : nat -> nat) : Prop := (forall i, i < n -> f i < n) /\ (forall i j, i < n -> j < n -> f i = f j -> i = j).
Lemma perm_renames {A} (l l' : list A) d : Permutation l l' -> exists f, perm_fun (length l) f /\ forall i, i < length l -> nth i l' d = nth (f i) l d.
Proof. intros H. apply (Permutation_nth l l' d) in H. destruct H as (HL & f & F1 & F2 & F3). exists f. split; [split|]; auto. Qed.
Lemma frow_nth data F i : i < length data -> nth i (frow data F) false = cmem (nth i data (0,0)%Z) F.
Proof. intros H. unfold frow. rewrite (nth_indep _ false (cmem (0,0)%Z F)) by now rewrite map_length. now rewrite (map_nth (fun p => cmem p F)). Qed.
Lemma frows_nth data (nb : coord -> list coord) anc j i : i < length data -> j < length anc ->
  nth i (nth j (map (frow data) (map nb anc)) []) false = cmem (nth i data (0,0)%Z) (nb (nth j anc (0,0)%Z)).
Proof. intros Hi Hj. rewrite map_map. rewrite (nth_indep _ [] (frow data (nb (0,0)%Z))) by now rewrite map_length.
  rewrite (map_nth (fun x => frow data (nb x))). now apply frow_nth. Qed.
Lemma filter_nth_len (P : coord -> bool) l : length (filter (fun q => P (nth q l (0,0)%Z)) (seq 0 (length l))) = length (filter P l).
Proof. induction l as [|a l IH]; auto. cbn [length seq filter]. change (nth 0 (a :: l) (0,0)%Z) with a. rewrite <- seq_shift.
  assert (S1 : forall (ix : list nat), length (filter (fun q => P (nth q (a :: l) (0,0)%Z)) (map S ix)) = length (filter (fun q => P (nth q l (0,0)%Z)) ix)).
  { induction ix as [|k ix IHx]; auto. cbn [map filter]. change (nth (S k) (a :: l) (0,0)%Z) with (nth k l (0,0)%Z). destruct (P (nth k l (0,0)%Z)); cbn [length]; now rewrite IHx. }
  destruct (P a); cbn [length]; [f_equal|]; (etransitivity; [exact (S1 (seq 0 (length l)))|exact IH]). Qed.
