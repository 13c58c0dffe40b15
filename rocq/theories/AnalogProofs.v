From Coq Require Import List Arith Bool Lia.
From Verif Require Import Lin Lin2 AnalogModel.
Import ListNotations.

Lemma vsum_length n l : wf n l -> length (vsum n l) = n.
Proof. induction 1; simpl; [apply vzero_length|]. rewrite (vxor_length' n); auto. Qed.

Lemma vsum_app n a b : wf n a -> wf n b -> vsum n (a ++ b) = vxor (vsum n a) (vsum n b).
Proof.
  intros Ha Hb. induction Ha; simpl.
  - rewrite (vxor_zero_l n); auto. apply vsum_length; auto.
  - rewrite IHHa, vxor_assoc. reflexivity.
Qed.

Lemma mulMV_vsum n M l : wf n l -> mulMV M (vsum n l) = vsum (length M) (map (mulMV M) l).
Proof.
  induction 1; simpl; [apply mulMV_zero|]. rewrite (mulMV_vxor M n), IHForall; auto. apply vsum_length; auto.
Qed.

Lemma concat_length_wf k (l : list vec) : wf k l -> length (concat l) = length l * k.
Proof. induction 1; simpl; auto. rewrite app_length, IHForall. lia. Qed.

Lemma wf_firstn k i (l : mat) : wf k l -> wf k (firstn i l).
Proof. unfold wf. intros F. rewrite <- (firstn_skipn i l) in F. apply Forall_app in F. tauto. Qed.
Lemma wf_skipn k i (l : mat) : wf k l -> wf k (skipn i l).
Proof. unfold wf. intros F. rewrite <- (firstn_skipn i l) in F. apply Forall_app in F. tauto. Qed.
Lemma wf_nth k i (l : mat) d : wf k l -> i < length l -> length (nth i l d) = k.
Proof. intros W L. eapply wf_in; eauto. apply nth_In; auto. Qed.

Lemma split_nth {A} (l : list A) r d : r < length l -> l = firstn r l ++ nth r l d :: skipn (S r) l.
Proof.
  revert r. induction l; simpl; intros r L; [lia|]. destruct r; simpl; auto. f_equal. apply IHl; lia.
Qed.

(* ---- products ---- *)
Lemma mulMV_hstack A B x y : length A = length B -> wf (length x) A -> mulMV (hstack A B) (x ++ y) = vxor (mulMV A x) (mulMV B y).
Proof.
  revert B. induction A; destruct B; simpl; intros L W; try discriminate; auto.
  apply wf_cons in W as [W1 W2]. rewrite dot_app by auto. f_equal. apply IHA; auto.
Qed.
Lemma hstack_length A B : length A = length B -> length (hstack A B) = length A.
Proof. revert B; induction A; destruct B; simpl; intros; auto; discriminate. Qed.
Lemma hstack_wf a b A B : length A = length B -> wf a A -> wf b B -> wf (a + b) (hstack A B).
Proof.
  revert B; induction A; destruct B; simpl; intros L WA WB; try discriminate; [constructor|].
  apply wf_cons in WA as [? ?]. apply wf_cons in WB as [? ?]. apply wf_cons; split.
  - rewrite app_length; lia.
  - apply IHA; auto.
Qed.
Lemma madd_length A B : length A = length B -> length (madd A B) = length A.
Proof. revert B; induction A; destruct B; simpl; intros; auto; discriminate. Qed.
Lemma madd_wf n A B : wf n A -> wf n B -> wf n (madd A B).
Proof.
  revert B; induction A; destruct B; simpl; intros WA WB; try constructor.
  - apply wf_cons in WA as [? ?]. apply wf_cons in WB as [? ?]. apply vxor_length'; auto.
  - apply wf_cons in WA as [? ?]. apply wf_cons in WB as [? ?]. apply IHA; auto.
Qed.
Lemma mulMV_madd n A B x : wf n A -> wf n B -> length A = length B -> mulMV (madd A B) x = vxor (mulMV A x) (mulMV B x).
Proof.
  revert B; induction A; destruct B; simpl; intros WA WB L; try discriminate; auto.
  apply wf_cons in WA as [? ?]. apply wf_cons in WB as [? ?]. rewrite dot_vxor_l by congruence. f_equal. apply IHA; auto.
Qed.

Lemma mulMV_identity m x : length x = m -> mulMV (identity m) x = x.
Proof.
  intros L. unfold mulMV, identity. rewrite map_map. transitivity (map (fun i => nth i x false) (seq 0 m)).
  - apply map_ext_in. intros i I. apply in_seq in I. apply dot_unitv_l; auto; lia.
  - rewrite <- L. apply (map_nth_seq x false).
Qed.

Lemma map_concat {A B} (f : A -> B) l : map f (concat l) = concat (map (map f) l).
Proof. induction l; simpl; auto. rewrite map_app. congruence. Qed.

Lemma mulMV_block_diag n H k xs : wf n H -> wf n xs -> length xs = k ->
  mulMV (block_diag_rep n H k) (concat xs) = concat (map (mulMV H) xs).
Proof.
  intros WH WX L. unfold mulMV at 1, block_diag_rep. rewrite map_concat, !map_map. f_equal.
  transitivity (map (fun r => mulMV H (nth r xs [])) (seq 0 k)).
  2:{ rewrite <- L. rewrite <- (map_map (fun r => nth r xs []) (mulMV H)). f_equal. apply map_nth_seq. }
  apply map_ext_in. intros r I. apply in_seq in I. rewrite map_map. unfold mulMV. apply map_ext_in. intros row Ir.
  rewrite (split_nth xs r []) at 1 by lia. rewrite concat_app; simpl.
  rewrite dot_app. 2:{ rewrite vzero_length, (concat_length_wf n), firstn_length_le; auto; [lia|apply wf_firstn; auto]. }
  rewrite dot_zero_l, xorb_false_l. rewrite dot_app.
  - rewrite dot_zero_l, xorb_false_r. reflexivity.
  - rewrite (wf_in n H row) by auto. symmetry. apply wf_nth; auto; lia.
Qed.

Lemma concat_const_length (n c : nat) (f : nat -> mat) k : (forall r, r < k -> length (f r) = c) -> length (concat (map f (seq 0 k))) = k * c.
Proof.
  intros E. assert (G : forall s, (forall r, s <= r < s + k -> length (f r) = c) -> length (concat (map f (seq s k))) = k * c).
  { clear E. induction k; intros s E; simpl; auto. rewrite app_length, E, IHk; try lia. intros; apply E; lia. }
  apply G. intros; apply E; lia.
Qed.
Lemma block_diag_length n H k : length (block_diag_rep n H k) = k * length H.
Proof. unfold block_diag_rep. rewrite (concat_const_length n (length H)); auto. intros. apply map_length. Qed.
Lemma block_diag_wf n H k : wf n H -> wf (k * n) (block_diag_rep n H k).
Proof.
  intros W. unfold block_diag_rep, wf. apply Forall_concat, Forall_map, Forall_forall. intros r I. apply in_seq in I.
  apply Forall_map, Forall_forall. intros row Ir. rewrite !app_length, !vzero_length, (wf_in n H row) by auto.
  assert (k * n = r * n + (n + (k - 1 - r) * n)). { replace k with (r + (1 + (k - 1 - r))) at 1 by lia. rewrite !Nat.mul_add_distr_r. lia. } lia.
Qed.

Lemma eye_sub_length N d : length (eye_sub N d) = N.
Proof. unfold eye_sub. rewrite map_length, seq_length. auto. Qed.
Lemma eye_sub_wf N d : wf N (eye_sub N d).
Proof.
  unfold eye_sub, wf. apply Forall_map, Forall_forall. intros i _. destruct (d <=? i); [apply unitv_length|apply vzero_length].
Qed.
Lemma mulMV_eye_sub N d x : length x = N -> d <= N -> mulMV (eye_sub N d) x = vzero d ++ firstn (N - d) x.
Proof.
  intros L D. apply (vec_ext N).
  - rewrite mulMV_length. apply eye_sub_length.
  - rewrite app_length, vzero_length, firstn_length. lia.
  - intros i I. unfold mulMV, eye_sub. rewrite map_map.
    rewrite (nth_indep _ _ (dot (vzero N) x)) by (rewrite map_length, seq_length; auto).
    transitivity (dot (if d <=? i then unitv N (i - d) else vzero N) x).
    { rewrite (nth_indep _ _ ((fun i => dot (if d <=? i then unitv N (i - d) else vzero N) x) 0)) by (rewrite map_length, seq_length; auto).
      rewrite (map_nth (fun i => dot (if d <=? i then unitv N (i - d) else vzero N) x)). rewrite seq_nth by auto. reflexivity. }
    destruct (Nat.leb_spec d i).
    + rewrite dot_unitv_l by (auto; lia). rewrite app_nth2 by (rewrite vzero_length; auto). rewrite vzero_length.
      rewrite <- (firstn_skipn (N - d) x) at 1. rewrite app_nth1; auto. rewrite firstn_length. lia.
    + rewrite dot_zero_l. rewrite app_nth1 by (rewrite vzero_length; auto). rewrite nth_vzero. auto.
Qed.

(* the previous round's measurement error *)
Definition prev (m : nat) (ms : list vec) (r : nat) : vec := match r with 0 => vzero m | S q => nth q ms [] end.

Lemma firstn_concat_wf k (l : list vec) i : wf k l -> i <= length l -> firstn (k * i) (concat l) = concat (firstn i l).
Proof.
  intros W. revert i. induction W; simpl; intros i I.
  - destruct i; [|lia]. rewrite Nat.mul_0_r. reflexivity.
  - destruct i; simpl. { rewrite Nat.mul_0_r. auto. }
    rewrite firstn_app. rewrite firstn_all2 by lia. f_equal. replace (k * S i - length x) with (k * i) by lia. apply IHW. lia.
Qed.

Lemma vxor_concat k (a b : list vec) : wf k a -> wf k b -> length a = length b ->
  vxor (concat a) (concat b) = concat (map (fun r => vxor (nth r a []) (nth r b [])) (seq 0 (length a))).
Proof.
  intros Wa. revert b. induction Wa; destruct b; simpl; intros Wb L; try discriminate; auto.
  apply wf_cons in Wb as [Lb Wb]. rewrite vxor_app by congruence. f_equal. rewrite <- seq_shift, map_map. apply IHWa; auto.
Qed.

Lemma concat_map_nth {A} (f : A -> vec) (l : list A) d : concat (map f l) = concat (map (fun r => f (nth r l d)) (seq 0 (length l))).
Proof. rewrite <- (map_map (fun r => nth r l d) f). rewrite map_nth_seq. reflexivity. Qed.

Lemma h3d_product n H R es ms : wf n H -> wf n es -> wf (length H) ms -> length es = S R -> length ms = S R ->
  mulMV (build_multiround_pcm n H R) (concat es ++ concat ms) =
  concat (map (fun r => vxor (mulMV H (nth r es [])) (vxor (nth r ms []) (prev (length H) ms r))) (seq 0 (S R))).
Proof.
  intros WH We Wm Le Lm. unfold build_multiround_pcm. set (m := length H) in *.
  replace (R + 1) with (S R) by lia.
  assert (LI : length (block_diag_rep m (identity m) (S R)) = m * S R).
  { rewrite block_diag_length, identity_length. lia. }
  assert (WI : wf (m * S R) (block_diag_rep m (identity m) (S R))).
  { replace (m * S R) with (S R * m) by lia. apply block_diag_wf, identity_wf. }
  rewrite mulMV_hstack.
  2:{ rewrite block_diag_length, madd_length, LI; [fold m; lia|]. rewrite LI, eye_sub_length. auto. }
  2:{ rewrite (concat_length_wf n), Le by auto. apply block_diag_wf; auto. }
  rewrite (mulMV_madd (m * S R)); auto using eye_sub_wf. 2:{ rewrite LI, eye_sub_length. auto. }
  rewrite mulMV_block_diag by auto. rewrite mulMV_block_diag by auto using identity_wf.
  assert (WM : wf m (map (mulMV H) es)). { apply Forall_map, Forall_forall. intros. apply mulMV_length. }
  replace (map (mulMV (identity m)) ms) with ms.
  2:{ transitivity (map (fun x => x) ms); [symmetry; apply map_id|]. apply map_ext_in. intros x I. symmetry. apply mulMV_identity. apply (wf_in _ _ _ Wm I). }
  rewrite mulMV_eye_sub. 2:{ rewrite (concat_length_wf m), Lm by auto. lia. } 2:{ rewrite Nat.mul_succ_r. lia. }
  replace (m * S R - m) with (m * R) by (rewrite Nat.mul_succ_r; lia).
  rewrite (firstn_concat_wf m) by (auto; lia).
  change (vzero m ++ concat (firstn R ms)) with (concat (vzero m :: firstn R ms)).
  assert (Wp : wf m (vzero m :: firstn R ms)). { apply wf_cons; split; [apply vzero_length|apply wf_firstn; auto]. }
  assert (Lp : length (vzero m :: firstn R ms) = S R). { simpl. rewrite firstn_length. lia. }
  rewrite (vxor_concat m) by (auto; lia). rewrite Lm.
  match goal with |- vxor _ (concat ?l) = _ => assert (W2 : wf m l /\ length l = S R) end.
  { split. - apply Forall_map, Forall_forall. intros r I. apply in_seq in I. apply vxor_length'; apply wf_nth; auto; lia.
    - rewrite map_length, seq_length. auto. }
  destruct W2 as [W2 L2]. rewrite (vxor_concat m); auto. 2:{ rewrite map_length, L2, Le; auto. }
  rewrite map_length, Le. f_equal. apply map_ext_in. intros r I. apply in_seq in I. f_equal.
  - rewrite (nth_indep _ _ (mulMV H [])) by (rewrite map_length; lia). apply map_nth.
  - set (f := fun r => vxor (nth r ms []) (nth r (vzero m :: firstn R ms) [])).
    rewrite (nth_indep _ _ (f 0)) by (rewrite map_length, seq_length; lia). rewrite (map_nth f), seq_nth by lia.
    unfold f. f_equal. destruct r; simpl; auto. rewrite <- (firstn_skipn R ms) at 2. rewrite app_nth1; auto.
    rewrite firstn_length. lia.
Qed.

(* ---- difference syndromes ---- *)
Lemma diff_from_nth p cols r : r < length cols -> nth r (diff_from p cols) [] = vxor (nth r cols []) (nth r (p :: cols) []).
Proof. revert p r. induction cols; simpl; intros p r L; [lia|]. destruct r; auto. apply IHcols; lia. Qed.
Lemma diff_from_length p cols : length (diff_from p cols) = length cols.
Proof. revert p; induction cols; simpl; auto. Qed.
Lemma diff_length cols : length (diff_syndrome cols) = length cols.
Proof. destruct cols; simpl; auto. rewrite diff_from_length. auto. Qed.
Lemma diff_nth m cols r : wf m cols -> r < length cols ->
  nth r (diff_syndrome cols) [] = vxor (nth r cols []) (prev m cols r).
Proof.
  destruct cols; simpl; intros W L; [lia|]. destruct r; simpl.
  - apply wf_cons in W as [W _]. symmetry. apply vxor_zero_r; auto.
  - rewrite diff_from_nth by lia. reflexivity.
Qed.
Lemma prev_length m cols r : wf m cols -> r <= length cols -> length (prev m cols r) = m.
Proof. intros W L. destruct r; simpl; [apply vzero_length|]. apply wf_nth; auto. Qed.
Lemma diff_wf m cols : wf m cols -> wf m (diff_syndrome cols).
Proof.
  intros W. apply Forall_forall. intros x I. apply (In_nth _ _ []) in I as [r [L <-]]. rewrite diff_length in L.
  rewrite (diff_nth m) by auto. apply vxor_length'; [apply wf_nth; auto|apply prev_length; auto; lia].
Qed.

Lemma firstn_S_nth {A} (l : list A) r d : r < length l -> firstn (S r) l = firstn r l ++ [nth r l d].
Proof. revert r; induction l; simpl; intros r L; [lia|]. destruct r; auto. change (a :: firstn (S r) l = a :: firstn r l ++ [nth r l d]). f_equal. apply IHl. lia. Qed.

Lemma concat_inj k (a b : list vec) : wf k a -> wf k b -> length a = length b -> concat a = concat b -> a = b.
Proof.
  intros Wa. revert b. induction Wa; destruct b; simpl; intros Wb L E; try discriminate; auto.
  apply wf_cons in Wb as [Lb Wb].
  assert (x = v).
  { apply (f_equal (firstn k)) in E. rewrite !firstn_app in E. rewrite (firstn_all2 x), (firstn_all2 v) in E by lia.
    rewrite H, Lb, Nat.sub_diag in E. rewrite !firstn_O, !app_nil_r in E. exact E. }
  subst. f_equal. apply IHWa; auto. apply app_inv_head in E. auto.
Qed.

Lemma vxor_cancel_r a b c n : length a = n -> length b = n -> length c = n -> vxor a c = vxor b c -> a = b.
Proof.
  intros La Lb Lc E. rewrite (vxor_comm a c), (vxor_comm b c) in E.
  rewrite <- (vxor_cancel_l n c a), <- (vxor_cancel_l n c b) by auto. congruence.
Qed.

(* the record that errors es (newly arising before each round) and measurement flips ms leave *)
Definition record_of (n : nat) (H : mat) (es ms : list vec) : list vec :=
  map (fun r => vxor (mulMV H (vsum n (firstn (S r) es))) (nth r ms [])) (seq 0 (length ms)).

Lemma map_seq_nth {A} (f : nat -> A) k r d : r < k -> nth r (map f (seq 0 k)) d = f r.
Proof.
  intros L. rewrite (nth_indep _ _ (f 0)) by (rewrite map_length, seq_length; auto). rewrite (map_nth f), seq_nth; auto.
Qed.
Lemma nth_ext_vec (a b : list vec) : length a = length b -> (forall r, r < length a -> nth r a [] = nth r b []) -> a = b.
Proof. intros L E. apply (nth_ext _ _ [] []); auto. Qed.

Lemma record_length n H es ms : length (record_of n H es ms) = length ms.
Proof. unfold record_of. rewrite map_length, seq_length. auto. Qed.
Lemma record_wf n H es ms : wf (length H) ms -> wf (length H) (record_of n H es ms).
Proof.
  intros W. apply Forall_map, Forall_forall. intros r I. apply in_seq in I. apply vxor_length'; [apply mulMV_length|].
  apply wf_nth; auto; lia.
Qed.
Lemma record_nth n H es ms r : r < length ms ->
  nth r (record_of n H es ms) [] = vxor (mulMV H (vsum n (firstn (S r) es))) (nth r ms []).
Proof. intros L. unfold record_of. rewrite map_seq_nth; auto. Qed.

Lemma vsum_snoc n l x : wf n l -> length x = n -> vsum n (l ++ [x]) = vxor (vsum n l) x.
Proof.
  intros W L. rewrite vsum_app; auto. 2:{ apply wf_cons; split; auto. constructor. } simpl.
  rewrite (vxor_zero_r n); auto.
Qed.

Lemma vxor_shuffle a b c d : vxor (vxor a b) (vxor c d) = vxor (vxor a c) (vxor b d).
Proof. apply vxor_swap4. Qed.

Lemma record_diff n H es ms r : wf n es -> wf (length H) ms -> length es = length ms -> r < length ms ->
  vxor (nth r (record_of n H es ms) []) (prev (length H) (record_of n H es ms) r) =
  vxor (mulMV H (nth r es [])) (vxor (nth r ms []) (prev (length H) ms r)).
Proof.
  intros We Wm L Lr. rewrite record_nth by auto. set (m := length H) in *.
  assert (Em : length (nth r ms []) = m) by (apply wf_nth; auto).
  assert (Ee : length (nth r es []) = n) by (apply wf_nth; auto; lia).
  destruct r as [|q]; cbn [prev].
  - rewrite !(vxor_zero_r m); auto. 2:{ apply vxor_length'; auto. apply mulMV_length. }
    destruct es; [simpl in L; lia|]. simpl. apply wf_cons in We as [? ?]. rewrite (vxor_zero_r n); auto.
  - rewrite record_nth by lia. rewrite (firstn_S_nth es (S q) []) by lia.
    rewrite vsum_snoc by (auto using wf_firstn). set (a := vsum n (firstn (S q) es)).
    assert (La : length a = n) by (apply vsum_length, wf_firstn; auto).
    rewrite (mulMV_vxor H n); auto. rewrite vxor_shuffle. f_equal.
    rewrite (vxor_comm (mulMV H a)). rewrite <- vxor_assoc. rewrite (vxor_self' m) by apply mulMV_length.
    apply vxor_zero_r. apply mulMV_length.
Qed.

(* a vector explains a record's difference syndrome iff it is a history that leaves exactly that record *)
Lemma explains_iff n H R es ms synd : wf n H -> wf n es -> wf (length H) ms -> wf (length H) synd ->
  length es = S R -> length ms = S R -> length synd = S R ->
  (mulMV (build_multiround_pcm n H R) (concat es ++ concat ms) = concat (diff_syndrome synd) <-> synd = record_of n H es ms).
Proof.
  intros WH We Wm Ws Le Lm Ls. rewrite h3d_product by auto.
  pose proof (record_wf n H es ms Wm) as Wr. pose proof (record_length n H es ms) as Lrec. set (m := length H) in *.
  assert (P : map (fun r => vxor (mulMV H (nth r es [])) (vxor (nth r ms []) (prev m ms r))) (seq 0 (S R)) =
              diff_syndrome (record_of n H es ms)).
  { apply nth_ext_vec. { rewrite map_length, seq_length, diff_length, record_length. auto. }
    intros r Lr. rewrite map_length, seq_length in Lr. rewrite map_seq_nth by auto.
    rewrite (diff_nth m) by (first [exact Ws|exact Wr|rewrite ?Lrec; lia]).
    symmetry. apply record_diff; auto; lia. }
  rewrite P. split.
  - intros E. apply (concat_inj m) in E; auto using diff_wf. 2:{ rewrite !diff_length, record_length. lia. }
    apply nth_ext_vec. { rewrite record_length; lia. }
    intros r. induction r; intros Lr.
    + pose proof (f_equal (fun l => nth 0 l []) E) as E0. cbn beta in E0.
      rewrite !(diff_nth m) in E0 by (first [exact Ws|exact Wr|rewrite ?Lrec; lia]). cbn [prev] in E0.
      rewrite !(vxor_zero_r m) in E0; auto.
      * apply wf_nth; auto.
      * apply wf_nth; [exact Wr|rewrite Lrec; lia].
    + pose proof (f_equal (fun l => nth (S r) l []) E) as E0. cbn beta in E0.
      rewrite !(diff_nth m) in E0 by (first [exact Ws|exact Wr|rewrite ?Lrec; lia]). cbn [prev] in E0.
      rewrite <- IHr in E0 by lia. symmetry. apply (vxor_cancel_r _ _ (nth r synd []) m); auto.
      * apply wf_nth; [exact Wr|rewrite Lrec; lia].
      * apply wf_nth; auto.
      * apply wf_nth; auto; lia.
  - intros ->. reflexivity.
Qed.
