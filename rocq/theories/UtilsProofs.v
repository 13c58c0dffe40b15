(** * UtilsProofs: correctness of the Utils.cpp / Code.hpp models. *)
From Coq Require Import FinFun.
From Verif Require Import Lin2 UtilsModel PluProofs PluProofs2.

(** ** transpose *)
Lemma set2_entry (T : mat) j i x j' i' : j < length T -> i < length (nth j T []) ->
  nth i' (nth j' (set_nth j (set_nth i x (nth j T [])) T) []) false =
  if (j' =? j) && (i' =? i) then x else nth i' (nth j' T []) false.
Proof. intros Hj Hi. rewrite nth_set_nth by auto. destruct (Nat.eqb_spec j' j) as [->|]; simpl; auto.
  rewrite nth_set_nth by auto. auto. Qed.

Lemma set2_len (T : mat) j i x j' : nth j' (set_nth j (set_nth i x (nth j T [])) T) [] = nth j' T [] \/
   length (nth j' (set_nth j (set_nth i x (nth j T [])) T) []) = length (nth j' T []).
Proof. destruct (Nat.lt_ge_cases j (length T)).
  - rewrite nth_set_nth by auto. destruct (Nat.eqb_spec j' j) as [->|]; auto. right. now rewrite set_nth_length.
  - left. destruct (Nat.eq_dec j' j) as [->|]; [|apply nth_set_nth_neq; auto].
    rewrite !nth_overflow; rewrite ?set_nth_length; auto. Qed.

Lemma set2_len' (T : mat) j i x j' : length (nth j' (set_nth j (set_nth i x (nth j T [])) T) []) = length (nth j' T []).
Proof. destruct (set2_len T j i x j') as [->|]; auto. Qed.

Definition shape (n m : nat) (T : mat) : Prop := length T = n /\ forall j, j < n -> length (nth j T []) = m.

Lemma transpRow_ok n m i row : forall j T, shape n m T -> i < m -> j + length row <= n ->
  exists T', transpRow i j row T = Ok T' /\ shape n m T' /\
  forall a b, nth b (nth a T' []) false =
     if (b =? i) && (j <=? a) && (a <? j + length row) then nth (a - j) row false else nth b (nth a T []) false.
Proof. induction row as [|x row IH]; intros j T [HT1 HT2] Hi Hj; simpl in *.
  - exists T. split; auto. split; [split; auto|]. intros a b. 
    destruct (Nat.leb_spec j a), (Nat.ltb_spec a (j + 0)); try lia; now rewrite ?andb_false_r.
  - unfold setAt2. destruct (Nat.ltb_spec j (length T)); [|lia]. rewrite HT2 by lia. destruct (Nat.ltb_spec i m); [|lia]. simpl.
    set (T1 := set_nth j (set_nth i x (nth j T [])) T).
    assert (HS1 : shape n m T1).
    { split; [unfold T1; now rewrite set_nth_length|]. intros a Ha. unfold T1. rewrite set2_len'. auto. }
    destruct (IH (S j) T1) as (T' & E & HS & Hent); auto; [lia|]. exists T'. split; auto. split; auto.
    intros a b. rewrite Hent. unfold T1. rewrite set2_entry by (rewrite ?HT2; lia).
    destruct (Nat.eqb_spec b i), (Nat.eqb_spec a j), (Nat.leb_spec (S j) a), (Nat.leb_spec j a), (Nat.ltb_spec a (S j + length row)), (Nat.ltb_spec a (j + S (length row))); simpl; try lia; auto.
    all: try solve [replace (a - j) with (S (a - S j)) by lia; auto]; try solve [subst; now rewrite Nat.sub_diag]. Qed.

Lemma transpRows_ok n m M : forall i T, wf n M -> shape n m T -> i + length M <= m ->
  exists T', transpRows i M T = Ok T' /\ shape n m T' /\
  forall a b, a < n -> nth b (nth a T' []) false =
     if (i <=? b) && (b <? i + length M) then nth a (nth (b - i) M []) false else nth b (nth a T []) false.
Proof. induction M as [|row M IH]; intros i T HM HT Hi; simpl in *.
  - exists T. split; auto. split; auto. intros a b Ha. destruct (Nat.leb_spec i b), (Nat.ltb_spec b (i + 0)); try lia; auto.
  - apply wf_cons in HM as [Hr HM]. destruct (transpRow_ok n m i row 0 T HT) as (T1 & E1 & HS1 & Hent1); [lia|lia|].
    rewrite E1. simpl. destruct (IH (S i) T1 HM HS1) as (T' & E & HS & Hent); [lia|]. exists T'. split; auto. split; auto.
    intros a b Ha. rewrite Hent, Hent1 by auto. rewrite Nat.sub_0_r.
    destruct (Nat.eqb_spec b i), (Nat.leb_spec (S i) b), (Nat.leb_spec i b), (Nat.ltb_spec b (S i + length M)), (Nat.ltb_spec b (i + S (length M))), (Nat.ltb_spec a (0 + length row)); simpl in *; try lia; auto.
    all: try solve [replace (b - i) with (S (b - S i)) by lia; auto]; try solve [subst; now rewrite Nat.sub_diag]. Qed.

Lemma matrixPresent_iff n M : wf n M -> (matrixPresent M = true <-> M <> [] /\ 0 < n).
Proof. intros H. destruct M as [|r M]; simpl; [split; [discriminate|tauto]|]. apply wf_cons in H as [Hr _].
  destruct r; simpl in *; split; try discriminate; auto; try (intros [_ ?]; lia). intros _; split; [discriminate|lia]. Qed.

Lemma wf_hd n M : wf n M -> M <> [] -> length (hd [] M) = n.
Proof. intros H Hn. destruct M; [tauto|]. apply wf_cons in H; simpl; tauto. Qed.

Lemma getTranspose_ok n M : wf n M -> M <> [] -> 0 < n -> getTranspose M = Ok (transpose n M).
Proof. intros HM Hne Hn. unfold getTranspose. rewrite (proj2 (matrixPresent_iff n M HM)) by auto.
  rewrite (wf_hd n) by auto.
  assert (HS : shape n (length M) (repeat (repeat false (length M)) n)).
  { split; [apply repeat_length|]. intros j Hj.
    rewrite (nth_indep _ [] (repeat false (length M))) by (rewrite repeat_length; auto). rewrite nth_repeat. apply repeat_length. }
  destruct (transpRows_ok n (length M) M 0 (repeat (repeat false (length M)) n) HM HS) as (T & E & [HT1 HT2] & Hent); [lia|].
  rewrite E. f_equal. apply nth_ext with (d := []) (d' := []); [now rewrite transpose_length|]. rewrite HT1. intros a Ha.
  apply (vec_ext (length M)); auto; [rewrite nth_transpose by auto; apply col_length|]. intros b Hb.
  rewrite transpose_entry by auto. rewrite Hent by auto. rewrite Nat.sub_0_r.
  destruct (Nat.leb_spec 0 b), (Nat.ltb_spec b (0 + length M)); simpl; auto; lia. Qed.

(** ** toCsc *)
Lemma toCsc_ok n M : wf n M -> M <> [] ->
  exists csc, toCsc M = Ok csc /\ length csc = n /\ csc_ok (length M) csc /\ csc_cols (length M) csc = transpose n M.
Proof. intros HM Hne. destruct M as [|r0 M0] eqn:EM; [tauto|]. unfold toCsc.
  assert (Hr0 : length r0 = n) by (apply wf_cons in HM; tauto).
  rewrite <- EM in *. replace (forallb _ M) with true.
  2:{ symmetry. apply forallb_forall. intros r Hr. rewrite (wf_in n M r HM Hr). apply Nat.leb_le; lia. }
  eexists. split; [reflexivity|]. rewrite Hr0. split; [now rewrite map_length, seq_length|]. split.
  - apply Forall_map, Forall_forall. intros i Hi. apply Forall_forall. intros j Hj. apply filter_In in Hj as [Hj _]. apply in_seq in Hj. lia.
  - unfold csc_cols, transpose. rewrite map_map. apply map_ext_in. intros i Hi. apply in_seq in Hi.
    apply (vec_ext (length M)); auto using supp_vec_length, col_length. intros j Hj. rewrite nth_supp_vec, nth_col by auto.
    destruct (nth i (nth j M []) false) eqn:E.
    + apply existsb_eqb_In, filter_In. split; auto. apply in_seq; lia.
    + apply not_true_iff_false. rewrite existsb_eqb_In, filter_In. intros [_ ?]; congruence. Qed.

Lemma onesIdx_ok v : Forall (fun i => i < length v) (onesIdx v) /\ supp_vec (length v) (onesIdx v) = v.
Proof. split.
  - apply Forall_forall. intros i Hi. apply filter_In in Hi as [Hi _]. apply in_seq in Hi; lia.
  - apply (vec_ext (length v)); auto using supp_vec_length. intros i Hi. rewrite nth_supp_vec by auto.
    destruct (nth i v false) eqn:E.
    + apply existsb_eqb_In, filter_In. split; auto. apply in_seq; lia.
    + apply not_true_iff_false. rewrite existsb_eqb_In. unfold onesIdx. rewrite filter_In. intros [_ ?]; congruence. Qed.

Lemma existsb_id_zero v : existsb (fun b => b) v = false <-> v = vzero (length v).
Proof. induction v as [|b v IH]; simpl; [split; auto|]. rewrite orb_false_iff, IH, vzero_S. split.
  - intros [-> E]. congruence. - intros H; injection H; auto. Qed.

Theorem rowspace_ok n M v : wf n M -> M <> [] -> 0 < n -> length v = n ->
  exists b, isVectorInRowspace M v = Ok b /\ (b = true <-> span n M v).
Proof. intros HM Hne Hn Hv. unfold isVectorInRowspace.
  rewrite (proj2 (matrixPresent_iff n M HM)) by auto. simpl.
  destruct v as [|b0 v0] eqn:Ev; [simpl in Hv; lia|]. rewrite <- Ev in *. replace (vectorPresent v) with true by now rewrite Ev. simpl.
  destruct (existsb (fun b => b) v) eqn:Ez; simpl.
  2:{ exists true. split; auto. split; auto. intros _. apply existsb_id_zero in Ez. rewrite Ez, Hv. apply span_zero. }
  rewrite (wf_hd n) by auto. rewrite Hv, Nat.eqb_refl. simpl.
  rewrite (getTranspose_ok n) by auto. simpl.
  assert (Ht : wf (length M) (transpose n M)) by apply transpose_wf.
  assert (Hlen : length (transpose n M) = n) by apply transpose_length.
  assert (Htn : transpose n M <> []) by (intros E; rewrite E in Hlen; simpl in Hlen; lia).
  destruct (toCsc_ok (length M) (transpose n M) Ht Htn) as (csc & Ecsc & Hl & Hok & Hcols).
  rewrite Ecsc. simpl. rewrite (wf_hd (length M)) by auto. rewrite Hlen in *.
  destruct (onesIdx_ok v) as [Ho1 Ho2]. rewrite Hv in *.
  assert (Hcols' : csc_cols n csc = M).
  { rewrite Hcols. rewrite transpose_involutive; auto. }
  assert (R1 : has_rank n M (matrixRank (pluDecompose n (length M) csc))).
  { pose proof (plu_rank n csc Hok) as R. now rewrite Hcols', Hl in R. }
  assert (Hok2 : csc_ok n (csc ++ [onesIdx v])) by (apply Forall_app; split; auto).
  assert (R2 : has_rank n (M ++ [v]) (matrixRank (pluDecompose n (length M + 1) (csc ++ [onesIdx v])))).
  { replace (length M + 1) with (length (csc ++ [onesIdx v])) by (rewrite app_length; simpl; lia).
    replace (M ++ [v]) with (csc_cols n (csc ++ [onesIdx v])).
    - now apply plu_rank.
    - unfold csc_cols. rewrite map_app. fold (csc_cols n csc). rewrite Hcols'. simpl. now rewrite Ho2. }
  eexists. split; [reflexivity|]. rewrite Nat.eqb_eq.
  rewrite (span_iff_rank n M v _ HM Hv R1). split.
  - intros <-. auto.
  - intros R3. apply (has_rank_unique n (M ++ [v])); auto. apply wf_app; split; auto. constructor; auto. Qed.

Lemma rowspace_dim n M v : wf n M -> M <> [] -> 0 < n -> length v <> n -> v <> vzero (length v) ->
  isVectorInRowspace M v = Err QeccException.
Proof. intros HM Hne Hn Hv Hz. unfold isVectorInRowspace. rewrite (proj2 (matrixPresent_iff n M HM)) by auto. simpl.
  destruct v as [|b0 v0]; [exfalso; apply Hz; reflexivity|]. cbn [vectorPresent negb].
  destruct (existsb (fun b => b) (b0 :: v0)) eqn:E; [|apply existsb_id_zero in E; tauto]. cbn [negb].
  rewrite (wf_hd n) by auto. destruct (Nat.eqb_spec (length (b0 :: v0)) n); [tauto|]. reflexivity. Qed.

Lemma rowspace_zero n M k : wf n M -> M <> [] -> 0 < n -> 0 < k -> isVectorInRowspace M (vzero k) = Ok true.
Proof. intros HM Hne Hn Hk. unfold isVectorInRowspace. rewrite (proj2 (matrixPresent_iff n M HM)) by auto. simpl.
  destruct k; [lia|]. simpl. replace (existsb (fun b => b) (repeat false k)) with false; auto.
  symmetry. apply existsb_id_zero. unfold vzero. now rewrite repeat_length. Qed.

(** ** multiplication *)
Lemma accRow_ok acc row v : length row = length v -> accRow acc row v = Ok (xorb acc (dot row v)).
Proof. revert acc row; induction v as [|x v IH]; intros acc [|y row]; simpl; try discriminate; intros H.
  - now rewrite xorb_false_r.
  - rewrite IH by lia. now rewrite xorb_assoc. Qed.

Lemma mulRows_ok n M v res : wf n M -> length v = n -> length M <= length res ->
  mulRows M v res = Ok (vxor (firstn (length M) res) (mulMV M v) ++ skipn (length M) res).
Proof. intros HM Hv; revert res; induction HM as [|r M Hr HM IH]; intros res Hl; simpl in *; auto.
  destruct res as [|a res]; simpl in *; [lia|]. rewrite accRow_ok by lia. simpl. rewrite IH by lia. reflexivity. Qed.

Lemma rectMul_ok n M v cap res : wf n M -> M <> [] -> 0 < n -> length v = n -> length M <= cap -> length res = length M ->
  rectMatrixMultiply M v cap res = Ok (vxor res (mulMV M v)).
Proof. intros HM Hne Hn Hv Hc Hr. unfold rectMatrixMultiply. rewrite (proj2 (matrixPresent_iff n M HM)) by auto. simpl.
  replace (vectorPresent v) with true by (destruct v; simpl in *; auto; lia). simpl.
  rewrite (wf_hd n), Hv, Nat.eqb_refl by auto. simpl. destruct (Nat.ltb_spec cap (length M)); [lia|].
  rewrite (mulRows_ok n) by (auto; lia). rewrite firstn_all2, skipn_all2, app_nil_r by lia. auto. Qed.

Lemma syndromeOf_ok n H e : wf n H -> H <> [] -> 0 < n -> length e = n -> syndromeOf H e = Ok (mulMV H e).
Proof. intros. unfold syndromeOf. rewrite (rectMul_ok n); auto using repeat_length. f_equal.
  fold (vzero (length H)). now rewrite vxor_zero_l by apply mulMV_length. Qed.

Lemma rectMul_dim n M v cap res : wf n M -> M <> [] -> 0 < n -> v <> [] -> length v <> n ->
  rectMatrixMultiply M v cap res = Err QeccException.
Proof. intros HM Hne Hn Hv Hl. unfold rectMatrixMultiply. rewrite (proj2 (matrixPresent_iff n M HM)) by auto. simpl.
  replace (vectorPresent v) with true by (destruct v; simpl in *; auto; tauto). simpl.
  rewrite (wf_hd n) by auto. destruct (Nat.eqb_spec n (length v)); [lia|]. reflexivity. Qed.

Lemma residual_ok e r : length r <= length e -> computeResidualErr e r = Ok (vxor (firstn (length r) e) r).
Proof. revert e; induction r as [|b r IH]; intros e H; simpl in *; auto.
  - destruct e; auto.
  - destruct e as [|a e]; simpl in *; [lia|]. rewrite IH by lia. simpl. repeat f_equal. destruct a, b; auto. Qed.

Lemma residual_err e r : length e < length r -> computeResidualErr e r = Err OutOfRange.
Proof. revert r; induction e as [|a e IH]; intros [|b r] H; simpl in *; try lia; auto. rewrite IH by lia. auto. Qed.

(** ** neighbours *)
Lemma nbrs_bit n M i : wf n M -> M <> [] -> i < n ->
  exists l, nbrsUncached M i = Ok l /\ NoDup l /\
  forall k, In k l <-> exists c, c < length M /\ k = n + c /\ nth i (nth c M []) false = true.
Proof. intros HM Hne Hi. unfold nbrsUncached. rewrite (proj2 (matrixPresent_iff n M HM)) by (split; auto; lia). cbn [negb].
  rewrite (wf_hd n) by auto. destruct (Nat.ltb_spec i n); [|lia]. eexists. split; [reflexivity|]. split.
  - apply FinFun.Injective_map_NoDup; [intros a b; lia|]. apply NoDup_filter, seq_NoDup.
  - intros k. rewrite in_map_iff. split.
    + intros (c & <- & Hc). apply filter_In in Hc as [Hc E]. apply in_seq in Hc. exists c. split; [lia|auto].
    + intros (c & Hc & -> & E). exists c. split; auto. apply filter_In. split; auto. apply in_seq; lia. Qed.

Lemma nbrs_check n M c : wf n M -> M <> [] -> 0 < n -> c < length M ->
  exists l, nbrsUncached M (n + c) = Ok l /\ NoDup l /\
  forall i, In i l <-> i < n /\ nth i (nth c M []) false = true.
Proof. intros HM Hne Hn Hc. unfold nbrsUncached. rewrite (proj2 (matrixPresent_iff n M HM)) by auto. cbn [negb].
  rewrite (wf_hd n) by auto. destruct (Nat.ltb_spec (n + c) n); [lia|]. replace (n + c - n) with c by lia.
  destruct (Nat.ltb_spec c (length M)); [|lia]. eexists. split; [reflexivity|]. split.
  - apply NoDup_filter, seq_NoDup.
  - intros i. rewrite filter_In, in_seq. split; intros [? ?]; split; auto; lia. Qed.

Lemma nbrs_out n M i : wf n M -> M <> [] -> 0 < n -> n + length M <= i -> nbrsUncached M i = Err OutOfRange.
Proof. intros HM Hne Hn Hi. unfold nbrsUncached. rewrite (proj2 (matrixPresent_iff n M HM)) by auto. cbn [negb].
  rewrite (wf_hd n) by auto. destruct (Nat.ltb_spec i n); [lia|]. destruct (Nat.ltb_spec (i - n) (length M)); [lia|]. auto. Qed.

(** any history of queries on one matrix *)
Fixpoint runQueries (pcm : mat) (c : cache) (qs : list nat) : list (result (list nat)) :=
  match qs with
  | [] => []
  | q :: qs' => let (r, c') := getNbrs pcm c q in r :: runQueries pcm c' qs'
  end.

Definition cache_ok (pcm : mat) (c : cache) : Prop := forall k v, cacheFind c k = Some v -> nbrsUncached pcm k = Ok v.

Lemma runQueries_ok pcm c qs : cache_ok pcm c -> runQueries pcm c qs = map (nbrsUncached pcm) qs.
Proof. revert c; induction qs as [|q qs IH]; intros c Hc; simpl; auto. unfold getNbrs.
  destruct (cacheFind c q) eqn:E.
  - rewrite (Hc _ _ E). f_equal; auto.
  - destruct (nbrsUncached pcm q) eqn:E2; f_equal; auto. apply IH. intros k v. simpl.
    destruct (Nat.eqb_spec k q) as [->|]; auto. congruence. Qed.
