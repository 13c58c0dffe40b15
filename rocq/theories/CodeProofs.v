(** * CodeProofs: lemmas behind C01-C05, C31. *)
From Verif Require Import Lin2 UtilsModel PluProofs PluProofs2 UtilsProofs.

Lemma plu_rank_rows m csc : csc_ok m csc ->
  has_rank (length csc) (transpose m (csc_cols m csc)) (matrixRank (pluDecompose m (length csc) csc)).
Proof. intros H. pose proof (plu_rank m csc H) as R. apply row_rank_col_rank in R; [|apply csc_cols_wf].
  unfold csc_cols at 1 in R. now rewrite map_length in R. Qed.

Lemma lusolve_len m n st y : length y <> m -> luSolve m n st y = None.
Proof. intros H. unfold luSolve. destruct (Nat.eqb_spec (length y) m); tauto. Qed.

Lemma lusolve_some m csc y : csc_ok m csc -> length y = m ->
  luSolve m (length csc) (pluDecompose m (length csc) csc) y <> None.
Proof. intros _ H. unfold luSolve. rewrite H, Nat.eqb_refl. discriminate. Qed.

(** matrix-vector form of luSolve *)
Lemma lusolve_mulMV m n csc M y : csc_ok m csc -> length csc = n -> wf n M -> length M = m ->
  csc_cols m csc = transpose n M -> length y = m -> (exists x0, length x0 = n /\ mulMV M x0 = y) ->
  exists x, luSolve m n (pluDecompose m n csc) y = Some x /\ length x = n /\ mulMV M x = y.
Proof. intros Hok Hl HM Hm Hc Hy (x0 & Hx0 & E0).
  destruct (lusolve_ok m csc y Hok Hy) as (x & E & Hxl & Ex).
  - rewrite Hc. exists x0. rewrite transpose_length. split; auto. rewrite <- E0, (mulMV_lincomb n); subst; auto.
  - rewrite Hl in *. exists x. repeat split; auto. rewrite (mulMV_lincomb n); auto. rewrite Hm, <- Hc. auto. Qed.

(** two-sided codes *)
Definition code2 (n : nat) (hx hz : mat) : Prop :=
  wf n hx /\ wf n hz /\ hx <> [] /\ hz <> [] /\ 0 < n.

Lemma codeXZ_n n hx hz : code2 n hx hz -> c_n (codeXZ hx hz) = n.
Proof. intros (H1 & H2 & H3 & H4 & H5). simpl. now apply wf_hd. Qed.

Lemma xstab_ok n hx hz e : code2 n hx hz -> length e = n ->
  exists b, isXStabilizer (codeXZ hx hz) e = Ok b /\ (b = true <-> span n hx e).
Proof. intros (H1 & H2 & H3 & H4 & H5) He. apply rowspace_ok; auto. Qed.

Lemma xsyn_ok n hx hz e : code2 n hx hz -> length e = n -> getXSyndrome (codeXZ hx hz) e = Ok (mulMV hz e).
Proof. intros HC He. unfold getXSyndrome. rewrite (codeXZ_n n) by auto. destruct HC as (H1 & H2 & H3 & H4 & H5).
  replace (vectorPresent e) with true by (destruct e; simpl in *; auto; lia). cbn [negb].
  destruct (Nat.ltb_spec n (length e)); [lia|]. simpl. now apply (syndromeOf_ok n). Qed.

Lemma syn2_ok n hx hz ex ez : code2 n hx hz -> length ex = n -> length ez = n ->
  getXSyndrome (codeXZ hx hz) (ex ++ ez) = Ok (mulMV hz ex ++ mulMV hx ez).
Proof. intros HC Hx Hz. unfold getXSyndrome. rewrite (codeXZ_n n) by auto. destruct HC as (H1 & H2 & H3 & H4 & H5).
  replace (vectorPresent (ex ++ ez)) with true by (destruct ex; simpl in *; auto; lia). cbn [negb]. rewrite app_length.
  destruct (Nat.ltb_spec n (length ex + length ez)); [|lia].
  rewrite firstn_app, skipn_app, Hx, Nat.sub_diag, firstn_all2, skipn_all2 by lia. simpl firstn. simpl skipn. rewrite app_nil_r. simpl app.
  unfold getSyndrome. rewrite (codeXZ_n n) by (repeat split; auto). rewrite Hx, Hz, !Nat.eqb_refl.
  replace (vectorPresent ex) with true by (destruct ex; simpl in *; auto; lia).
  replace (vectorPresent ez) with true by (destruct ez; simpl in *; auto; lia). simpl.
  rewrite !(syndromeOf_ok n) by auto. reflexivity. Qed.

Lemma stab2_ok n hx hz ex ez : code2 n hx hz -> length ex = n -> length ez = n ->
  exists b, isStabilizer1 (codeXZ hx hz) (ex ++ ez) = Ok b /\ (b = true <-> span n hx ex /\ span n hz ez).
Proof. intros HC Hx Hz. unfold isStabilizer1. rewrite (codeXZ_n n) by auto. destruct HC as (H1 & H2 & H3 & H4 & H5).
  destruct (forallb negb (ex ++ ez)) eqn:E0.
  - exists true. split; auto. split; auto. intros _. rewrite forallb_app in E0. apply andb_true_iff in E0 as [Ea Eb].
    assert (G : forall v, forallb negb v = true -> v = vzero (length v)).
    { clear. induction v as [|b v IH]; simpl; auto. rewrite vzero_S. destruct b; simpl; [discriminate|]. intros; f_equal; auto. }
    rewrite (G ex Ea), (G ez Eb), Hx, Hz. split; apply span_zero.
  - rewrite app_length. destruct (Nat.ltb_spec n (length ex + length ez)); [|lia].
    replace ((length ex + length ez) / 2) with n by (rewrite Hx, Hz; replace (n + n) with (n * 2) by lia; now rewrite Nat.div_mul).
    rewrite firstn_app, skipn_app, Hx, Nat.sub_diag, firstn_all2, skipn_all2 by lia. simpl firstn. simpl skipn. rewrite app_nil_r. simpl app.
    unfold isStabilizer2. simpl. destruct (rowspace_ok n hx ex) as (bx & -> & Hbx); auto. simpl.
    destruct (rowspace_ok n hz ez) as (bz & Ebz & Hbz); auto. destruct bx.
    + rewrite Ebz. exists bz. split; auto. tauto.
    + exists false. split; auto. split; [discriminate|]. intros [Hs _]. apply Hbx in Hs; discriminate. Qed.

Lemma stab_zero_syndrome n hx hz e : code2 n hx hz -> length e = n -> orthogonal hx hz ->
  isXStabilizer (codeXZ hx hz) e = Ok true -> getXSyndrome (codeXZ hx hz) e = Ok (vzero (length hz)).
Proof. intros HC He Ho Hs. destruct (xstab_ok n hx hz e HC He) as (b & E & Hb). rewrite E in Hs. injection Hs as ->.
  rewrite (xsyn_ok n) by auto. f_equal. destruct HC as (H1 & H2 & _).
  apply in_kernel_mulMV with (n := n); auto. split; auto. intros r Hr.
  apply (dot_span_zero n hx r H1); [|now apply Hb]. intros k Hk. rewrite dot_comm; auto. Qed.

Lemma residual_verdict n hx hz e est s r1 r2 : code2 n hx hz -> length e = n -> length est = n -> span n hx s ->
  computeResidualErr e est = Ok r1 -> computeResidualErr e (vxor est s) = Ok r2 ->
  isXStabilizer (codeXZ hx hz) r1 = isXStabilizer (codeXZ hx hz) r2.
Proof. intros HC He Hest Hs E1 E2. assert (HC' := HC). destruct HC' as (H1 & H2 & H3 & H4 & H5).
  assert (Hsl : length s = n) by (apply (span_length n hx); auto).
  assert (Hl2 : length (vxor est s) = n) by (apply vxor_length'; auto).
  rewrite residual_ok in E1, E2 by lia. rewrite firstn_all2 in E1, E2 by lia. injection E1 as <-. injection E2 as <-.
  destruct (xstab_ok n hx hz (vxor e est) HC) as (b1 & -> & Hb1); [apply vxor_length'; auto|].
  destruct (xstab_ok n hx hz (vxor e (vxor est s)) HC) as (b2 & -> & Hb2); [apply vxor_length'; auto|].
  f_equal. apply eq_true_iff_eq. rewrite Hb1, Hb2. rewrite (vxor_assoc e est s). split; intros H.
  - apply span_vxor; auto.
  - replace (vxor e est) with (vxor (vxor (vxor e est) s) s); [apply span_vxor; auto|].
    rewrite <- (vxor_assoc _ s s), (vxor_self' n s), vxor_zero_r; auto. apply vxor_length'; auto. Qed.

Lemma xsyn_linear n hx hz a b : code2 n hx hz -> length a = n -> length b = n ->
  exists sa sb, getXSyndrome (codeXZ hx hz) a = Ok sa /\ getXSyndrome (codeXZ hx hz) b = Ok sb /\
                getXSyndrome (codeXZ hx hz) (vxor a b) = Ok (vxor sa sb).
Proof. intros HC Ha Hb. exists (mulMV hz a), (mulMV hz b). rewrite !(xsyn_ok n) by (auto; apply vxor_length'; auto).
  repeat split; auto. f_equal. now apply mulMV_vxor with (n := n). Qed.

Lemma nbrs_symmetric n M i c : wf n M -> M <> [] -> i < n -> c < length M ->
  exists li lc, nbrsUncached M i = Ok li /\ nbrsUncached M (n + c) = Ok lc /\ (In (n + c) li <-> In i lc).
Proof. intros HM Hne Hi Hc. destruct (nbrs_bit n M i HM Hne Hi) as (li & E1 & _ & H1).
  destruct (nbrs_check n M c HM Hne) as (lc & E2 & _ & H2); auto; [lia|]. exists li, lc. repeat split; auto.
  - intros H. apply H1 in H as (c' & Hc' & E & Ht). assert (c' = c) by lia. subst. apply H2; auto.
  - intros H. apply H2 in H as [_ Ht]. apply H1. exists c; auto. Qed.

Lemma transpose_prop n M : wf n M -> M <> [] -> 0 < n ->
  exists T, getTranspose M = Ok T /\ length T = n /\
    (forall i j, i < length M -> j < n -> nth i (nth j T []) false = nth j (nth i M []) false) /\
    getTranspose T = Ok M.
Proof. intros HM Hne Hn. exists (transpose n M). repeat split.
  - now apply getTranspose_ok. - apply transpose_length. - apply transpose_entry.
  - rewrite (getTranspose_ok (length M)); auto using transpose_wf.
    + now rewrite transpose_involutive.
    + intros E. pose proof (transpose_length n M) as L. rewrite E in L. simpl in L. lia.
    + destruct M; [tauto|simpl; lia]. Qed.

Lemma getTranspose_empty M : (M = [] \/ hd [] M = []) -> getTranspose M = Err QeccException.
Proof. intros [->|H]; [reflexivity|]. destruct M as [|[|b r] M]; simpl in H; try discriminate; reflexivity. Qed.

Lemma rectMul_prop n M v cap res : wf n M -> M <> [] -> 0 < n -> length res = length M -> length M <= cap -> v <> [] ->
  rectMatrixMultiply M v cap res = if length v =? n then Ok (vxor res (mulMV M v)) else Err QeccException.
Proof. intros. destruct (Nat.eqb_spec (length v) n); [now apply (rectMul_ok n) | now apply (rectMul_dim n)]. Qed.

Lemma residual_prop n e r : length e = n -> length r = n ->
  computeResidualErr e r = Ok (vxor e r) /\ (computeResidualErr e r = Ok (vzero n) <-> e = r).
Proof. intros He Hr. rewrite residual_ok by lia. rewrite firstn_all2 by lia. split; auto. split.
  - intros E. injection E as E. now apply (vxor_eq_zero n). - intros ->. f_equal. now apply vxor_self'. Qed.

Lemma queries_prop pcm qs : runQueries pcm [] qs = map (nbrsUncached pcm) qs.
Proof. apply runQueries_ok. intros k v H; discriminate. Qed.
