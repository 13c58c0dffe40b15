(** * CssProofs: CSS codes *)
From Verif Require Export StabProofs2 CssModel.

(** contract of the ldpc.mod2 functions *)
Definition ldpc_ok (L : ldpc) : Prop :=
  (forall n M, wf n M -> wf n (l_nullspace L n M) /\ indep n (l_nullspace L n M) /\ forall x, span n (l_nullspace L n M) x <-> in_kernel n M x) /\
  (forall n M, wf n M -> basis_of n (l_row_basis L n M) M) /\
  (forall n M, wf n M -> forall j, In j (l_pivots_T L n M) <-> j < length M /\ ~ span n (firstn j M) (nth j M [])).

(** an executable instance (non-vacuity of the contract) *)
Fixpoint pivs (n : nat) (pre M : mat) (j : nat) : list nat :=
  match M with
  | [] => []
  | r :: M' => if in_spanb n pre r then pivs n (pre ++ [r]) M' (S j) else j :: pivs n (pre ++ [r]) M' (S j)
  end.
Fixpoint rowbasis (n : nat) (pre M : mat) : mat :=
  match M with
  | [] => pre
  | r :: M' => if in_spanb n pre r then rowbasis n pre M' else rowbasis n (pre ++ [r]) M'
  end.
Definition ldpc_ref : ldpc := mkLdpc kernel (fun n M => rowbasis n [] M) (fun n M => pivs n [] M 0).

Lemma pivs_spec n pre M : wf n (pre ++ M) -> forall j,
  In j (pivs n pre M (length pre)) <-> length pre <= j /\ j < length (pre ++ M) /\ ~ span n (firstn j (pre ++ M)) (nth j (pre ++ M) []).
Proof. revert pre; induction M as [|r M IH]; intros pre W j.
  - simpl. rewrite app_nil_r. split; [tauto|]. lia.
  - assert (W2 : wf n ((pre ++ [r]) ++ M)) by (rewrite <- app_assoc; exact W).
    pose proof (proj1 (wf_app _ _ _) W) as [Wp Wr]. assert (Hr : length r = n) by (inversion Wr; auto).
    specialize (IH (pre ++ [r]) W2 j). rewrite <- app_assoc in IH. simpl app in IH. rewrite !app_length in IH. simpl in IH.
    replace (length pre + 1) with (S (length pre)) in IH by lia.
    pose proof (in_spanb_spec n pre r Wp Hr) as HS. simpl pivs.
    assert (E : firstn (length pre) (pre ++ r :: M) = pre /\ nth (length pre) (pre ++ r :: M) [] = r).
    { split; [apply firstn_len_app; auto|]. rewrite app_nth2 by lia. rewrite Nat.sub_diag. reflexivity. }
    destruct E as [E1 E2]. rewrite app_length. simpl length. destruct (in_spanb n pre r).
    + rewrite IH. split; [intros (A & B & C); repeat split; auto; lia|]. intros (A & B & C). repeat split; auto.
      destruct (Nat.eq_dec j (length pre)) as [->|]; [|lia]. rewrite E1, E2 in C. tauto.
    + simpl. rewrite IH. split.
      * intros [<-|(A & B & C)]; [|repeat split; auto; lia]. split; [lia|]. split; [lia|]. rewrite E1, E2. intros S. apply HS in S. discriminate.
      * intros (A & B & C). destruct (Nat.eq_dec (length pre) j); [left; auto|]. right. repeat split; auto. lia. Qed.

Lemma rowbasis_spec n pre M : wf n pre -> wf n M -> indep n pre -> basis_of n (rowbasis n pre M) (pre ++ M).
Proof. revert pre; induction M as [|r M IH]; intros pre Wp WM I.
  - simpl. rewrite app_nil_r. repeat split; auto.
  - inversion WM as [|? ? Hr WM']; subst. simpl. pose proof (in_spanb_spec _ pre r Wp eq_refl) as HS.
    destruct (in_spanb _ pre r).
    + destruct (IH pre Wp WM' I) as (A & B & C). split; auto. split; auto. intros v. rewrite C.
      split; apply span_incl; try (apply wf_app; auto).
      * intros x Hx. apply span_in; [apply wf_app; auto|]. apply in_app_iff in Hx as [|]; apply in_or_app; simpl; auto.
      * intros x Hx. apply in_app_iff in Hx as [Hx|[<-|Hx]].
        -- apply span_in; [apply wf_app; auto|]. apply in_or_app; auto.
        -- apply span_app_l; auto. now apply HS.
        -- apply span_in; [apply wf_app; auto|]. apply in_or_app; auto.
    + assert (wf (length r) (pre ++ [r])) by (apply wf_app; split; auto; constructor; auto).
      destruct (IH (pre ++ [r])) as (A & B & C); auto.
      { apply indep_app_comm_in; auto; [constructor; auto|]. change ([r] ++ pre) with (r :: pre). apply indep_cons; auto. split; auto. intros S. apply HS in S. discriminate. }
      split; auto. split; auto. intros v. rewrite C. rewrite <- app_assoc. reflexivity. Qed.

Lemma ldpc_ref_ok : ldpc_ok ldpc_ref.
Proof. split; [|split]; simpl.
  - intros n M W. split; [now apply kernel_wf|]. split; [now apply kernel_indep|]. intros x; now apply kernel_span.
  - intros n M W. apply (rowbasis_spec n [] M); auto; [constructor | apply indep_nil].
  - intros n M W j. pose proof (pivs_spec n [] M W j) as P. simpl in P. rewrite P. split; [tauto | intros; split; [lia | auto]]. Qed.

(** ** pivot rows form a basis *)
Definition pivrows (piv : nat -> bool) (s : nat) (M S : mat) : mat := map (fun i => nth i S []) (filter piv (seq s (length M))).

Lemma pivot_basis_gen n S (piv : nat -> bool) : wf n S ->
  (forall j, j < length S -> (piv j = true <-> ~ span n (firstn j S) (nth j S []))) ->
  forall k, k <= length S -> basis_of n (map (fun i => nth i S []) (filter piv (seq 0 k))) (firstn k S).
Proof. intros W H k. induction k as [|k IH]; intros Hk.
  - simpl. split; [constructor|]. split; [apply indep_nil|]. tauto.
  - destruct IH as (A & B & C); [lia|]. rewrite seq_S, filter_app, map_app, Nat.add_0_l. cbn [filter].
    assert (Er : firstn (Datatypes.S k) S = firstn k S ++ [nth k S []]).
    { clear -Hk. revert k Hk; induction S as [|r S IH]; intros k Hk; [simpl in Hk; lia|]. destruct k; [reflexivity|].
      change (r :: firstn (Datatypes.S k) S = r :: (firstn k S ++ [nth k S []])). f_equal. apply IH. simpl in Hk; lia. }
    assert (Hr : length (nth k S []) = n) by (apply (wf_in n S); auto; apply nth_In; lia).
    assert (Wf : wf n (firstn k S)). { apply Forall_forall. intros x Hx. apply (wf_in n S); auto. rewrite <- (firstn_skipn k S); apply in_or_app; auto. }
    rewrite Er. specialize (H k ltac:(lia)). destruct (piv k).
    + simpl. split; [apply wf_app; split; auto; constructor; auto|]. split.
      * apply indep_app_comm_in; auto; [constructor; auto|]. apply indep_cons; auto. split; auto. rewrite C. now apply H.
      * intros v. assert (Wr : wf n [nth k S []]) by (constructor; auto).
        rewrite !span_app_iff by auto. split; intros (a & b & Ha & Hb & E); exists a, b; repeat split; auto; now apply C.
    + simpl. rewrite app_nil_r. split; auto. split; auto. intros v. rewrite C. split.
      * apply span_app_l; auto. constructor; auto.
      * apply span_incl; auto; [apply wf_app; split; auto; constructor; auto|]. intros x Hx. apply in_app_iff in Hx as [Hx|[<-|[]]]; [now apply span_in|].
        destruct (span_dec n (firstn k S) (nth k S [])) as [|NS]; auto. apply H in NS. discriminate. Qed.

Lemma wf_firstn n k S : wf n S -> wf n (firstn k S).
Proof. intros W. apply Forall_forall. intros x Hx. apply (wf_in n S); auto. rewrite <- (firstn_skipn k S); apply in_or_app; auto. Qed.

Lemma filter_all {A} (f : A -> bool) l : (forall x, In x l -> f x = true) -> filter f l = l.
Proof. induction l as [|a l IH]; simpl; auto. intros H. rewrite (H a) by auto. f_equal. apply IH; auto. Qed.

Lemma compute_logical_spec L n m1 m2 : ldpc_ok L -> wf n m1 -> wf n m2 -> (forall r, In r m2 -> in_kernel n m1 r) ->
  let Lg := compute_logical L n m1 m2 in
  wf n Lg /\ (forall r, In r Lg -> in_kernel n m1 r) /\
  basis_of n (l_row_basis L n m2 ++ Lg) (l_nullspace L n m1) /\
  length Lg + rk n m1 + rk n m2 = n.
Proof. intros (HN & HB & HP) W1 W2 HO Lg.
  destruct (HN n m1 W1) as (WK & IK & SK). destruct (HB n m2 W2) as (WI & II & SI).
  set (K := l_nullspace L n m1) in *. set (I := l_row_basis L n m2) in *. set (S := I ++ K) in *.
  assert (WS : wf n S) by (apply wf_app; auto).
  set (piv := fun i => existsb (Nat.eqb i) (l_pivots_T L n S)).
  assert (PV : forall j, j < length S -> (piv j = true <-> ~ span n (firstn j S) (nth j S []))).
  { intros j Hj. unfold piv. rewrite existsb_exists.
    split.
    - intros (x & Hx & E). apply Nat.eqb_eq in E. subst x. apply (HP n S WS) in Hx. tauto.
    - intros H. exists j. split; [|apply Nat.eqb_refl]. apply (HP n S WS). auto. }
  pose proof (pivot_basis_gen n S piv WS PV (length S) (le_n _)) as (A & B & C). rewrite firstn_all in C.
  assert (LS : length S = length I + (length S - length I)) by (unfold S; rewrite app_length; lia).
  assert (EI : map (fun i => nth i S []) (filter piv (seq 0 (length I))) = I).
  { rewrite filter_all.
    - rewrite <- (map_nth_seq I []) at 2. apply map_ext_in. intros i Hi. apply in_seq in Hi. unfold S. apply app_nth1. lia.
    - intros i Hi. apply in_seq in Hi. apply PV; [unfold S; rewrite app_length; lia|].
      unfold S. rewrite app_nth1 by lia. rewrite firstn_app. replace (i - length I) with 0 by lia. simpl. rewrite app_nil_r.
      intros SP. rewrite <- (firstn_skipn i I) in II. 
      assert (Es : skipn i I = nth i I [] :: skipn (Datatypes.S i) I).
      { clear -Hi. assert (i < length I) by lia. clear Hi. revert i H; induction I as [|a I IH]; intros [|i] H; simpl in *; try lia; auto. apply IH; lia. }
      assert (Wi : wf n (skipn i I)). { apply Forall_forall. intros x Hx. apply (wf_in n I); auto. rewrite <- (firstn_skipn i I). apply in_or_app; auto. }
      assert (In (nth i I []) (skipn i I)) by (rewrite Es; now left).
      assert (D : nth i I [] = vzero n). { apply (indep_app_disjoint n (firstn i I) (skipn i I)); auto using wf_firstn. now apply span_in. }
      apply indep_app_r in II; auto using wf_firstn. rewrite Es in II, Wi. apply wf_cons in Wi as [Hd Wt]. apply indep_cons in II; auto. destruct II as [_ ND].
      apply ND. rewrite D. apply span_zero. }
  assert (ES : map (fun i => nth i S []) (filter piv (seq 0 (length S))) = I ++ Lg).
  { rewrite LS, seq_app, filter_app, map_app, EI. reflexivity. }
  rewrite ES in A, B, C.
  assert (SS : forall v, span n S v <-> span n K v).
  { intros v. unfold S. split.
    - apply span_incl; auto. intros r Hr. apply in_app_iff in Hr as [Hr|Hr]; [|now apply span_in].
      apply SK. assert (Sr : span n m2 r) by (apply SI; now apply span_in). 
      assert (HL : length r = n) by (apply (span_length n m2); auto).
      split; auto. intros q Hq. apply (dot_span_zero n m2 q W2); auto. intros k Hk. apply HO; auto.
    - now apply span_app_r. }
  assert (WL : wf n Lg) by (apply wf_app in A; tauto).
  split; auto. split; [|split].
  - intros r Hr. apply SK. apply SS. apply C. apply span_in; auto. apply in_or_app; auto.
  - split; auto. split; auto. intros v. now rewrite C, SS.
  - assert (R1 : has_rank n K (length I + length Lg)). { exists (I ++ Lg). split; [|now rewrite app_length]. split; auto. split; auto. intros v. now rewrite C, SS. }
    assert (R2 : has_rank n K (length K)) by now apply has_rank_indep.
    pose proof (has_rank_unique n K _ _ WK R1 R2) as E.
    assert (R3 : has_rank n (kernel n m1) (length (kernel n m1))) by (apply has_rank_indep; [now apply kernel_wf | now apply kernel_indep]).
    assert (R4 : has_rank n (kernel n m1) (length K)). { apply (has_rank_span n K (kernel n m1)); auto. intros v. rewrite SK. now rewrite kernel_span. }
    pose proof (has_rank_unique n _ _ _ (kernel_wf n m1 W1) R3 R4) as E2. pose proof (rank_nullity n m1 W1).
    assert (R5 : has_rank n m2 (length I)). { exists I. repeat split; auto; now apply SI. }
    apply rk_unique in R5; auto. lia. Qed.

(** ** block-diagonal rank *)
Definition padX (n : nat) (r : vec) := r ++ vzero n ++ [false].
Definition padZ (n : nat) (r : vec) := vzero n ++ r ++ [false].
Lemma padX_vxor n a b : length a = length b -> padX n (vxor a b) = vxor (padX n a) (padX n b).
Proof. intros H. unfold padX. rewrite !vxor_app by auto. rewrite (vxor_self' n) by apply vzero_length. reflexivity. Qed.
Lemma padZ_vxor n a b : length a = length b -> padZ n (vxor a b) = vxor (padZ n a) (padZ n b).
Proof. intros H. unfold padZ. rewrite !vxor_app by auto. rewrite (vxor_self' n) by apply vzero_length. reflexivity. Qed.
Lemma padX_zero n : padX n (vzero n) = vzero (2*n+1).
Proof. unfold padX. replace (2*n+1) with (n+(n+1)) by lia. now rewrite !vzero_app. Qed.
Lemma padZ_zero n : padZ n (vzero n) = vzero (2*n+1).
Proof. unfold padZ. replace (2*n+1) with (n+(n+1)) by lia. now rewrite !vzero_app. Qed.
Lemma padX_length n r : length r = n -> length (padX n r) = 2*n+1.
Proof. intros; unfold padX. rewrite !app_length, vzero_length. simpl; lia. Qed.
Lemma padZ_length n r : length r = n -> length (padZ n r) = 2*n+1.
Proof. intros; unfold padZ. rewrite !app_length, vzero_length. simpl; lia. Qed.

Lemma lincomb_map n m (f : vec -> vec) M : wf n M -> f (vzero n) = vzero m ->
  (forall a b, length a = n -> length b = n -> f (vxor a b) = vxor (f a) (f b)) ->
  forall c, lincomb m c (map f M) = f (lincomb n c M).
Proof. intros W H0 HA. induction W as [|r M Hr W IH]; intros [|b c]; simpl; auto. destruct b; auto. rewrite IH, HA; auto. now apply lincomb_length. Qed.

Lemma wf_map_len n m (f : vec -> vec) M : wf n M -> (forall r, length r = n -> length (f r) = m) -> wf m (map f M).
Proof. intros W H. apply Forall_forall. intros r Hr. apply in_map_iff in Hr as (x & <- & Hx). apply H. exact (wf_in n M _ W Hx). Qed.

Lemma block_indep n A B : wf n A -> wf n B -> indep n A -> indep n B -> indep (2*n+1) (map (padX n) A ++ map (padZ n) B).
Proof. intros WA WB IA IB c Hc E. rewrite app_length, !map_length in Hc.
  assert (WA' : wf (2*n+1) (map (padX n) A)) by (apply (wf_map_len n); auto using padX_length).
  assert (WB' : wf (2*n+1) (map (padZ n) B)) by (apply (wf_map_len n); auto using padZ_length).
  assert (La : length (firstn (length A) c) = length A) by (rewrite firstn_length; lia).
  assert (Lb : length (skipn (length A) c) = length B) by (rewrite skipn_length; lia).
  rewrite <- (firstn_skipn (length A) c). rewrite <- (firstn_skipn (length A) c) in E. clear Hc.
  set (a := firstn (length A) c) in *. set (b := skipn (length A) c) in *.
  rewrite lincomb_app in E by (auto; now rewrite map_length).
  rewrite (lincomb_map n) in E by (auto using padX_zero; intros; apply padX_vxor; lia).
  rewrite (lincomb_map n) in E by (auto using padZ_zero; intros; apply padZ_vxor; lia).
  pose proof (lincomb_length n a A WA) as LA. pose proof (lincomb_length n b B WB) as LB.
  unfold padX, padZ in E. rewrite !vxor_app in E by (rewrite ?vzero_length; auto; lia).
  rewrite vxor_zero_r, vxor_zero_l in E by auto. replace (2*n+1) with (n+(n+1)) in E by lia. rewrite !vzero_app in E.
  apply app_inj_len in E as [E1 E2]; [|now rewrite vzero_length]. apply app_inj_len in E2 as [E2 _]; [|now rewrite vzero_length].
  rewrite (IA a La E1), (IB b Lb E2), app_length, !map_length, vzero_app. reflexivity. Qed.

Lemma block_rank n A B : wf n A -> wf n B -> has_rank (2*n+1) (map (padX n) A ++ map (padZ n) B) (rk n A + rk n B).
Proof. intros WA WB. destruct (rk_correct n A WA) as (BA & (WBA & IA & SA) & LA). destruct (rk_correct n B WB) as (BB & (WBB & IB & SB) & LB).
  exists (map (padX n) BA ++ map (padZ n) BB). split; [|rewrite app_length, !map_length; lia].
  assert (W1 : forall M, wf n M -> wf (2*n+1) (map (padX n) M)) by (intros; apply (wf_map_len n); auto using padX_length).
  assert (W2 : forall M, wf n M -> wf (2*n+1) (map (padZ n) M)) by (intros; apply (wf_map_len n); auto using padZ_length).
  split; [apply wf_app; auto|]. split; [now apply block_indep|].
  assert (SX : forall M M', wf n M -> wf n M' -> (forall v, span n M v -> span n M' v) -> forall r, In r (map (padX n) M) -> span (2*n+1) (map (padX n) M') r).
  { intros M M' WM WM' HS r Hr. apply in_map_iff in Hr as (x & <- & Hx). destruct (HS x (span_in n M x WM Hx)) as (c & Hc & <-).
    exists c. rewrite map_length. split; auto. apply lincomb_map; auto using padX_zero. intros; apply padX_vxor; lia. }
  assert (SZ : forall M M', wf n M -> wf n M' -> (forall v, span n M v -> span n M' v) -> forall r, In r (map (padZ n) M) -> span (2*n+1) (map (padZ n) M') r).
  { intros M M' WM WM' HS r Hr. apply in_map_iff in Hr as (x & <- & Hx). destruct (HS x (span_in n M x WM Hx)) as (c & Hc & <-).
    exists c. rewrite map_length. split; auto. apply lincomb_map; auto using padZ_zero. intros; apply padZ_vxor; lia. }
  intros v. split; apply span_incl; try (apply wf_app; auto); intros r Hr; apply in_app_iff in Hr as [Hr|Hr].
  - apply span_app_l; auto. apply (SX BA A); auto. intros; now apply SA.
  - apply span_app_r; auto. apply (SZ BB B); auto. intros; now apply SB.
  - apply span_app_l; auto. apply (SX A BA); auto. intros; now apply SA.
  - apply span_app_r; auto. apply (SZ B BB); auto. intros; now apply SB. Qed.

(** ** the constructor *)
Definition hx_of (Hx Hz : option nd) : nd := match Hx, Hz with Some h, _ => h | None, Some h => mkNd (nd_cols h) [] | None, None => mkNd 0 [] end.
Definition hz_of (Hx Hz : option nd) : nd := match Hz with Some h => h | None => mkNd (nd_cols (hx_of Hx Hz)) [] end.
Definition opt_ok (H : option nd) : Prop := match H with Some h => nd_ok h | None => True end.

Lemma mulABt_any A B : existsb (existsb (fun b => b)) (mulABt A B) = false <-> orthogonal A B.
Proof. unfold orthogonal, mulABt, mulMV. split.
  - intros H a b Ha Hb. destruct (dot a b) eqn:E; auto. refine (False_ind _ (diff_false_true (eq_trans (eq_sym H) _))).
    apply existsb_exists. eexists. split; [apply in_map_iff; exists a; split; [reflexivity|auto]|].
    apply existsb_exists. exists true. split; auto. apply in_map_iff. exists b. split; auto. rewrite dot_comm; auto.
  - intros H. destruct (existsb _ _) eqn:E; auto. apply existsb_exists in E as (r & Hr & E). apply in_map_iff in Hr as (a & <- & Ha).
    apply existsb_exists in E as (b & Hb & ->). apply in_map_iff in Hb as (x & E & Hx). rewrite dot_comm, H in E; auto. Qed.

Lemma bins_ok n gens d : gens <> [] -> wf (2*n+1) gens -> (0 < d)%Z ->
  StabilizerCode 8 (Bins gens) (Some d) None None =
   Ret (mkStab n gens (map (@removelast bool) gens) (Z.of_nat n - Z.of_nat (rk (2*n+1) gens)) d None None).
Proof. intros N W Hd. unfold StabilizerCode. destruct gens as [|g gs] eqn:E; [congruence|]. rewrite <- E in *.
  assert (Hg : length g = 2*n+1) by (subst; inversion W; auto).
  assert (C1 : check_stabilizer_generators (Bins gens) = Ret tt).
  { subst. unfold check_stabilizer_generators. rewrite (proj2 (forallb_forall _ _)); auto.
    intros x Hx. apply Nat.eqb_eq. rewrite Hg. symmetry. exact (wf_in _ _ _ W Hx). }
  rewrite C1. cbn [pbind]. assert (EW : length (hd [] gens) = 2*n+1) by (subst; auto).
  unfold n_qubits_bin. rewrite EW, half_odd. cbn [paulis_to_binary]. rewrite (npRect_ok (2*n+1)) by auto. cbn [pbind].
  assert (ED : dropPhase gens = Ret (map (@removelast bool) gens)) by (subst; reflexivity). rewrite ED. cbn [pbind].
  unfold npWidth. rewrite EW. destruct (Z.leb_spec d 0); [lia|]. reflexivity. Qed.

Lemma bins_bad gens d : gens = [] \/ (d <= 0)%Z -> forall c, StabilizerCode 8 (Bins gens) (Some d) None None <> Ret c.
Proof. intros H c E. unfold StabilizerCode in E. destruct H as [->|H]; [discriminate|].
  destruct (check_stabilizer_generators _); [|discriminate]. cbn [pbind] in E. destruct (paulis_to_binary _); [|discriminate]. cbn [pbind] in E.
  destruct (dropPhase _); [|discriminate]. cbn [pbind] in E. destruct (Z.leb_spec d 0); [discriminate | lia]. Qed.

(** everything a constructed CSS code satisfies *)
Definition css_inv (L : ldpc) (c : css) (n : nat) (hx hz : mat) : Prop :=
  css_Hx c = mkNd n hx /\ css_Hz c = mkNd n hz /\ wf n hx /\ wf n hz /\ orthogonal hx hz /\
  css_Lx c = compute_logical L n hz hx /\ css_Lz c = compute_logical L n hx hz /\
  sc_n (css_stab c) = n /\ sc_gens (css_stab c) = map (padX n) hx ++ map (padZ n) hz /\
  sc_k (css_stab c) = (Z.of_nat n - Z.of_nat (rk n hx) - Z.of_nat (rk n hz))%Z.

Definition css_input (distance : Z) (Hx Hz : option nd) (xd zd : option Z) : Prop :=
  (Hx <> None \/ Hz <> None) /\ nd_cols (hx_of Hx Hz) = nd_cols (hz_of Hx Hz) /\
  orthogonal (nd_rows (hx_of Hx Hz)) (nd_rows (hz_of Hx Hz)) /\
  (nd_rows (hx_of Hx Hz) <> [] \/ nd_rows (hz_of Hx Hz) <> []) /\ (0 < distance)%Z /\
  (forall x, xd = Some x -> (distance <= x)%Z) /\ (forall x, zd = Some x -> (distance <= x)%Z).

Lemma orthogonal_nil_l B : orthogonal [] B. Proof. intros a b []. Qed.
Lemma orthogonal_nil_r A : orthogonal A []. Proof. intros a b _ []. Qed.

Lemma check_valid_iff Hx Hz : check_valid_check_matrices Hx Hz = Ret tt <->
  (Hx <> None \/ Hz <> None) /\ nd_cols (hx_of Hx Hz) = nd_cols (hz_of Hx Hz) /\ orthogonal (nd_rows (hx_of Hx Hz)) (nd_rows (hz_of Hx Hz)).
Proof. destruct Hx as [hx|], Hz as [hz|]; simpl.
  - destruct (Nat.eqb_spec (nd_cols hx) (nd_cols hz)) as [E|E]; cbn [negb].
    + rewrite <- mulABt_any. destruct (existsb _ _); split; try discriminate; intros; repeat split; auto; try (left; discriminate); destruct H as (_ & _ & H); discriminate.
    + split; [discriminate | tauto].
  - split; auto. intros _. repeat split; auto using orthogonal_nil_r. left; discriminate.
  - split; auto. intros _. repeat split; auto using orthogonal_nil_l. right; discriminate.
  - split; [discriminate|]. intros ([H|H] & _); congruence. Qed.

Lemma css_gens_eq hx hz : nd_cols hx = nd_cols hz ->
  css_generators hx hz = map (padX (nd_cols hx)) (nd_rows hx) ++ map (padZ (nd_cols hx)) (nd_rows hz).
Proof. intros E. unfold css_generators. rewrite <- E. reflexivity. Qed.

Lemma opt_ok_of Hx Hz : opt_ok Hx -> opt_ok Hz -> nd_ok (hx_of Hx Hz) /\ nd_ok (hz_of Hx Hz).
Proof. destruct Hx, Hz; simpl; auto; intros; split; auto; constructor. Qed.

Lemma CSSCode_iff L distance Hx Hz xd zd : opt_ok Hx -> opt_ok Hz ->
  ((exists c, CSSCode L distance Hx Hz xd zd = Ret c) <-> css_input distance Hx Hz xd zd).
Proof. intros OX OZ. destruct (opt_ok_of Hx Hz OX OZ) as [KX KZ]. unfold CSSCode, css_input.
  change (match Hx with Some h => h | None => match Hz with Some h => mkNd (nd_cols h) [] | None => mkNd 0 [] end end) with (hx_of Hx Hz).
  change (match Hz with Some h => h | None => mkNd (nd_cols (hx_of Hx Hz)) [] end) with (hz_of Hx Hz).
  pose proof (check_valid_iff Hx Hz) as CV. destruct (check_valid_check_matrices Hx Hz) as [[]|e]; cbn [pbind].
  2: { split; [intros [c H]; discriminate|]. intros (A & B & C & _). assert (Raise e = Ret tt) by (apply CV; auto). discriminate. }
  destruct (proj1 CV eq_refl) as (A & B & C). set (hx := hx_of Hx Hz) in *. set (hz := hz_of Hx Hz) in *. set (n := nd_cols hx) in *.
  rewrite css_gens_eq by auto. fold n.
  assert (WX : wf n (nd_rows hx)) by exact KX. assert (WZ : wf n (nd_rows hz)) by (pose proof KZ as KZ'; unfold nd_ok in KZ'; rewrite <- B in KZ'; exact KZ').
  assert (WG : wf (2*n+1) (map (padX n) (nd_rows hx) ++ map (padZ n) (nd_rows hz))).
  { apply wf_app; split; apply (wf_map_len n); auto using padX_length, padZ_length. }
  assert (NG : map (padX n) (nd_rows hx) ++ map (padZ n) (nd_rows hz) = [] <-> ~ (nd_rows hx <> [] \/ nd_rows hz <> [])).
  { destruct (nd_rows hx), (nd_rows hz); simpl; split; try discriminate; try (intros _ [H|H]; congruence); auto; intros H; exfalso; apply H; solve [left; discriminate | right; discriminate]. }
  assert (DG : {nd_rows hx <> [] \/ nd_rows hz <> []} + {~ (nd_rows hx <> [] \/ nd_rows hz <> [])}).
  { destruct (nd_rows hx); [|left; left; discriminate]. destruct (nd_rows hz); [|left; right; discriminate]. right. intros [H|H]; congruence. }
  destruct DG as [G|G].
  2: { split; [|tauto]. intros [c H]. exfalso. destruct (StabilizerCode _ _ _ _ _) eqn:E; [|discriminate].
       eapply bins_bad; [|exact E]. left. now apply NG. }
  destruct (Z.leb_spec distance 0) as [D|D].
  { split; [|intros (_ & _ & _ & _ & H & _); lia]. intros [c H]. exfalso. destruct (StabilizerCode _ _ _ _ _) eqn:E; [|discriminate].
    eapply bins_bad; [|exact E]. now right. }
  rewrite (bins_ok n) by (auto; intros E; apply NG in E; tauto). cbn [pbind].
  destruct (Z.ltb_spec (match xd with Some x => x | None => distance end) distance) as [X|X]; cbn [orb].
  { split; [intros [c H]; discriminate|]. intros (_ & _ & _ & _ & _ & H & _). destruct xd as [x|]; [|lia]. specialize (H x eq_refl); lia. }
  destruct (Z.ltb_spec (match zd with Some x => x | None => distance end) distance) as [Y|Y].
  { split; [intros [c H]; discriminate|]. intros (_ & _ & _ & _ & _ & _ & H). destruct zd as [x|]; [|lia]. specialize (H x eq_refl); lia. }
  split; [|eauto]. intros _. repeat split; auto.
  - intros x ->. auto.
  - intros x ->. auto. Qed.

Lemma nd_eta h n : nd_cols h = n -> h = mkNd n (nd_rows h).
Proof. destruct h; simpl; intros ->; auto. Qed.

Lemma CSSCode_inv L distance Hx Hz xd zd c : opt_ok Hx -> opt_ok Hz -> CSSCode L distance Hx Hz xd zd = Ret c ->
  css_inv L c (nd_cols (hx_of Hx Hz)) (nd_rows (hx_of Hx Hz)) (nd_rows (hz_of Hx Hz)) /\
  css_distance c = distance /\ css_xdist c = match xd with Some x => x | None => distance end /\ css_zdist c = match zd with Some x => x | None => distance end.
Proof. intros OX OZ H. assert (I : css_input distance Hx Hz xd zd) by (apply (CSSCode_iff L); eauto).
  destruct I as (A & B & C & G & D & X & Y). destruct (opt_ok_of Hx Hz OX OZ) as [KX KZ].
  unfold CSSCode in H. rewrite (proj2 (check_valid_iff Hx Hz)) in H by auto. cbn [pbind] in H.
  change (match Hx with Some h => h | None => match Hz with Some h => mkNd (nd_cols h) [] | None => mkNd 0 [] end end) with (hx_of Hx Hz) in H.
  change (match Hz with Some h => h | None => mkNd (nd_cols (hx_of Hx Hz)) [] end) with (hz_of Hx Hz) in H.
  rewrite css_gens_eq in H by auto. set (hx := hx_of Hx Hz) in *. set (hz := hz_of Hx Hz) in *. set (n := nd_cols hx) in *.
  assert (WX : wf n (nd_rows hx)) by exact KX. assert (WZ : wf n (nd_rows hz)) by (pose proof KZ as KZ'; unfold nd_ok in KZ'; rewrite <- B in KZ'; exact KZ').
  assert (WG : wf (2*n+1) (map (padX n) (nd_rows hx) ++ map (padZ n) (nd_rows hz))).
  { apply wf_app; split; apply (wf_map_len n); auto using padX_length, padZ_length. }
  rewrite (bins_ok n) in H; auto.
  2: { destruct (nd_rows hx), (nd_rows hz); simpl; try discriminate; destruct G; congruence. }
  cbn [pbind] in H. destruct (_ || _)%bool; [discriminate|]. injection H as <-. split; [|auto].
  unfold css_inv; cbn [css_Hx css_Hz css_Lx css_Lz css_stab css_distance css_xdist css_zdist sc_n sc_gens sc_k]. repeat split; auto.
  - now apply nd_eta.
  - now apply nd_eta.
  - pose proof (block_rank n _ _ WX WZ) as R. apply rk_unique in R; auto. change (n + (n + 0) + 1) with (2 * n + 1). lia. Qed.

(** ** queries *)
Lemma orthogonal_kernel n A B : wf n B -> orthogonal A B -> forall r, In r B -> in_kernel n A r.
Proof. intros W H r Hr. split; [exact (wf_in n B r W Hr)|]. intros q Hq. now apply H. Qed.
Lemma orthogonal_sym A B : orthogonal A B -> orthogonal B A.
Proof. intros H a b Ha Hb. rewrite dot_comm. auto. Qed.

(** generic core of C13: L computed from (m1, m2) spans ker m1 together with m2; r in ker m2 *)
Lemma logical_core L n m1 m2 r : ldpc_ok L -> wf n m1 -> wf n m2 -> orthogonal m1 m2 -> in_kernel n m2 r ->
  (existsb (fun b => b) (mulMV (compute_logical L n m1 m2) r) = false <-> span n m1 r).
Proof. intros HL W1 W2 HO [Hr Hk].
  pose proof (orthogonal_kernel n m1 m2 W2 HO) as OK.
  destruct (compute_logical_spec L n m1 m2 HL W1 W2 OK) as (WL & KL & (WB & _ & SB) & _).
  set (Lg := compute_logical L n m1 m2) in *.
  destruct HL as (HN & HB & _). destruct (HN n m1 W1) as (_ & _ & SK). destruct (HB n m2 W2) as (WI & _ & SI).
  assert (EX : existsb (fun b => b) (mulMV Lg r) = false <-> forall q, In q Lg -> dot q r = false).
  { unfold mulMV. split.
    - intros H q Hq. destruct (dot q r) eqn:E; auto. refine (False_ind _ (diff_false_true (eq_trans (eq_sym H) _))).
      apply existsb_exists. exists true. split; auto. apply in_map_iff; eauto.
    - intros H. destruct (existsb _ _) eqn:E; auto. apply existsb_exists in E as (b & Hb & ->). apply in_map_iff in Hb as (q & E & Hq). rewrite H in E; auto. }
  rewrite EX, span_orth by auto. split.
  - intros H x Hx. apply SK in Hx. apply SB in Hx. revert Hx. apply (dot_span_zero n _ r WB).
    intros k Hk'. apply in_app_iff in Hk' as [Hk'|Hk']; [|rewrite dot_comm; auto].
    assert (Sk : span n m2 k) by (apply SI; now apply span_in). revert Sk. apply (dot_span_zero n m2 r W2). intros q Hq. rewrite dot_comm. auto.
  - intros H q Hq. rewrite dot_comm. apply H. auto. Qed.

Lemma stab_core h v n : nd_cols h = n -> wf n (nd_rows h) -> length v = n ->
  exists b, check_if_stabilizer h v = Ret b /\ (b = true <-> span n (nd_rows h) v).
Proof. intros <- W Hv. unfold check_if_stabilizer, vstackv. simpl. rewrite Hv, Nat.eqb_refl. cbn [andb pbind].
  eexists; split; [reflexivity|]. rewrite Nat.eqb_eq. now apply rk_snoc. Qed.

Lemma steq_core h (a b : vec) n : nd_cols h = n -> wf n (nd_rows h) -> length a = n -> length b = n ->
  exists r, stabilizer_eq_error h a b = Ret r /\ (r = true <-> span n (nd_rows h) (vxor a b)).
Proof. destruct h as [n0 H]; cbn [nd_cols nd_rows]. intros -> W Ha Hb. unfold stabilizer_eq_error, vstackv. cbn [nd_cols nd_rows forallb]. rewrite Ha, Hb, Nat.eqb_refl. cbn [andb pbind].
  eexists; split; [reflexivity|]. rewrite andb_true_iff, !Nat.eqb_eq.
  assert (Wa : wf n (H ++ [a])) by (apply wf_app; split; auto; constructor; auto).
  match goal with |- context [rk n ?X] => match X with H ++ [a; b] => replace X with ((H ++ [a]) ++ [b]) by (rewrite <- app_assoc; reflexivity) end end.
  assert (SN : span n (H ++ [a]) b <-> span n H b \/ span n H (vxor a b)).
  { rewrite (span_perm n (H ++ [a]) (a :: H)).
    - rewrite span_cons_iff by auto. tauto.
    - auto.
    - constructor; auto.
    - intros x. rewrite in_app_iff. simpl. tauto. }
  pose proof (rk_snoc n (H ++ [a]) b Wa Hb) as R3. rewrite SN in R3.
  pose proof (rk_snoc n H a W Ha) as Ra. pose proof (rk_snoc n H b W Hb) as Rb. unfold vec in *.
  pose proof (rk_snoc_out n H a W Ha) as Oa. pose proof (rk_snoc_out n H b W Hb) as Ob. unfold vec in *.
  destruct (span_dec n H a) as [Sa|Sa], (span_dec n H b) as [Sb|Sb].
  - apply Ra in Sa as Ea. apply Rb in Sb as Eb. assert (E3 : rk n ((H ++ [a]) ++ [b]) = rk n (H ++ [a])) by (apply R3; auto).
    split; [|intros _; split; lia]. intros _. now apply span_vxor.
  - apply Ra in Sa as Ea. specialize (Ob Sb). split; [lia|].
    intros S. exfalso. apply Sb. rewrite <- (vxor_cancel_l n a b) by auto. now apply span_vxor.
  - apply Rb in Sb as Eb. specialize (Oa Sa). split; [lia|].
    intros S. exfalso. apply Sa. rewrite <- (vxor_cancel_l n b a) by auto. apply span_vxor; auto. rewrite vxor_comm; auto.
  - specialize (Oa Sa). specialize (Ob Sb). split.
    + intros [_ E]. assert (E3 : rk n ((H ++ [a]) ++ [b]) = rk n (H ++ [a])) by lia. apply R3 in E3. tauto.
    + intros S. assert (E3 : rk n ((H ++ [a]) ++ [b]) = rk n (H ++ [a])) by (apply R3; auto). lia. Qed.
