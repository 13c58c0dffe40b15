(** * VerifProofs6: lightest errors are met in one qubit by some product of checks; results of both verification searches *)
From Verif Require Export VerifProofs5 FaultSem2. From Verif Require Export VerifProofs2.
Local Open Scope nat_scope.

(** no stabilizer lies inside the support of a lightest error, so each of its qubits is singled out by a product of checks *)
Lemma inside_lighter n (f g : vec) : length f = n -> length g = n -> (forall i, i < n -> nth i g false = true -> nth i f false = true) -> weight f <= weight (vxor f g) -> g = vzero n.
Proof. revert f g. induction n as [|n IH]; intros [|a f] [|b g] Lf Lg H W; try discriminate; auto. rewrite vzero_S. cbn [vxor weight] in W.
  assert (H' : forall i, i < n -> nth i g false = true -> nth i f false = true) by (intros i Hi; apply (H (S i)); lia). pose proof (H 0 ltac:(lia)) as H0. cbn in H0.
  assert (LE : forall (f g : vec), length f = length g -> (forall i, i < length f -> nth i g false = true -> nth i f false = true) -> weight (vxor f g) <= weight f).
  { clear. induction f as [|x f IH]; intros [|y g] L H; try discriminate; cbn; auto. pose proof (H 0 ltac:(cbn; lia)) as H0. cbn in H0. specialize (IH g ltac:(cbn in L; lia)).
    assert (weight (vxor f g) <= weight f) by (apply IH; intros i Hi; apply (H (S i)); cbn; lia). destruct x, y; cbn in *; lia. }
  specialize (LE f g ltac:(cbn in *; lia)). assert (LE' : weight (vxor f g) <= weight f) by (apply LE; intros i Hi; apply H'; cbn in *; lia). clear LE.
  destruct b; [destruct a; [exfalso; cbn in W; lia|specialize (H0 eq_refl); discriminate]|]. f_equal. apply (IH f); auto. destruct a; cbn in W; lia. Qed.
Lemma filter_one i : forall n a, i < n -> length (filter (fun j => j =? a + i) (seq a n)) = 1.
Proof. induction i as [|i IH]; intros [|n] a H; try lia; cbn [seq filter].
  - rewrite Nat.add_0_r, Nat.eqb_refl. cbn [length]. f_equal. rewrite (filter_ext_in _ (fun _ => false)); [induction (seq (S a) n); auto|]. intros j Hj. apply in_seq in Hj. apply Nat.eqb_neq. lia.
  - destruct (Nat.eqb_spec a (a + S i)); [lia|]. replace (a + S i) with (S a + i) by lia. apply IH. lia. Qed.
Lemma weight_bound (v : vec) : weight v <= length v.
Proof. induction v as [|b v IH]; cbn; auto. destruct b; lia. Qed.
Lemma weight_zeros n : weight (vzero n) = 0.
Proof. apply weight_zero_iff. intros i. apply nth_vzero. Qed.
Lemma nth_error_firstn_lt {A} (l : list A) : forall k i, i < k -> nth_error (firstn k l) i = nth_error l i.
Proof. induction l as [|x l IH]; intros [|k] [|i] H; cbn; auto; try lia. apply IH. lia. Qed.
Definition others (n i : nat) (f : vec) : mat := map (unitv n) (filter (fun j => nth j f false && negb (j =? i)) (seq 0 n)).
Lemma others_wf n i f : wf n (others n i f).
Proof. apply Forall_forall. intros v Hv. apply in_map_iff in Hv as (j & <- & _). apply unitv_length. Qed.
Lemma others_span n i f v : span n (others n i f) v -> length v = n /\ forall j, j < n -> nth j v false = true -> nth j f false = true /\ j <> i.
Proof. intros Hs. pose proof (span_length n _ v (others_wf n i f) Hs) as Lv. split; auto. intros j Hj Hv. destruct (nth j f false && negb (j =? i)) eqn:E; [apply andb_true_iff in E as [A B]; apply negb_true_iff, Nat.eqb_neq in B; auto|].
  exfalso. assert (D : dot v (unitv n j) = false). { rewrite dot_comm. apply (dot_span_zero n (others n i f) (unitv n j) (others_wf n i f)); auto. intros r Hr. apply in_map_iff in Hr as (q & <- & Hq). apply filter_In in Hq as [Hq Ef]. apply in_seq in Hq.
    rewrite dot_unitv_l by (rewrite ?unitv_length; auto; lia). rewrite nth_unitv by lia. destruct (Nat.eqb_spec j q); auto. subst. congruence. }
  rewrite dot_unitv_r in D by auto. congruence. Qed.
Lemma single_out s x f i : spc_ok s -> length f = sp_n s -> (forall w, span (sp_n s) (stabs_of s x) w -> weight f <= weight (vxor f w)) -> i < sp_n s -> nth i f false = true ->
  exists m, span (sp_n s) (orth_checks s x) m /\ overlap (sp_n s) m f = 1.
Proof. intros SO Lf MIN Hi Hf. set (n := sp_n s) in *. pose proof (stabs_wf s x SO) as WS. pose proof (orth_wf s x SO) as WO. fold n in WS, WO. pose proof (others_wf n i f) as WT.
  assert (WA : wf n (stabs_of s x ++ others n i f)) by (apply wf_app; auto).
  assert (NS : ~ span n (stabs_of s x ++ others n i f) (unitv n i)).
  { intros H. apply span_app_iff in H as (a & b & Ha & Hb & E); auto. destruct (others_span n i f b Hb) as [Lb Sb]. pose proof (span_length n _ a WS Ha) as La.
    assert (Z : a = vzero n).
    { apply (inside_lighter n f); auto. intros j Hj Haj. destruct (Nat.eq_dec j i) as [->|NE]; auto. apply (f_equal (fun v => nth j v false)) in E. rewrite nth_unitv, nth_vxor in E by (unfold vec in *; lia). rewrite Haj in E.
      destruct (nth j b false) eqn:Bj; [now apply Sb|]. cbn in E. apply Nat.eqb_eq in E. congruence. }
    subst a. apply (f_equal (fun v => nth i v false)) in E. rewrite nth_unitv, nth_vxor in E by (unfold vec in *; lia). rewrite nth_vzero, Nat.eqb_refl in E. rewrite xorb_false_l in E. symmetry in E. destruct (Sb i Hi E). congruence. }
  assert (EX : exists y, in_kernel n (stabs_of s x ++ others n i f) y /\ dot (unitv n i) y = true).
  { destruct (existsb (fun y => dot (unitv n i) y) (kernel n (stabs_of s x ++ others n i f))) eqn:EE.
    - apply existsb_exists in EE as (y & Hy & D). exists y. split; auto. destruct (kernel_inv n _ WA) as (WK & _ & KI & _). apply KI. now apply span_in.
    - exfalso. apply NS. apply span_kernel_dec; auto using unitv_length. apply forallb_forall. intros y Hy. apply negb_true_iff. destruct (dot (unitv n i) y) eqn:D; auto. rewrite <- EE. symmetry. apply existsb_exists. eauto. }
  destruct EX as (y & (Ly & Ky) & D). exists y. split.
  - assert (K : in_kernel n (stabs_of s x) y) by (split; auto; intros r Hr; apply Ky, in_app_iff; auto). destruct SO as (_ & _ & _ & _ & _ & KZ & KX). unfold orth_checks, stabs_of in *. destruct x; [now apply KX|now apply KZ].
  - rewrite dot_unitv_l in D by auto. unfold overlap. rewrite (filter_ext_in _ (fun j => j =? i)).
    + exact (filter_one i n 0 Hi).
    + intros j Hj. apply in_seq in Hj. destruct (Nat.eqb_spec j i) as [->|NE]; [now rewrite D, Hf|]. destruct (nth j f false) eqn:Fj; [|apply andb_false_r]. rewrite andb_true_r.
      assert (Z : dot (unitv n j) y = false). { apply Ky, in_app_iff. right. apply in_map_iff. exists j. split; auto. apply filter_In. split; [apply in_seq; lia|]. rewrite Fj. cbn. apply negb_true_iff, Nat.eqb_neq. auto. }
      rewrite dot_unitv_l in Z by (auto; lia). auto. Qed.
