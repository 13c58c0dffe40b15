(** * PrepProofs: state preparation circuits *)
From Verif Require Export CssProofs PrepModel ColorDecode.
Local Open Scope nat_scope.

(** ** CNOTs on strings *)
Lemma cxv_length c t x : length (cxv c t x) = length x.
Proof. apply set_nth_length. Qed.
Lemma nth_cxv c t x k : t < length x -> nth k (cxv c t x) false = if k =? t then xorb (nth t x false) (nth c x false) else nth k x false.
Proof. intros H. unfold cxv. now rewrite nth_set_nth. Qed.
Lemma set_nth_out {A} i (x : A) l : length l <= i -> set_nth i x l = l.
Proof. revert i; induction l as [|h l IH]; intros [|i] H; cbn in *; auto; try lia. rewrite IH by lia. auto. Qed.
Lemma cxv_vxor n c t a b : length a = n -> length b = n -> cxv c t (vxor a b) = vxor (cxv c t a) (cxv c t b).
Proof. intros Ha Hb. assert (L : length (vxor a b) = n) by now apply vxor_length'.
  destruct (lt_dec t n) as [Ht|Ht].
  - apply (vec_ext n).
    + now rewrite cxv_length.
    + apply vxor_length'; now rewrite cxv_length.
    + intros k Hk. rewrite nth_vxor by (rewrite !cxv_length; unfold vec in *; lia). rewrite !nth_cxv by (unfold vec in *; lia).
      rewrite !nth_vxor by (unfold vec in *; lia). destruct (k =? t); auto. destruct (nth t a false), (nth t b false), (nth c a false), (nth c b false); auto.
  - unfold cxv. rewrite !set_nth_out by (unfold vec in *; lia). auto. Qed.
Lemma cxv_invol c t x : c <> t -> cxv c t (cxv c t x) = x.
Proof. intros N. destruct (lt_dec t (length x)) as [Ht|Ht].
  - apply (vec_ext (length x)); rewrite ?cxv_length; auto. intros k Hk. rewrite nth_cxv by (rewrite cxv_length; auto). rewrite !nth_cxv by auto.
    rewrite Nat.eqb_refl. destruct (Nat.eqb_spec c t); [contradiction|]. destruct (Nat.eqb_spec k t) as [->|]; auto. destruct (nth t x false), (nth c x false); auto.
  - unfold cxv. now rewrite !set_nth_out by (rewrite ?set_nth_length; lia). Qed.
Lemma cxv_zero c t n : cxv c t (vzero n) = vzero n.
Proof. destruct (lt_dec t n) as [Ht|Ht].
  - apply (vec_ext n); rewrite ?cxv_length, ?vzero_length; auto. intros k Hk. rewrite nth_cxv by (rewrite vzero_length; auto). rewrite !nth_vzero. destruct (k =? t); auto.
  - unfold cxv. apply set_nth_out. rewrite vzero_length. lia. Qed.
Lemma cxv_vec n c t x : length x = n -> t < n -> cxv c t x = vxor x (if nth c x false then unitv n t else vzero n).
Proof. intros Hx Ht. assert (L : length (if nth c x false then unitv n t else vzero n) = n) by (destruct (nth c x false); [apply unitv_length|apply vzero_length]).
  apply (vec_ext n); [now rewrite cxv_length|now apply vxor_length'|]. intros k Hk. rewrite nth_cxv by (unfold vec in *; lia). rewrite nth_vxor by (unfold vec in *; lia).
  destruct (nth c x false).
  - rewrite nth_unitv by auto. destruct (Nat.eqb_spec k t) as [->|]; auto. now rewrite xorb_false_r.
  - rewrite nth_vzero. destruct (Nat.eqb_spec k t) as [->|]; auto. now rewrite !xorb_false_r. Qed.
Lemma dot_cxv n i j a b : length a = n -> length b = n -> i < n -> j < n -> i <> j -> dot (cxv i j a) (cxv j i b) = dot a b.
Proof. intros Ha Hb Hi Hj N. rewrite (cxv_vec n i j a), (cxv_vec n j i b) by auto.
  assert (E0 : nth i (unitv n j) false = false) by (rewrite nth_unitv by auto; now apply Nat.eqb_neq).
  destruct (nth i a false) eqn:Ea, (nth j b false) eqn:Eb.
  - rewrite dot_vxor_l by (rewrite unitv_length; auto). rewrite !dot_vxor_r by (rewrite unitv_length; auto).
    rewrite !dot_unitv_r by auto using unitv_length. rewrite dot_unitv_l by auto. rewrite Ea, Eb, E0. destruct (dot a b); auto.
  - rewrite (vxor_zero_r n) by auto. rewrite dot_vxor_l by (rewrite unitv_length; auto). rewrite dot_unitv_l, Eb by auto. apply xorb_false_r.
  - rewrite (vxor_zero_r n) by auto. rewrite dot_vxor_r by (rewrite unitv_length; auto). rewrite dot_unitv_r, Ea by auto. apply xorb_false_r.
  - now rewrite !(vxor_zero_r n) by auto. Qed.

(** sequences of CNOTs *)
Definition cxs (cn : list (nat * nat)) (x : vec) : vec := fold_left (fun x p => cxv (fst p) (snd p) x) cn x.
Definition flip_pairs (cn : list (nat * nat)) := map (fun p => (snd p, fst p)) cn.
Definition cn_ok (n : nat) (cn : list (nat * nat)) := Forall (fun p => fst p < n /\ snd p < n /\ fst p <> snd p) cn.
Lemma cxs_length cn x : length (cxs cn x) = length x.
Proof. revert x; induction cn as [|p cn IH]; intros x; cbn; auto. unfold cxs in IH. now rewrite IH, cxv_length. Qed.
Lemma cxs_app a b x : cxs (a ++ b) x = cxs b (cxs a x).
Proof. apply fold_left_app. Qed.
Lemma cxs_vxor n cn a b : length a = n -> length b = n -> cxs cn (vxor a b) = vxor (cxs cn a) (cxs cn b).
Proof. revert a b; induction cn as [|p cn IH]; intros a b Ha Hb; cbn [cxs fold_left]; auto. unfold cxs in IH. rewrite (cxv_vxor n) by auto. apply IH; now rewrite cxv_length. Qed.
Lemma cxs_zero cn n : cxs cn (vzero n) = vzero n.
Proof. induction cn as [|p cn IH]; cbn [cxs fold_left]; auto. rewrite cxv_zero. exact IH. Qed.
Lemma cxs_rev n cn x : cn_ok n cn -> cxs (rev cn) (cxs cn x) = x.
Proof. intros H. revert x. induction H as [|p cn (A & B & C) H IH]; intros x; auto. cbn [rev]. rewrite cxs_app. cbn [cxs fold_left]. fold (cxs cn (cxv (fst p) (snd p) x)). rewrite IH. now apply cxv_invol. Qed.
Lemma cxs_rev' n cn x : cn_ok n cn -> cxs cn (cxs (rev cn) x) = x.
Proof. intros H. rewrite <- (rev_involutive cn) at 1. apply (cxs_rev n). unfold cn_ok. apply Forall_rev. exact H. Qed.
Lemma dot_cxs n cn a b : cn_ok n cn -> length a = n -> length b = n -> dot (cxs cn a) (cxs (flip_pairs cn) b) = dot a b.
Proof. intros H. revert a b. induction H as [|p cn (A & B & C) H IH]; intros a b Ha Hb; auto. cbn [flip_pairs map cxs fold_left fst snd].
  fold (cxs cn (cxv (fst p) (snd p) a)). fold (flip_pairs cn). fold (cxs (flip_pairs cn) (cxv (snd p) (fst p) b)). rewrite IH by now rewrite cxv_length. now apply (dot_cxv n). Qed.
Lemma flip_ok n cn : cn_ok n cn -> cn_ok n (flip_pairs cn).
Proof. intros H. unfold cn_ok, flip_pairs. apply Forall_map. revert H. apply Forall_impl. cbn. intros p (A & B & C). auto. Qed.

(** ** images of row spaces under invertible linear maps *)
Lemma span_map n (f : vec -> vec) M v : wf n M -> f (vzero n) = vzero n -> (forall a b, length a = n -> length b = n -> f (vxor a b) = vxor (f a) (f b)) ->
  (forall a, length a = n -> length (f a) = n) -> span n M v -> span n (map f M) (f v).
Proof. intros W F0 FA FL (c & Hc & <-). exists c. rewrite map_length. split; auto. now apply lincomb_map. Qed.
Lemma span_cxs n cn M v : wf n M -> cn_ok n cn -> length v = n -> (span n (map (cxs cn) M) (cxs cn v) <-> span n M v).
Proof. intros W K Hv. assert (FL : forall cn a, length a = n -> length (cxs cn a) = n) by (intros; now rewrite cxs_length). split.
  - intros H. apply (span_map n (cxs (rev cn))) in H; auto using cxs_zero, (cxs_vxor n).
    + rewrite map_map in H. rewrite (cxs_rev n) in H by auto. erewrite map_ext, map_id in H; [exact H|]. intros x. now apply (cxs_rev n).
    + apply (wf_map_len n); auto.
  - apply span_map; auto using cxs_zero, (cxs_vxor n). Qed.
Lemma rk_cxs n cn M : wf n M -> cn_ok n cn -> rk n (map (cxs cn) M) = rk n M.
Proof. intros W K. assert (W' : forall cn M, wf n M -> wf n (map (cxs cn) M)) by (intros; apply (wf_map_len n); auto; intros; now rewrite cxs_length).
  assert (G : forall cn M, wf n M -> cn_ok n cn -> rk n M <= rk n (map (cxs cn) M)).
  { clear cn M W K. intros cn M W K. destruct (rk_correct n M W) as (B & (WB & IB & SB) & LB). rewrite <- LB.
    assert (IN : indep n (map (cxs cn) B)).
    { intros c Hc E. rewrite map_length in *. rewrite lincomb_map with (n := n) in E; auto using cxs_zero, (cxs_vxor n). apply IB; auto.
      apply (f_equal (cxs (rev cn))) in E. rewrite (cxs_rev n), cxs_zero in E by auto. exact E. }
    rewrite <- (map_length (cxs cn) B). destruct (rk_correct n (map (cxs cn) M) (W' _ _ W)) as (B2 & (WB2 & IB2 & SB2) & LB2). rewrite <- LB2.
    apply (steinitz n); auto. intros b Hb. apply in_map_iff in Hb as (b0 & <- & Hb). apply SB2. apply span_cxs; auto; [exact (wf_in n B b0 WB Hb)|]. apply SB. now apply span_in. }
  apply Nat.le_antisymm; [|now apply G]. rewrite <- (map_id M) at 2. rewrite (map_ext (fun x => x) (fun x => cxs (rev cn) (cxs cn x))) by (intros; symmetry; now apply (cxs_rev n)).
  rewrite <- map_map with (f := cxs cn) (g := cxs (rev cn)). apply G; auto. now apply Forall_rev. Qed.

(** ** unit vectors *)
Lemma units_span n cs v : Forall (fun c => c < n) cs -> length v = n ->
  (span n (map (unitv n) cs) v <-> forall k, k < n -> ~ In k cs -> nth k v false = false).
Proof. intros F H. assert (WU : forall cs, wf n (map (unitv n) cs)) by (intros; apply Forall_map, Forall_forall; intros; apply unitv_length). split.
  - intros H0. pattern v. revert v H H0. intros v _. revert v. apply (span_ind n); auto.
    + intros k Hk _. apply nth_vzero.
    + intros r v Hr Lv IH k Hk N. apply in_map_iff in Hr as (c & <- & Hc). rewrite nth_vxor by (rewrite unitv_length; auto). rewrite nth_unitv by auto.
      rewrite IH by auto. destruct (Nat.eqb_spec k c); [subst; contradiction|auto].
  - rename H into Hv. revert v Hv. induction F as [|c cs Hc F IH]; intros v Hv H; cbn [map].
    + assert (v = vzero n) as ->; [|apply span_zero]. apply (vec_ext n); auto using vzero_length. intros k Hk. rewrite nth_vzero. auto.
    + apply span_cons_iff; auto using unitv_length. destruct (nth c v false) eqn:E.
      * right. split; auto. apply IH; [now apply vxor_length'; auto using unitv_length|]. intros k Hk N. rewrite nth_vxor by (rewrite unitv_length; auto). rewrite nth_unitv by auto. destruct (Nat.eqb_spec k c) as [->|D]; [now rewrite E|].
        rewrite H; auto. intros [|]; auto.
      * left. apply IH; auto. intros k Hk N. destruct (Nat.eq_dec k c) as [->|D]; auto. apply H; auto. intros [|]; auto. Qed.
