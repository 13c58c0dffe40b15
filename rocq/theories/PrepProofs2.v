(** * PrepProofs2: the greedy elimination loop *)
From Verif Require Export PrepProofs.
Local Open Scope nat_scope.

(** contract of ldpc.mod2.reduced_row_echelon(M)[0]: reduced row echelon form *)
Definition rre_ok (rre : nat -> mat -> mat) : Prop := forall n M, wf n M ->
  wf n (rre n M) /\ length (rre n M) = length M /\ (forall v, span n (rre n M) v <-> span n M v) /\
  (exists piv, length piv = rk n M /\ forall k, k < rk n M -> nth k piv 0 < n /\ col (rre n M) (nth k piv 0) = unitv (length M) k) /\
  (forall k, rk n M <= k -> nth k (rre n M) [] = vzero n \/ nth k (rre n M) [] = []).

(** ** tables *)
Lemma zget_tab n f i j : i < n -> j < n -> zget (tabulate n f) i j = f i j.
Proof. intros Hi Hj. unfold zget, tabulate. rewrite nth_indep with (d' := map (f 0) (seq 0 n)) by (rewrite map_length, seq_length; auto).
  rewrite (map_nth (fun i => map (f i) (seq 0 n))). rewrite seq_nth by auto. rewrite nth_indep with (d' := f (0 + i) 0) by (rewrite map_length, seq_length; auto).
  rewrite (map_nth (f (0 + i))), seq_nth by auto. reflexivity. Qed.
Definition tracked (n : nat) (c : zmat) (M : mat) : Prop :=
  forall i j, i < n -> j < n -> zget c i j = (if Nat.eqb i j then 1 else wtsum M i j - wtc M j)%Z.
Lemma init_tracked n M : tracked n (init_costs n M) M.
Proof. intros i j Hi Hj. unfold init_costs, fill_diag. cbv zeta. rewrite zget_tab by auto. destruct (i =? j); auto. now rewrite !zget_tab by auto. Qed.
Lemma col_coladd n i j M k : wf n M -> j < n -> col (coladd i j M) k = if k =? j then vxor (col M j) (col M i) else col M k.
Proof. intros W Hj. unfold col, coladd. rewrite map_map. induction W as [|r M Hr W IH]; cbn [map]; [destruct (k =? j); auto|]. rewrite IH, nth_cxv by (unfold vec in *; lia).
  destruct (k =? j); auto. Qed.
Lemma update_tracked n M i j c : wf n M -> i < n -> j < n -> tracked n c M ->
  tracked n (update_costs n (coladd i j M) j c) (coladd i j M).
Proof. intros W Hi Hj T a b Ha Hb. unfold update_costs, fill_diag. cbv zeta. rewrite zget_tab by auto. destruct (Nat.eqb_spec a b) as [|N]; auto.
  set (M' := coladd i j M). assert (NW : forall k, k < n -> nth k (map (fun k => wtsum M' j k) (seq 0 n)) 0%Z = wtsum M' j k).
  { intros k Hk. rewrite nth_indep with (d' := wtsum M' j 0) by (rewrite map_length, seq_length; auto). rewrite (map_nth (fun k => wtsum M' j k)), seq_nth by auto. auto. }
  rewrite zget_tab by auto. destruct (Nat.eqb_spec b j) as [->|Nb].
  - rewrite NW by auto. unfold wtsum. now rewrite vxor_comm.
  - rewrite zget_tab by auto. destruct (Nat.eqb_spec a j) as [->|Na]; [rewrite NW by auto; reflexivity|]. rewrite T by auto. destruct (Nat.eqb_spec a b); [contradiction|].
    unfold wtsum, wtc, M'. rewrite !(col_coladd n) by auto. destruct (Nat.eqb_spec a j), (Nat.eqb_spec b j); try contradiction. auto. Qed.

(** ** choosing a pair *)
Lemma argmin_in c l : forall b, In (argmin c b l) (b :: l).
Proof. induction l as [|p l IH]; intros b; cbn [argmin]; [now left|]. destruct (_ <? _)%Z; [right; apply IH|]. destruct (IH b) as [E|]; [left; exact E|right; now right]. Qed.
Lemma argmin_le c l : forall b p, In p (b :: l) -> (zget c (fst (argmin c b l)) (snd (argmin c b l)) <= zget c (fst p) (snd p))%Z.
Proof. induction l as [|q l IH]; intros b p Hp; cbn [argmin].
  - destruct Hp as [->|[]]. lia.
  - destruct (Z.ltb_spec (zget c (fst q) (snd q)) (zget c (fst b) (snd b))) as [L|L].
    + destruct Hp as [<-|Hp]; [|now apply IH]. pose proof (IH q q (or_introl eq_refl)). lia.
    + destruct Hp as [<-|[<-|Hp]]; [apply IH; now left| |apply IH; now right]. pose proof (IH b b (or_introl eq_refl)). lia. Qed.
Lemma pairs_in n i j : In (i, j) (pairs n) <-> i < n /\ j < n.
Proof. unfold pairs. rewrite in_flat_map. split.
  - intros (x & Hx & H). apply in_map_iff in H as (y & E & Hy). injection E as <- <-. apply in_seq in Hx, Hy. lia.
  - intros [Hi Hj]. exists i. rewrite in_seq. split; [lia|]. apply in_map, in_seq. lia. Qed.

(** ** ones *)
Definition ones (M : mat) : nat := fold_right (fun r a => weight r + a) 0 M.
Definition colones (n : nat) (M : mat) : nat := list_sum (map (fun j => weight (col M j)) (seq 0 n)).
Lemma colones_coladd n i j M : wf n M -> i < n -> j < n -> weight (vxor (col M i) (col M j)) < weight (col M j) -> colones n (coladd i j M) < colones n M.
Proof. intros W Hi Hj H. unfold colones.
  assert (E : forall l, ~ In j l -> map (fun k => weight (col (coladd i j M) k)) l = map (fun k => weight (col M k)) l).
  { intros l N. apply map_ext_in. intros k Hk. rewrite (col_coladd n) by auto. destruct (Nat.eqb_spec k j); [subst; contradiction|auto]. }
  assert (IN : In j (seq 0 n)) by (apply in_seq; lia). destruct (in_split _ _ IN) as (l1 & l2 & ES). pose proof (seq_NoDup n 0) as ND. rewrite ES in *.
  apply NoDup_remove_2 in ND. rewrite in_app_iff in ND. rewrite !map_app. cbn [map]. rewrite !E by tauto. rewrite !list_sum_app. cbn [list_sum fold_right].
  rewrite (col_coladd n), Nat.eqb_refl by auto. rewrite vxor_comm in H. unfold list_sum in *. lia. Qed.

(** ** the units stay available after the matrix was made triangular *)
Definition units_in (n r m : nat) (M : mat) : Prop :=
  length M = m /\ r <= m /\ (forall k, k < r -> exists j, j < n /\ col M j = unitv m k) /\ (forall j k, j < n -> r <= k -> nth k (col M j) false = false).

Lemma weight_pos (v : vec) k : nth k v false = true -> 0 < weight v.
Proof. revert k; induction v as [|b v IH]; intros [|k] H; cbn in *; try discriminate; [subst; lia|]. apply IH in H. lia. Qed.
Lemma weight0 v : weight v = 0 -> v = vzero (length v).
Proof. induction v as [|[] v IH]; cbn; intros H; try discriminate; auto. rewrite IH at 1 by auto. reflexivity. Qed.
Lemma weight_unit_off m k (v : vec) : length v = m -> k < m -> nth k v false = true -> S (weight (vxor (unitv m k) v)) = weight v.
Proof. intros Hv Hk H. assert (E : vxor (unitv m k) v = set_nth k false v).
  { apply (vec_ext m); [apply vxor_length'; auto using unitv_length|now rewrite set_nth_length|]. intros q Hq. rewrite nth_vxor by (rewrite unitv_length; auto). rewrite nth_unitv by auto.
    rewrite nth_set_nth by (unfold vec in *; lia). destruct (Nat.eqb_spec q k) as [->|]; [now rewrite H|]. now rewrite xorb_false_l. }
  rewrite E. clear - H. revert k H. induction v as [|b v IH]; intros [|k] H; cbn in *; try discriminate; [subst; auto|]. specialize (IH k H). lia. Qed.
Lemma weight_unitv m k : k < m -> weight (unitv m k) = 1.
Proof. intros H. pose proof (weight_unit_off m k (unitv m k) (unitv_length m k) H ltac:(rewrite nth_unitv by auto; apply Nat.eqb_refl)) as E.
  rewrite (vxor_self' m) in E by apply unitv_length. rewrite <- E. f_equal. clear. unfold vzero. induction m; cbn; auto. Qed.

Lemma units_step n r m M i j : wf n M -> i < n -> j < n -> i <> j -> units_in n r m M -> weight (vxor (col M i) (col M j)) < weight (col M j) ->
  units_in n r m (coladd i j M).
Proof. intros W Hi Hj N (L & R & U & Zr) H. split; [unfold coladd; now rewrite map_length|]. split; auto. split.
  - intros k Hk. destruct (U k Hk) as (a & Ha & E). destruct (Nat.eq_dec a j) as [->|D].
    + exists i. split; auto. rewrite (col_coladd n) by auto. destruct (Nat.eqb_spec i j); [contradiction|].
      rewrite E in H. rewrite weight_unitv in H by lia. assert (H0 : weight (vxor (col M i) (unitv m k)) = 0) by lia. apply weight0 in H0.
      assert (LC : length (col M i) = m) by now rewrite col_length. rewrite (vxor_length' m) in H0 by auto using unitv_length.
      apply (vxor_eq_zero m) in H0; auto using unitv_length.
    + exists a. split; auto. rewrite (col_coladd n) by auto. destruct (Nat.eqb_spec a j); [contradiction|auto].
  - intros a k Ha Hk. rewrite (col_coladd n) by auto. destruct (Nat.eqb_spec a j) as [->|]; auto. rewrite nth_vxor by now rewrite !col_length. now rewrite !Zr by auto. Qed.

Lemma zero_col_spec M j : zero_col M j = true <-> forall k, nth k (col M j) false = false.
Proof. unfold zero_col. rewrite forallb_forall. split.
  - intros H k. destruct (lt_dec k (length (col M j))) as [L|L]; [|apply nth_overflow; lia]. specialize (H (nth k (col M j) false) (nth_In _ _ L)). now destruct (nth k (col M j) false).
  - intros H x Hx. destruct (In_nth _ _ false Hx) as (k & Hk & <-). now rewrite H. Qed.
Lemma filter_neg_length {A} (f : A -> bool) l : length (filter f l) + length (filter (fun x => negb (f x)) l) = length l.
Proof. induction l as [|a l IH]; cbn; auto. destruct (f a); cbn; lia. Qed.

Lemma units_progress n r m M : wf n M -> units_in n r m M -> r <= n -> is_reduced n r M = false ->
  exists i j, i < n /\ j < n /\ i <> j /\ weight (vxor (col M i) (col M j)) < weight (col M j).
Proof. intros W (L & R & U & Zr) RN H. unfold is_reduced in H. apply Nat.eqb_neq in H.
  assert (FC : exists f : list nat, length f = r /\ (forall k, k < r -> nth k f 0 < n /\ col M (nth k f 0) = unitv m k)).
  { clear H RN Zr. revert U R. clear L. induction r as [|r IH]; intros U R; [exists []; split; auto; lia|].
    destruct IH as (f & Lf & Hf); [intros; apply U; lia|lia|]. destruct (U r) as (j & Hj & E); [lia|]. exists (f ++ [j]). split; [rewrite app_length; cbn; lia|].
    intros k Hk. destruct (Nat.eq_dec k r) as [->|D]; [rewrite app_nth2 by lia; rewrite Lf, Nat.sub_diag; auto|]. rewrite app_nth1 by lia. apply Hf. lia. }
  destruct FC as (f & Lf & Hf).
  set (nz := filter (fun j => negb (zero_col M j)) (seq 0 n)).
  assert (LN : length (filter (zero_col M) (seq 0 n)) + length nz = n) by (unfold nz; rewrite (filter_neg_length (zero_col M)); apply seq_length).
  assert (NDf : NoDup f).
  { apply (NoDup_nth f 0). intros a b Ha Hb E. rewrite Lf in *. destruct (Hf a Ha) as [_ Ea], (Hf b Hb) as [_ Eb]. rewrite E, Eb in Ea.
    apply (f_equal (fun v => nth b v false)) in Ea. rewrite !nth_unitv in Ea by lia. rewrite Nat.eqb_refl in Ea. symmetry in Ea. apply Nat.eqb_eq in Ea. auto. }
  assert (INf : incl f nz).
  { intros j Hj. destruct (In_nth f j 0 Hj) as (k & Hk & <-). rewrite Lf in Hk. destruct (Hf k Hk) as [A B]. apply filter_In. split; [apply in_seq; lia|].
    destruct (zero_col M (nth k f 0)) eqn:E; auto. exfalso. apply (proj1 (zero_col_spec _ _)) with (k := k) in E. rewrite B, nth_unitv, Nat.eqb_refl in E by lia. discriminate. }
  assert (LE : r <= length nz) by (rewrite <- Lf; now apply NoDup_incl_length).
  assert (EX : exists j, In j nz /\ ~ In j f).
  { destruct (Forall_Exists_dec (fun j => In j f) (fun j => in_dec Nat.eq_dec j f) nz) as [F|E].
    - exfalso. rewrite Forall_forall in F. assert (length nz <= length f); [|lia]. apply NoDup_incl_length; auto. apply NoDup_filter, seq_NoDup.
    - apply Exists_exists in E. exact E. }
  destruct EX as (j & Hj & NJ). apply filter_In in Hj as [Hj Hz]. apply in_seq in Hj.
  assert (EK : exists k, nth k (col M j) false = true).
  { destruct (existsb (fun b => b) (col M j)) eqn:E.
    - apply existsb_exists in E as (b & Hb & ->). destruct (In_nth _ _ false Hb) as (k & _ & Hk). eauto.
    - exfalso. assert (zero_col M j = true); [|rewrite H0 in Hz; discriminate]. unfold zero_col. apply forallb_forall. intros b Hb. destruct b; auto.
      assert (existsb (fun b => b) (col M j) = true) by (apply existsb_exists; eauto). congruence. }
  destruct EK as (k & Ek). assert (Kr : k < r) by (destruct (lt_dec k r); auto; rewrite Zr in Ek by lia; discriminate).
  destruct (Hf k Kr) as [A B]. exists (nth k f 0), j. split; auto. split; [lia|]. split; [intros E; apply NJ; rewrite <- E; apply nth_In; lia|].
  rewrite B. pose proof (weight_unit_off m k (col M j)) as WU. rewrite col_length in WU. specialize (WU L ltac:(lia) Ek). lia. Qed.
