(** * PluProofs: correctness of the PLU model. *)
From Verif Require Import Lin2 PluModel.

Lemma supp_vec_length m s : length (supp_vec m s) = m.
Proof. unfold supp_vec; now rewrite map_length, seq_length. Qed.

Lemma nth_supp_vec m s i : i < m -> nth i (supp_vec m s) false = existsb (Nat.eqb i) s.
Proof. intros H. unfold supp_vec. rewrite nth_indep with (d' := (fun i => existsb (Nat.eqb i) s) 0) by (rewrite map_length, seq_length; auto).
  rewrite (map_nth (fun i => existsb (Nat.eqb i) s)), seq_nth by auto. reflexivity. Qed.

Lemma denseCol_spec m s : Forall (fun i => i < m) s -> denseCol m s = supp_vec m s.
Proof. intros H. unfold denseCol.
  assert (G : forall t c, Forall (fun i => i < m) t -> length c = m ->
     let c' := fold_left (fun c i => set_nth i true c) t c in
     length c' = m /\ forall i, i < m -> nth i c' false = nth i c false || existsb (Nat.eqb i) t).
  { induction t as [|a t IH]; simpl; intros c Hs Hc.
    - split; [exact Hc|]. intros i _; destruct (nth i c false); reflexivity.
    - inversion Hs; subst. destruct (IH (set_nth a true c)) as [IH1 IH2]; auto; [now rewrite set_nth_length|].
      split; auto. intros i Hi. rewrite IH2 by auto. rewrite nth_set_nth by auto.
      destruct (i =? a); simpl; auto. now rewrite orb_true_r. }
  destruct (G s (repeat false m) H) as [G1 G2]; [apply repeat_length|].
  apply (vec_ext m); auto using supp_vec_length. intros i Hi. rewrite G2, nth_supp_vec by auto.
  fold (vzero m). now rewrite (nth_vzero m i). Qed.

Lemma flipRows_length rs c : length (flipRows rs c) = length c.
Proof. unfold flipRows; revert c; induction rs as [|a rs IH]; simpl; intros c; auto. rewrite IH, set_nth_length; auto. Qed.

Lemma nth_flipRows m rs c i : NoDup rs -> Forall (fun i => i < m) rs -> length c = m ->
  nth i (flipRows rs c) false = xorb (nth i c false) (existsb (Nat.eqb i) rs).
Proof. unfold flipRows; revert c; induction rs as [|a rs IH]; simpl; intros c Hd Hs Hc.
  - now rewrite xorb_false_r.
  - inversion Hs; inversion Hd; subst. rewrite IH by (auto; now rewrite set_nth_length).
    rewrite nth_set_nth by lia. destruct (i =? a) eqn:E; simpl; auto.
    apply Nat.eqb_eq in E. subst. replace (existsb (Nat.eqb a) rs) with false.
    + destruct (nth a c false); auto.
    + symmetry. apply not_true_iff_false. rewrite existsb_exists. intros (x & Hx & E). apply Nat.eqb_eq in E. subst; auto. Qed.

Lemma existsb_eqb_In i l : existsb (Nat.eqb i) l = true <-> In i l.
Proof. rewrite existsb_exists. split; [intros (x & Hx & E); apply Nat.eqb_eq in E; now subst | intros; exists i; split; auto; apply Nat.eqb_refl]. Qed.

(** well-formed recorded operations *)
Definition op_ok (m i p : nat) (el : list nat) : Prop :=
  i <= p < m /\ NoDup el /\ Forall (fun j => i < j < m) el.

Definition ops_ok (m : nat) (sw : list nat) (el : list (list nat)) (r : nat) : Prop :=
  forall i, i < r -> op_ok m i (nth i sw 0) (nth i el []).

(** pointwise effect of one step *)
Definition swp (i p k : nat) : nat := if k =? i then p else if k =? p then i else k.

Lemma op_ok_lt m i p el : op_ok m i p el -> i < m.
Proof. intros ((H1 & H2) & _); lia. Qed.

Lemma replayStep_length sw el c i : length (replayStep sw el c i) = length c.
Proof. unfold replayStep. destruct (nth _ _ _); rewrite ?flipRows_length, swap_nth_length; auto. Qed.

Lemma nth_replayStep m sw el c i k : op_ok m i (nth i sw 0) (nth i el []) -> length c = m ->
  nth k (replayStep sw el c i) false =
  xorb (nth (swp i (nth i sw 0) k) c false) (nth (nth i sw 0) c false && existsb (Nat.eqb k) (nth i el [])).
Proof. intros (H1 & H2 & H3) Hc. unfold replayStep.
  assert (Hs : forall k, nth k (swap_nth false i (nth i sw 0) c) false = nth (swp i (nth i sw 0) k) c false).
  { intros k'. rewrite nth_swap_nth by lia. unfold swp. destruct (k' =? i); auto. destruct (k' =? _); auto. }
  rewrite Hs. replace (swp i (nth i sw 0) i) with (nth i sw 0) by (unfold swp; now rewrite Nat.eqb_refl).
  destruct (nth (nth i sw 0) c false) eqn:E.
  - rewrite (nth_flipRows m); auto.
    + now rewrite Hs.
    + eapply Forall_impl; [|exact H3]. simpl; intros; lia.
    + rewrite swap_nth_length; auto.
  - rewrite Hs. simpl. now rewrite xorb_false_r. Qed.

Definition replayN (sw : list nat) (el : list (list nat)) (r : nat) (c : vec) : vec :=
  fold_left (replayStep sw el) (seq 0 r) c.

Lemma replayN_S sw el r c : replayN sw el (S r) c = replayStep sw el (replayN sw el r c) r.
Proof. unfold replayN. rewrite seq_S, fold_left_app. reflexivity. Qed.

Lemma replayN_length sw el r c : length (replayN sw el r c) = length c.
Proof. induction r; [reflexivity|]. rewrite replayN_S, replayStep_length; auto. Qed.

Lemma replayStep_vxor m sw el i a b : op_ok m i (nth i sw 0) (nth i el []) -> length a = m -> length b = m ->
  replayStep sw el (vxor a b) i = vxor (replayStep sw el a i) (replayStep sw el b i).
Proof. intros Ho Ha Hb. apply (vec_ext m).
  - rewrite replayStep_length. now apply vxor_length'.
  - apply vxor_length'; rewrite replayStep_length; auto.
  - intros k Hk. rewrite nth_vxor by (rewrite !replayStep_length; lia).
    rewrite !(nth_replayStep m) by (auto; now apply vxor_length').
    rewrite !nth_vxor by lia.
    destruct (nth (swp _ _ _) a false), (nth (swp _ _ _) b false), (nth (nth i sw 0) a false), (nth (nth i sw 0) b false), (existsb _ _); auto. Qed.

Lemma replayN_vxor m sw el r a b : ops_ok m sw el r -> length a = m -> length b = m ->
  replayN sw el r (vxor a b) = vxor (replayN sw el r a) (replayN sw el r b).
Proof. intros Ho Ha Hb. induction r as [|r IH]; [reflexivity|].
  rewrite !replayN_S, IH by (intros i Hi; apply Ho; lia).
  apply (replayStep_vxor m); rewrite ?replayN_length; auto. Qed.

Lemma replayStep_inj m sw el i a : op_ok m i (nth i sw 0) (nth i el []) -> length a = m ->
  replayStep sw el a i = vzero m -> a = vzero m.
Proof. intros Ho Ha E.
  assert (Hp : nth (nth i sw 0) a false = false).
  { assert (X : nth i (replayStep sw el a i) false = false) by (rewrite E; apply nth_vzero).
    rewrite (nth_replayStep m) in X by auto. unfold swp in X. rewrite Nat.eqb_refl in X.
    destruct Ho as (_ & _ & H3). replace (existsb (Nat.eqb i) (nth i el [])) with false in X.
    - now rewrite andb_false_r, xorb_false_r in X.
    - symmetry. apply not_true_iff_false. rewrite existsb_eqb_In. intros Hin.
      eapply Forall_forall in H3; eauto. simpl in H3; lia. }
  apply (vec_ext m); auto using vzero_length. intros k Hk. rewrite nth_vzero.
  assert (X : nth (swp i (nth i sw 0) k) (replayStep sw el a i) false = false) by (rewrite E; apply nth_vzero).
  rewrite (nth_replayStep m) in X by auto. rewrite Hp in X. simpl in X. rewrite xorb_false_r in X.
  replace (swp i (nth i sw 0) (swp i (nth i sw 0) k)) with k in X; auto.
  unfold swp. destruct (k =? i) eqn:E1.
  - apply Nat.eqb_eq in E1; subst. destruct (nth i sw 0 =? i) eqn:E2; [apply Nat.eqb_eq in E2; lia|]. now rewrite Nat.eqb_refl.
  - destruct (k =? nth i sw 0) eqn:E2; [rewrite Nat.eqb_refl; apply Nat.eqb_eq in E2; lia|]. now rewrite E1, E2. Qed.

Lemma replayN_inj m sw el r a : ops_ok m sw el r -> length a = m -> replayN sw el r a = vzero m -> a = vzero m.
Proof. intros Ho Ha. induction r as [|r IH]; [auto|]. rewrite replayN_S. intros E.
  apply IH; [intros i Hi; apply Ho; lia|]. apply (replayStep_inj m sw el r); auto. now rewrite replayN_length. Qed.

Lemma replayN_zero m sw el r : ops_ok m sw el r -> replayN sw el r (vzero m) = vzero m.
Proof. intros Ho. transitivity (replayN sw el r (vxor (vzero m) (vzero m))).
  - now rewrite (vxor_self' m (vzero m)) by apply vzero_length.
  - rewrite (replayN_vxor m) by auto using vzero_length. apply vxor_self'. rewrite replayN_length. now apply vzero_length. Qed.

Lemma replayN_lincomb m sw el r c M : ops_ok m sw el r -> wf m M -> length c = length M ->
  replayN sw el r (lincomb m c M) = lincomb m c (map (replayN sw el r) M).
Proof. intros Ho HM. revert c; induction HM as [|v M Hv HM IH]; intros [|b c]; simpl; intros Hc; try discriminate.
  - now apply replayN_zero.
  - destruct b; auto. rewrite (replayN_vxor m); auto using lincomb_length. f_equal; auto. Qed.

(** a vector supported below k is not changed by steps >= k *)
Definition supp_lt (k : nat) (c : vec) : Prop := forall j, k <= j -> nth j c false = false.

Lemma replayStep_low m sw el i k c : op_ok m i (nth i sw 0) (nth i el []) -> length c = m -> supp_lt k c -> k <= i ->
  replayStep sw el c i = c.
Proof. intros Ho Hc Hs Hk. apply (vec_ext m); auto; [now rewrite replayStep_length|]. intros j Hj.
  rewrite (nth_replayStep m) by auto. destruct Ho as ((H1 & H2) & _). rewrite (Hs (nth i sw 0)) by lia. simpl. rewrite xorb_false_r.
  unfold swp. destruct (j =? i) eqn:E1.
  - apply Nat.eqb_eq in E1; subst. rewrite !Hs by lia; auto.
  - destruct (j =? nth i sw 0) eqn:E2; auto. apply Nat.eqb_eq in E2. rewrite !Hs by lia; auto. Qed.

(** ** state invariant *)
Definition rp (st : plu) : vec -> vec := replayN (swapRows st) (eliminationRows st) (matrixRank st).

Lemma replay_rp st c : replay st c = rp st c.
Proof. reflexivity. Qed.

Record Inv (m : nat) (csc : list (list nat)) (done : nat) (st : plu) : Prop := {
  inv_sw : length (swapRows st) = matrixRank st;
  inv_el : length (eliminationRows st) = matrixRank st;
  inv_pc : length (pivotCols st) = matrixRank st;
  inv_up : length (upper st) = matrixRank st;
  inv_lo : length (lower st) = m;
  inv_rows : length (prows st) = m;
  inv_rowsP : forall i, i < m -> nth i (prows st) 0 < m;
  inv_rank : matrixRank st <= m;
  inv_rank2 : matrixRank st <= done;
  inv_ops : ops_ok m (swapRows st) (eliminationRows st) (matrixRank st);
  inv_done : forall j, j < done -> supp_lt (matrixRank st) (rp st (supp_vec m (nth j csc [])));
  inv_piv : forall k, k < matrixRank st ->
      nth k (pivotCols st) 0 < done /\
      nth k (rp st (supp_vec m (nth (nth k (pivotCols st) 0) csc []))) false = true /\
      supp_lt (S k) (rp st (supp_vec m (nth (nth k (pivotCols st) 0) csc [])));
  inv_inc : forall k l, k < l -> l < matrixRank st -> nth k (pivotCols st) 0 < nth l (pivotCols st) 0;
  inv_lowerc : forall i c, i < m -> In c (nth i (lower st) []) -> c < matrixRank st /\ c <= i;
  inv_lowerd : forall i, i < m -> NoDup (nth i (lower st) []);
  inv_lower : forall y i, length y = m -> i < m ->
      nth i (rp st y) false =
      xorb (nth (nth i (prows st) 0) y false)
           (xorSum (rp st y) (filter (fun c => negb (c =? i)) (nth i (lower st) [])));
  inv_upper : forall i, i < matrixRank st ->
      nth i (upper st) [] = map (fun k => nth k (pivotCols st) 0)
        (filter (fun k => nth i (rp st (supp_vec m (nth (nth k (pivotCols st) 0) csc []))) false) (seq i (matrixRank st - i)))
}.

Lemma inv_init m csc : Inv m csc 0 (pluInit m).
Proof. split; simpl; auto; try lia; try (intros; lia).
  - apply repeat_length.
  - apply seq_length.
  - intros i Hi. rewrite seq_nth; lia.
  - intros i Hi; lia.
  - intros i c Hi. rewrite nth_repeat. intros [].
  - intros i Hi. rewrite nth_repeat. constructor.
  - intros y i Hy Hi. rewrite nth_repeat, seq_nth by auto. simpl. unfold xorSum, rp, replayN; simpl. now rewrite xorb_false_r. Qed.

Lemma findPivot_Some r m c p : findPivot r m c = Some p -> r <= m -> r <= p < m /\ nth p c false = true.
Proof. unfold findPivot. intros H Hr. apply find_some in H as [H1 H2]. apply in_seq in H1. split; [lia|auto]. Qed.

Lemma findPivot_None r m c : findPivot r m c = None -> r <= m -> length c = m -> supp_lt r c.
Proof. unfold findPivot. intros H Hr Hc j Hj. destruct (Nat.lt_ge_cases j m).
  - apply (find_none _ _ H). apply in_seq; lia.
  - apply nth_overflow; lia. Qed.

Lemma pushAt_length k x l : length (pushAt k x l) = length l.
Proof. apply set_nth_length. Qed.

Lemma nth_pushAt k x l i : k < length l -> nth i (pushAt k x l) [] = if i =? k then nth i l [] ++ [x] else nth i l [].
Proof. intros H. unfold pushAt. rewrite nth_set_nth by auto. destruct (i =? k) eqn:E; auto.
  apply Nat.eqb_eq in E; now subst. Qed.

Lemma nth_push_all r idx l i : NoDup idx -> Forall (fun j => j < length l) idx ->
  nth i (fold_left (fun l i => pushAt i r l) idx l) [] = if existsb (Nat.eqb i) idx then nth i l [] ++ [r] else nth i l [].
Proof. revert l; induction idx as [|a idx IH]; simpl; intros l Hd Hf; auto.
  inversion Hd; inversion Hf; subst. rewrite IH; auto; [|now rewrite pushAt_length]. rewrite nth_pushAt by auto.
  destruct (i =? a) eqn:E; simpl; auto. apply Nat.eqb_eq in E; subst.
  destruct (existsb (Nat.eqb a) idx) eqn:E; auto. apply existsb_eqb_In in E; tauto. Qed.

Lemma push_all_length r idx l : length (fold_left (fun l i => pushAt i r l) idx l) = length l.
Proof. revert l; induction idx as [|a idx IH]; simpl; intros l; auto. now rewrite IH, pushAt_length. Qed.

Lemma fold_push_if (g : nat -> bool) x idx l : 
  fold_left (fun u i => if g i then pushAt i x u else u) idx l = fold_left (fun l i => pushAt i x l) (filter g idx) l.
Proof. revert l; induction idx as [|a idx IH]; simpl; intros l; auto. destruct (g a); simpl; auto. Qed.

Lemma xorSum_app b l1 l2 : xorSum b (l1 ++ l2) = xorb (xorSum b l1) (xorSum b l2).
Proof. unfold xorSum. rewrite fold_left_app.
  assert (G : forall l s, fold_left (fun s i => xorb s (nth i b false)) l s = xorb s (fold_left (fun s i => xorb s (nth i b false)) l false)).
  { induction l as [|a l IH]; cbn [fold_left]; intros s; [now rewrite xorb_false_r|].
    rewrite xorb_false_l, IH, (IH (nth a b false)). destruct s, (nth a b false), (fold_left _ _ _); auto. }
  apply G. Qed.

Lemma xorSum_ext b b' l : (forall i, In i l -> nth i b false = nth i b' false) -> xorSum b l = xorSum b' l.
Proof. unfold xorSum. intros H. 
  assert (G : forall s, fold_left (fun s i => xorb s (nth i b false)) l s = fold_left (fun s i => xorb s (nth i b' false)) l s).
  { revert H; induction l as [|a l IH]; simpl; intros H s; auto. rewrite H by now left. apply IH. intros; apply H; now right. }
  apply G. Qed.

Lemma NoDup_filter_seq f a n : NoDup (filter f (seq a n)).
Proof. apply NoDup_filter, seq_NoDup. Qed.

Lemma filter_id {A} (f : A -> bool) l : (forall x, In x l -> f x = true) -> filter f l = l.
Proof. induction l as [|a l IH]; simpl; intros H; auto. rewrite H by now left. f_equal. apply IH. intros; apply H; now right. Qed.

Lemma elim_inv m csc done st : csc_ok m csc -> done < length csc -> Inv m csc done st ->
  Inv m csc (S done) (eliminateColumn m csc st done).
Proof.
  intros Hcsc Hdone HI. destruct HI as [Isw Iel Ipc Iup Ilo Irows IrowsP Irank Irank2 Iops Idone Ipiv Iinc Ilowc Ilowd Ilower Iupper].
  unfold eliminateColumn. rewrite replay_rp.
  assert (Hd : denseCol m (nth done csc []) = supp_vec m (nth done csc [])).
  { apply denseCol_spec. eapply Forall_forall in Hcsc; [exact Hcsc|]. now apply nth_In. }
  rewrite Hd. clear Hd.
  set (c := supp_vec m (nth done csc [])).
  assert (Hc : length c = m) by apply supp_vec_length.
  set (rr := rp st c).
  assert (Hrr : length rr = m) by (unfold rr, rp; now rewrite replayN_length).
  set (r := matrixRank st) in *.
  destruct (findPivot r m rr) as [p|] eqn:Ef.
  2:{ split; auto; try lia.
      - intros j Hj. destruct (Nat.eq_dec j done) as [->|]; [|apply Idone; lia].
        apply (findPivot_None r m); auto.
      - intros k Hk. destruct (Ipiv k Hk) as (H1 & H2 & H3). repeat split; auto. }
  destruct (findPivot_Some _ _ _ _ Ef Irank) as [Hp Hpt].
  set (rr' := swap_nth false r p rr).
  assert (Hrr'l : length rr' = m) by (unfold rr'; now rewrite swap_nth_length).
  assert (Hrr' : forall k, nth k rr' false = nth (swp r p k) rr false).
  { intros k. unfold rr'. rewrite nth_swap_nth by lia. unfold swp. destruct (k =? r); auto. destruct (k =? p); auto. }
  set (below := filter (fun i => nth i rr' false) (seq (S r) (m - S r))).
  set (sw' := swapRows st ++ [p]). set (el' := eliminationRows st ++ [below]).
  assert (Hsw_old : forall i, i < r -> nth i sw' 0 = nth i (swapRows st) 0) by (intros; unfold sw'; apply app_nth1; lia).
  assert (Hel_old : forall i, i < r -> nth i el' [] = nth i (eliminationRows st) []) by (intros; unfold el'; apply app_nth1; lia).
  assert (Hsw_new : nth r sw' 0 = p) by (unfold sw'; rewrite app_nth2, Isw, Nat.sub_diag; simpl; auto; lia).
  assert (Hel_new : nth r el' [] = below) by (unfold el'; rewrite app_nth2, Iel, Nat.sub_diag; simpl; auto; lia).
  assert (Hbelow : forall i, In i below <-> r < i < m /\ nth i rr' false = true).
  { intros i. unfold below. rewrite filter_In, in_seq. split; intros [? ?]; split; auto; lia. }
  assert (Hopnew : op_ok m r p below).
  { split; [lia|]. split; [apply NoDup_filter_seq|]. apply Forall_forall. intros i Hi. apply Hbelow in Hi. tauto. }
  assert (Hops' : ops_ok m sw' el' (S r)).
  { intros i Hi. destruct (Nat.eq_dec i r) as [->|]; [now rewrite Hsw_new, Hel_new|].
    rewrite Hsw_old, Hel_old by lia. apply Iops; lia. }
  set (st' := {| lower := _ |}).
  assert (Hrp' : forall y, length y = m -> rp st' y = replayStep sw' el' (rp st y) r).
  { intros y Hy. unfold rp, st'; simpl. rewrite replayN_S. f_equal.
    unfold replayN. assert (G : forall l y, (forall i, In i l -> i < r) -> fold_left (replayStep sw' el') l y = fold_left (replayStep (swapRows st) (eliminationRows st)) l y).
    { induction l as [|a l IH]; simpl; intros y0 Hl; auto. rewrite IH by auto. f_equal. unfold replayStep. rewrite Hsw_old, Hel_old by auto. auto. }
    apply G. intros i Hi. apply in_seq in Hi; unfold r; lia. }
  assert (Hpt_rp' : forall y k, length y = m -> nth k (rp st' y) false = xorb (nth (swp r p k) (rp st y) false) (nth p (rp st y) false && existsb (Nat.eqb k) below)).
  { intros y k Hy. rewrite Hrp' by auto. rewrite (nth_replayStep m); rewrite ?Hsw_new, ?Hel_new; auto.
    unfold rp; now rewrite replayN_length. }
  assert (Hkeep : forall y k, length y = m -> k < r -> nth k (rp st' y) false = nth k (rp st y) false).
  { intros y k Hy Hk. rewrite Hpt_rp' by auto. unfold swp. 
    destruct (k =? r) eqn:E1; [apply Nat.eqb_eq in E1; lia|]. destruct (k =? p) eqn:E2; [apply Nat.eqb_eq in E2; lia|].
    replace (existsb (Nat.eqb k) below) with false; [now rewrite andb_false_r, xorb_false_r|].
    symmetry. apply not_true_iff_false. rewrite existsb_eqb_In, Hbelow. lia. }
  assert (Hlow : forall y, length y = m -> supp_lt r (rp st y) -> rp st' y = rp st y).
  { intros y Hy Hs. rewrite Hrp' by auto. apply (replayStep_low m sw' el' r r); auto.
    - unfold rp; now rewrite replayN_length. }
  assert (Hnewcol : forall k, nth k (rp st' c) false = if k <=? r then nth k rr' false else false).
  { intros k. rewrite Hpt_rp' by auto. fold rr. rewrite Hpt. simpl. rewrite <- Hrr'.
    destruct (Nat.leb_spec k r).
    - replace (existsb (Nat.eqb k) below) with false; [now rewrite xorb_false_r|].
      symmetry. apply not_true_iff_false. rewrite existsb_eqb_In, Hbelow. lia.
    - destruct (existsb (Nat.eqb k) below) eqn:E.
      + apply existsb_eqb_In, Hbelow in E as [_ ->]. auto.
      + rewrite xorb_false_r. apply not_true_iff_false. intros Ht. apply not_true_iff_false in E. apply E.
        apply existsb_eqb_In, Hbelow. split; auto. split; auto. destruct (Nat.lt_ge_cases k m); auto.
        rewrite nth_overflow in Ht by lia. discriminate. }
  assert (Hpc_old : forall i, i < r -> nth i (pivotCols st ++ [done]) 0 = nth i (pivotCols st) 0) by (intros; apply app_nth1; lia).
  assert (Hpc_new : nth r (pivotCols st ++ [done]) 0 = done) by (rewrite app_nth2, Ipc, Nat.sub_diag; simpl; auto; lia).
  set (lower1 := pushAt r r (swap_nth [] r p (lower st))) in *.
  assert (Hl1 : length lower1 = m) by (unfold lower1; rewrite pushAt_length, swap_nth_length; auto).
  assert (Hlow' : forall i, i < m -> nth i (lower st') [] = nth (swp r p i) (lower st) [] ++ (if (i =? r) || existsb (Nat.eqb i) below then [r] else [])).
  { intros i Hi. unfold st'; simpl. rewrite nth_push_all.
    - unfold lower1. rewrite nth_pushAt by (rewrite swap_nth_length; lia). rewrite nth_swap_nth by lia.
      unfold swp. destruct (i =? r) eqn:E1; simpl.
      + destruct (existsb (Nat.eqb i) below) eqn:E; auto. apply Nat.eqb_eq in E1. apply existsb_eqb_In, Hbelow in E. lia.
      + destruct (existsb (Nat.eqb i) below); destruct (i =? p); rewrite ?app_nil_r; auto.
    - apply NoDup_filter_seq.
    - apply Forall_forall. intros j Hj. apply Hbelow in Hj. lia. }
  assert (Hswpm : forall i, i < m -> swp r p i < m).
  { intros i Hi. unfold swp. destruct (i =? r); [lia|]. destruct (i =? p); lia. }
  assert (Hswpr : forall i, r <= i -> r <= swp r p i).
  { intros i Hi. unfold swp. destruct (i =? r); [lia|]. destruct (i =? p); lia. }
  assert (Hrowsn : forall i, i < m -> nth i (prows st') 0 = nth (swp r p i) (prows st) 0).
  { intros i Hi. unfold st'; simpl. rewrite nth_swap_nth by lia. unfold swp. destruct (i =? r); auto. destruct (i =? p); auto. }
  (* old pivot columns *)
  assert (Hpiv_old : forall k, k < r -> rp st' (supp_vec m (nth (nth k (pivotCols st) 0) csc [])) = rp st (supp_vec m (nth (nth k (pivotCols st) 0) csc []))).
  { intros k Hk. apply Hlow; [apply supp_vec_length|]. apply Idone. apply Ipiv; auto. }
  assert (Hmr : matrixRank st' = S r) by reflexivity.
  assert (Hpcst' : pivotCols st' = pivotCols st ++ [done]) by reflexivity.
  split.
  - unfold st', sw'; cbn [swapRows matrixRank]. rewrite app_length, Isw; simpl; lia.
  - unfold st', el'; cbn [eliminationRows matrixRank]. rewrite app_length, Iel; simpl; lia.
  - unfold st'; cbn [pivotCols matrixRank]. rewrite app_length, Ipc; simpl; lia.
  - unfold st'; cbn [upper matrixRank]. rewrite fold_push_if, push_all_length, app_length, Iup; simpl; lia.
  - unfold st'; cbn [lower]. rewrite push_all_length; auto.
  - unfold st'; simpl. rewrite swap_nth_length; auto.
  - intros i Hi. rewrite Hrowsn by auto. auto.
  - unfold st'; simpl; lia.
  - unfold st'; simpl; fold r; lia.
  - exact Hops'.
  - (* done columns *)
    rewrite Hmr. intros j Hj. destruct (Nat.eq_dec j done) as [->|].
    + intros k Hk. fold c. rewrite Hnewcol. destruct (Nat.leb_spec k r); auto; lia.
    + assert (Hs : supp_lt r (rp st (supp_vec m (nth j csc [])))) by (apply Idone; lia).
      rewrite Hlow by (auto using supp_vec_length). intros k Hk; apply Hs; lia.
  - (* pivots *)
    rewrite Hmr, Hpcst'. intros k Hk.
    destruct (Nat.eq_dec k r) as [->|].
    + rewrite Hpc_new. fold c. repeat split; [lia| |].
      * rewrite Hnewcol, Nat.leb_refl, Hrr'. unfold swp. now rewrite Nat.eqb_refl.
      * intros j Hj. rewrite Hnewcol. destruct (Nat.leb_spec j r); auto; lia.
    + assert (Hk' : k < r) by lia. rewrite Hpc_old by auto. rewrite Hpiv_old by auto.
      destruct (Ipiv k Hk') as (H1 & H2 & H3). repeat split; auto.
  - unfold st'; cbn [matrixRank pivotCols]. intros k l Hkl Hl. destruct (Nat.eq_dec l r) as [->|].
    + rewrite Hpc_new, Hpc_old by lia. apply Ipiv; lia.
    + rewrite !Hpc_old by lia. apply Iinc; lia.
  - rewrite Hmr. intros i x Hi. rewrite Hlow' by auto. rewrite in_app_iff. intros [Hx|Hx].
    + apply Ilowc in Hx; auto. split; [lia|]. unfold swp in Hx. destruct (i =? r) eqn:E; [apply Nat.eqb_eq in E; lia|].
      destruct (i =? p) eqn:E2; [apply Nat.eqb_eq in E2; lia|lia].
    + destruct ((i =? r) || existsb (Nat.eqb i) below) eqn:E; simpl in Hx; [|tauto]. destruct Hx as [<-|[]].
      split; [lia|]. apply orb_true_iff in E as [E|E]; [apply Nat.eqb_eq in E; lia|]. apply existsb_eqb_In, Hbelow in E. lia.
  - intros i Hi. rewrite Hlow' by auto. destruct (_ || _); [|rewrite app_nil_r; auto].
    assert (ND : NoDup (nth (swp r p i) (lower st) [])) by auto.
    assert (NI : ~ In r (nth (swp r p i) (lower st) [])).
    { intros Hin. apply Ilowc in Hin; auto. lia. }
    clear - ND NI. induction (nth (swp r p i) (lower st) []) as [|a l IH]; simpl; [constructor; [tauto|constructor]|].
    inversion ND; subst. constructor. { rewrite in_app_iff; simpl. intros [|[|[]]]; auto. subst; apply NI; now left. }
    apply IH; auto. intros Hin; apply NI; now right.
  - (* lower *)
    intros y i Hy Hi. rewrite Hlow', Hrowsn by auto.
    destruct (Nat.lt_ge_cases i r) as [Hir|Hir].
    + rewrite Hkeep by auto.
      assert (Hsi : swp r p i = i).
      { unfold swp. destruct (i =? r) eqn:E; [apply Nat.eqb_eq in E; lia|]. destruct (i =? p) eqn:E2; [apply Nat.eqb_eq in E2; lia|auto]. }
      rewrite Hsi.
      replace ((i =? r) || existsb (Nat.eqb i) below) with false.
      2:{ symmetry. apply orb_false_iff. split; [apply Nat.eqb_neq; lia|]. apply not_true_iff_false. rewrite existsb_eqb_In, Hbelow; lia. }
      rewrite app_nil_r, Ilower by auto. f_equal. apply xorSum_ext. intros k Hk. apply filter_In in Hk as [Hk _].
      apply Ilowc in Hk; auto. symmetry. apply Hkeep; auto; lia.
    + rewrite Hpt_rp' by auto.
      assert (Hs0 : forall z, In z (nth (swp r p i) (lower st) []) -> z < r) by (intros z Hz; apply Ilowc in Hz; auto; tauto).
      rewrite Ilower by auto. rewrite !filter_id with (l := nth (swp r p i) (lower st) []).
      2:{ intros z Hz. apply Hs0 in Hz. apply negb_true_iff, Nat.eqb_neq. specialize (Hswpr i Hir). lia. }
      rewrite filter_app, xorSum_app. rewrite (filter_id _ (nth (swp r p i) (lower st) [])).
      2:{ intros z Hz. apply Hs0 in Hz. apply negb_true_iff, Nat.eqb_neq. lia. }
      rewrite (xorSum_ext (rp st y) (rp st' y)).
      2:{ intros z Hz. symmetry. apply Hkeep; auto. }
      rewrite !xorb_assoc. f_equal. f_equal.
      assert (Hrr0 : nth r (rp st' y) false = nth p (rp st y) false).
      { rewrite Hpt_rp' by auto. unfold swp. rewrite Nat.eqb_refl.
        replace (existsb (Nat.eqb r) below) with false; [now rewrite andb_false_r, xorb_false_r|].
        symmetry. apply not_true_iff_false. rewrite existsb_eqb_In, Hbelow. lia. }
      destruct (i =? r) eqn:E.
      * apply Nat.eqb_eq in E; subst i. simpl. rewrite Nat.eqb_refl. simpl.
        replace (existsb (Nat.eqb r) below) with false; [now rewrite andb_false_r|].
        symmetry. apply not_true_iff_false. rewrite existsb_eqb_In, Hbelow. lia.
      * simpl. destruct (existsb (Nat.eqb i) below); simpl; [|now rewrite andb_false_r].
        rewrite Nat.eqb_sym, E. simpl. unfold xorSum; simpl. rewrite andb_true_r, Hrr0. destruct (nth p (rp st y) false); auto.
  - (* upper *)
    rewrite Hmr, Hpcst'. intros i Hi.
    replace (S r - i) with ((r - i) + 1) by lia. rewrite seq_app. replace (i + (r - i)) with r by lia.
    rewrite filter_app, map_app.
    rewrite (filter_ext_in _ (fun k => nth i (rp st (supp_vec m (nth (nth k (pivotCols st) 0) csc []))) false) (seq i (r - i))).
    2:{ intros k Hk. apply in_seq in Hk. rewrite Hpc_old by lia. rewrite Hpiv_old by lia. auto. }
    rewrite (map_ext_in _ (fun k => nth k (pivotCols st) 0)).
    2:{ intros k Hk. apply filter_In in Hk as [Hk _]. apply in_seq in Hk. apply Hpc_old; lia. }
    cbn [seq filter]. rewrite Hpc_new. fold c. rewrite Hnewcol. replace (i <=? r) with true by (symmetry; apply Nat.leb_le; lia).
    unfold st'; cbn [upper]. rewrite fold_push_if, nth_push_all.
    2:{ apply NoDup_filter_seq. }
    2:{ apply Forall_forall. intros j Hj. apply filter_In in Hj as [Hj _]. apply in_seq in Hj. rewrite app_length, Iup. simpl. fold r. lia. }
    assert (Hex : existsb (Nat.eqb i) (filter (fun i0 => nth i0 rr' false) (seq 0 (S r))) = nth i rr' false).
    { destruct (nth i rr' false) eqn:E.
      - apply existsb_eqb_In, filter_In. split; auto. apply in_seq; lia.
      - apply not_true_iff_false. rewrite existsb_eqb_In, filter_In. intros [_ ?]; congruence. }
    rewrite Hex.
    assert (Hun : nth i (upper st ++ [[]]) [] = map (fun k => nth k (pivotCols st) 0)
        (filter (fun k => nth i (rp st (supp_vec m (nth (nth k (pivotCols st) 0) csc []))) false) (seq i (r - i)))).
    { destruct (Nat.eq_dec i r) as [->|].
      - rewrite app_nth2, Iup, Nat.sub_diag by lia. reflexivity.
      - rewrite app_nth1 by lia. apply Iupper; lia. }
    rewrite Hun. destruct (nth i rr' false); simpl; rewrite ?app_nil_r, ?Hpc_new; auto.
Qed.
