(** * KunA: kernels of the block maps of the product construction, in coordinates *)
From Coq Require Import List Arith Bool ZArith Lia.
From Verif Require Import ArrProofs ProductProofs BbProofs Lin2 CreateModel.
Import ListNotations.
Local Open Scope nat_scope.

Definition bitsA (A : arr) : mat := nd_rows (to_nd A).
Definition vecZ (n : nat) (f : nat -> Z) : vec := map (fun j => Z.odd (f j)) (seq 0 n).
Lemma vecZ_length n f : length (vecZ n f) = n.
Proof. unfold vecZ. now rewrite map_length, seq_length. Qed.
Lemma vecZ_ext n f g : (forall j, j < n -> Z.odd (f j) = Z.odd (g j)) -> vecZ n f = vecZ n g.
Proof. intros H. apply map_ext_in. intros j Hj. apply in_seq in Hj. apply H. lia. Qed.
Lemma vecZ_inj n f g : vecZ n f = vecZ n g -> forall j, j < n -> Z.odd (f j) = Z.odd (g j).
Proof. intros E j Hj. assert (nth j (vecZ n f) false = nth j (vecZ n g) false) as K by now rewrite E. unfold vecZ in K.
  rewrite !(nth_indep _ false (Z.odd 0)) in K by (rewrite map_length, seq_length; lia).
  rewrite !(nth_indep _ (Z.odd 0) (Z.odd (f 0))) in K by (rewrite map_length, seq_length; lia).
  rewrite (map_nth (fun j => Z.odd (f j))) in K. rewrite (nth_indep _ (Z.odd (f 0)) (Z.odd (g 0))) in K by (rewrite map_length, seq_length; lia). rewrite (map_nth (fun j => Z.odd (g j))) in K.
  now rewrite !seq_nth in K by lia. Qed.
Lemma vecZ_nth v : v = vecZ (length v) (fun j => Z.b2z (nth j v false)).
Proof. apply (nth_ext _ _ false (Z.odd (Z.b2z (nth (length v) v false)))); [now rewrite vecZ_length|]. intros j Hj. unfold vecZ.
  rewrite (map_nth (fun j => Z.odd (Z.b2z (nth j v false)))), seq_nth by auto. cbn [Nat.add]. now destruct (nth j v false). Qed.
Lemma kernel_vecZ A f : in_kernel (a_cols A) (bitsA A) (vecZ (a_cols A) f) <-> forall i, i < a_rows A -> Z.odd (sumZ (a_cols A) (fun k => a_at A i k * f k)%Z) = false.
Proof. unfold in_kernel, bitsA, to_nd. cbn [nd_rows]. rewrite vecZ_length. split.
  - intros [_ H] i Hi. rewrite <- (dot_odd (a_at A i) f 0). apply H. apply in_map_iff. exists i. split; auto. apply in_seq. lia.
  - intros H. split; auto. intros r Hr. apply in_map_iff in Hr as (i & <- & Hi). apply in_seq in Hi. unfold vecZ. rewrite dot_odd. cbn [Nat.add]. apply H. lia. Qed.

(** the pair of matrices X (a x m) and Y (b x c) as one vector *)
Definition flat (a m c : nat) (X Y : nat -> nat -> Z) (j : nat) : Z :=
  if j <? a * m then X (j / m) (j mod m) else Y ((j - a * m) / c) ((j - a * m) mod c).
Lemma flat_X a m c X Y i l : i < a -> l < m -> flat a m c X Y (i * m + l) = X i l.
Proof. intros Hi Hl. unfold flat. replace (i * m + l <? a * m) with true by (symmetry; apply Nat.ltb_lt; nia).
  rewrite Nat.div_add_l, Nat.div_small, Nat.add_0_r by lia. now rewrite Nat.add_comm, Nat.mod_add, Nat.mod_small by lia. Qed.
Lemma flat_Y a m c X Y i l : l < c -> flat a m c X Y (a * m + (i * c + l)) = Y i l.
Proof. intros Hl. unfold flat. replace (a * m + (i * c + l) <? a * m) with false by (symmetry; apply Nat.ltb_ge; lia).
  rewrite Nat.add_comm, Nat.add_sub. rewrite Nat.div_add_l, Nat.div_small, Nat.add_0_r by lia. now rewrite Nat.add_comm, Nat.mod_add, Nat.mod_small by lia. Qed.
Lemma flat_all a m b c v : length v = a * m + b * c ->
  exists X Y, v = vecZ (a * m + b * c) (flat a m c X Y).
Proof. intros Lv. exists (fun i l => Z.b2z (nth (i * m + l) v false)), (fun i l => Z.b2z (nth (a * m + (i * c + l)) v false)).
  rewrite (vecZ_nth v) at 1. rewrite Lv. apply vecZ_ext. intros j Hj. unfold flat. destruct (Nat.ltb_spec j (a * m)) as [H|H].
  - assert (m <> 0) by lia. now rewrite (Nat.mul_comm (j / m)), <- Nat.div_mod by auto.
  - assert (c <> 0) by nia. rewrite (Nat.mul_comm ((j - a * m) / c)), <- Nat.div_mod by auto. now replace (a * m + (j - a * m)) with j by lia. Qed.
Lemma flat_inj a m b c X Y X' Y' : vecZ (a * m + b * c) (flat a m c X Y) = vecZ (a * m + b * c) (flat a m c X' Y') ->
  (forall i l, i < a -> l < m -> Z.odd (X i l) = Z.odd (X' i l)) /\ (forall i l, i < b -> l < c -> Z.odd (Y i l) = Z.odd (Y' i l)).
Proof. intros E. pose proof (vecZ_inj _ _ _ E) as H. split; intros i l Hi Hl.
  - specialize (H (i * m + l) ltac:(nia)). now rewrite !flat_X in H.
  - specialize (H (a * m + (i * c + l)) ltac:(nia)). now rewrite !flat_Y in H. Qed.

Lemma first_row hi p X Y i l : i < a_rows hi -> l < a_rows p ->
  sumZ (a_cols (firstM hi p)) (fun k => a_at (firstM hi p) (i * a_rows p + l) k * flat (a_cols hi) (a_rows p) (a_cols p) X Y k)%Z =
  (sumZ (a_cols hi) (fun k => a_at hi i k * X k l) + sumZ (a_cols p) (fun t => a_at p l t * Y i t))%Z.
Proof. intros Hi Hl. unfold firstM. cbn [hcat kron eye a_cols a_rows a_at]. rewrite sumZ_app. f_equal.
  - rewrite sumZ_prod. apply sumZ_ext. intros k Hk. rewrite <- (sumZ_delta (a_rows p) l (fun j => a_at hi i k * X k j)%Z) by auto. apply sumZ_ext. intros j Hj.
    rewrite flat_X by auto. replace (k * a_rows p + j <? a_cols hi * a_rows p) with true by (symmetry; apply Nat.ltb_lt; nia).
    rewrite !Nat.div_add_l, !Nat.div_small, !Nat.add_0_r by lia. rewrite !(Nat.add_comm (_ * a_rows p)), !Nat.mod_add, !Nat.mod_small by lia. ring.
  - rewrite sumZ_prod. rewrite <- (sumZ_delta (a_rows hi) i (fun k => sumZ (a_cols p) (fun t => a_at p l t * Y k t)%Z)) by auto. apply sumZ_ext. intros k Hk. rewrite <- sumZ_scal. apply sumZ_ext. intros t Ht.
    rewrite flat_Y by auto. replace (a_cols hi * a_rows p + (k * a_cols p + t) <? a_cols hi * a_rows p) with false by (symmetry; apply Nat.ltb_ge; lia).
    replace (a_cols hi * a_rows p + (k * a_cols p + t) - a_cols hi * a_rows p) with (k * a_cols p + t) by lia.
    rewrite !Nat.div_add_l, !Nat.div_small, !Nat.add_0_r by lia. rewrite !(Nat.add_comm (_ * a_cols p)), !(Nat.add_comm (_ * a_rows p)), !Nat.mod_add, !Nat.mod_small by lia. ring. Qed.
Lemma low_row lo hi p X Y i l : a_cols lo = a_rows hi -> i < a_rows lo -> l < a_cols p ->
  sumZ (a_cols (firstM hi p)) (fun k => a_at (lowZ lo hi p) (i * a_cols p + l) k * flat (a_cols hi) (a_rows p) (a_cols p) X Y k)%Z =
  sumZ (a_cols lo) (fun k => a_at lo i k * Y k l)%Z.
Proof. intros E Hi Hl. unfold firstM, lowZ. cbn [hcat kron eye zerosA a_cols a_rows a_at]. rewrite sumZ_app, sumZ_0.
  - rewrite Z.add_0_l, <- E, sumZ_prod. apply sumZ_ext. intros k Hk. rewrite <- (sumZ_delta (a_cols p) l (fun j => a_at lo i k * Y k j)%Z) by auto. apply sumZ_ext. intros t Ht.
    rewrite flat_Y by auto. replace (a_cols hi * a_rows p + (k * a_cols p + t) <? a_cols hi * a_rows p) with false by (symmetry; apply Nat.ltb_ge; lia).
    replace (a_cols hi * a_rows p + (k * a_cols p + t) - a_cols hi * a_rows p) with (k * a_cols p + t) by lia.
    rewrite !Nat.div_add_l, !Nat.div_small, !Nat.add_0_r by lia. rewrite !(Nat.add_comm (_ * a_cols p)), !Nat.mod_add, !Nat.mod_small by lia. ring.
  - intros k Hk. replace (k <? a_cols hi * a_rows p) with true by (symmetry; now apply Nat.ltb_lt). reflexivity. Qed.

Lemma kernel_mid lo hi p X Y : a_cols lo = a_rows hi ->
  let N := a_cols hi * a_rows p + a_rows hi * a_cols p in
  (in_kernel N (bitsA (midM lo hi p)) (vecZ N (flat (a_cols hi) (a_rows p) (a_cols p) X Y)) <->
   (forall i l, i < a_rows hi -> l < a_rows p -> Z.odd (sumZ (a_cols hi) (fun k => a_at hi i k * X k l) + sumZ (a_cols p) (fun t => a_at p l t * Y i t))%Z = false) /\
   (forall i l, i < a_rows lo -> l < a_cols p -> Z.odd (sumZ (a_cols lo) (fun k => a_at lo i k * Y k l)%Z) = false)).
Proof. intros E N. change N with (a_cols (midM lo hi p)). rewrite kernel_vecZ.
  assert (R : a_rows (midM lo hi p) = a_rows hi * a_rows p + a_rows lo * a_cols p) by reflexivity. rewrite R.
  assert (A : forall i k, a_at (midM lo hi p) i k = if i <? a_rows hi * a_rows p then a_at (firstM hi p) i k else a_at (lowZ lo hi p) (i - a_rows hi * a_rows p) k) by reflexivity.
  change (a_cols (midM lo hi p)) with (a_cols (firstM hi p)). split.
  - intros H. split; intros i l Hi Hl.
    + rewrite <- (first_row hi p X Y i l Hi Hl). rewrite <- (H (i * a_rows p + l) ltac:(nia)). f_equal. apply sumZ_ext. intros k Hk. rewrite A.
      replace (i * a_rows p + l <? a_rows hi * a_rows p) with true by (symmetry; apply Nat.ltb_lt; nia). reflexivity.
    + rewrite <- (low_row lo hi p X Y i l E Hi Hl). rewrite <- (H (a_rows hi * a_rows p + (i * a_cols p + l)) ltac:(nia)). f_equal. apply sumZ_ext. intros k Hk. rewrite A.
      replace (a_rows hi * a_rows p + (i * a_cols p + l) <? a_rows hi * a_rows p) with false by (symmetry; apply Nat.ltb_ge; lia). f_equal. f_equal. lia.
  - intros [H1 H2] r Hr. destruct (Nat.ltb_spec r (a_rows hi * a_rows p)) as [L|L].
    + assert (NZ : a_rows p <> 0) by lia.
      specialize (H1 (r / a_rows p) (r mod a_rows p) ltac:(apply Nat.div_lt_upper_bound; lia) ltac:(now apply Nat.mod_upper_bound)).
      rewrite <- (first_row hi p X Y) in H1 by (try apply Nat.div_lt_upper_bound; try apply Nat.mod_upper_bound; lia).
      rewrite (Nat.mul_comm (r / a_rows p)), <- Nat.div_mod in H1 by auto. rewrite <- H1. f_equal. apply sumZ_ext. intros k Hk. rewrite A. apply Nat.ltb_lt in L. now rewrite L.
    + assert (NZ : a_cols p <> 0) by nia. set (q := r - a_rows hi * a_rows p).
      specialize (H2 (q / a_cols p) (q mod a_cols p) ltac:(apply Nat.div_lt_upper_bound; unfold q; lia) ltac:(now apply Nat.mod_upper_bound)).
      rewrite <- (low_row lo hi p X Y) in H2 by (auto; try apply Nat.div_lt_upper_bound; try apply Nat.mod_upper_bound; unfold q; lia).
      rewrite (Nat.mul_comm (q / a_cols p)), <- Nat.div_mod in H2 by auto. rewrite <- H2. f_equal. apply sumZ_ext. intros k Hk. rewrite A. apply Nat.ltb_ge in L. now rewrite L. Qed.
Lemma lincomb_inj n K a b : wf n K -> indep n K -> length a = length K -> length b = length K -> lincomb n a K = lincomb n b K -> a = b.
Proof. intros W I La Lb E. apply (vxor_eq_zero (length K)); auto. apply I; [now apply vxor_length'|]. rewrite lincomb_vxor by auto. rewrite E. apply vxor_self'. now apply lincomb_length. Qed.
Lemma bitsA_wf A : wf (a_cols A) (bitsA A).
Proof. exact (to_nd_ok A). Qed.
Lemma flat_ext_odd a m b c X Y X' Y' : (forall i l, i < a -> l < m -> Z.odd (X i l) = Z.odd (X' i l)) -> (forall i l, i < b -> l < c -> Z.odd (Y i l) = Z.odd (Y' i l)) ->
  vecZ (a * m + b * c) (flat a m c X Y) = vecZ (a * m + b * c) (flat a m c X' Y').
Proof. intros H1 H2. apply vecZ_ext. intros j Hj. unfold flat. destruct (Nat.ltb_spec j (a * m)) as [L|L].
  - apply H1; [apply Nat.div_lt_upper_bound; lia | apply Nat.mod_upper_bound; lia].
  - assert (c <> 0) by nia. apply H2; [apply Nat.div_lt_upper_bound; lia | now apply Nat.mod_upper_bound]. Qed.
(** the rank of the bits of an array *)
Definition rkA (A : arr) : nat := rk (a_cols A) (bitsA A).
