(** * ArrProofs: algebra of arrays (entry-wise), mixed-product rule of Kronecker products *)
From Verif Require Export ArrModel.
Local Open Scope Z_scope.

(** equality of arrays: same shape, same entries inside the shape *)
Definition aeq (A B : arr) : Prop :=
  a_rows A = a_rows B /\ a_cols A = a_cols B /\ forall i j, (i < a_rows A)%nat -> (j < a_cols A)%nat -> a_at A i j = a_at B i j.
(** A = 0 modulo 2 *)
Definition zero2 (A : arr) : Prop := forall i j, (i < a_rows A)%nat -> (j < a_cols A)%nat -> Z.even (a_at A i j) = true.

Lemma sumZ_ext n f g : (forall k, (k < n)%nat -> f k = g k) -> sumZ n f = sumZ n g.
Proof. induction n; simpl; intros H; auto. rewrite IHn, H; auto. Qed.
Lemma sumZ_add n f g : sumZ n (fun k => f k + g k) = sumZ n f + sumZ n g.
Proof. induction n; simpl; lia. Qed.
Lemma sumZ_scal n c f : sumZ n (fun k => c * f k) = c * sumZ n f.
Proof. induction n; simpl; lia. Qed.
Lemma sumZ_scal_r n c f : sumZ n (fun k => f k * c) = sumZ n f * c.
Proof. induction n; simpl; lia. Qed.
Lemma sumZ_zero n : sumZ n (fun _ => 0) = 0.
Proof. induction n; simpl; lia. Qed.
Lemma sumZ_0 n f : (forall k, (k < n)%nat -> f k = 0) -> sumZ n f = 0.
Proof. intros H. rewrite (sumZ_ext n f (fun _ => 0)); auto using sumZ_zero. Qed.
Lemma sumZ_swap n m f : sumZ n (fun i => sumZ m (fun j => f i j)) = sumZ m (fun j => sumZ n (fun i => f i j)).
Proof. induction n; simpl; [now rewrite sumZ_zero|]. rewrite IHn, <- sumZ_add. reflexivity. Qed.
Lemma sumZ_app n m f : sumZ (n + m) f = sumZ n f + sumZ m (fun k => f (n + k)%nat).
Proof. induction m; simpl; [rewrite Nat.add_0_r; lia|]. rewrite Nat.add_succ_r. simpl. rewrite IHm. lia. Qed.
Lemma sumZ_delta n i f : (i < n)%nat -> sumZ n (fun k => (if (i =? k)%nat then 1 else 0) * f k) = f i.
Proof. revert i; induction n; intros i Hi; [lia|]. simpl. destruct (Nat.eqb_spec i n) as [->|].
  - rewrite sumZ_0; [lia|]. intros k Hk. destruct (Nat.eqb_spec n k); lia.
  - rewrite IHn by lia. lia. Qed.
Lemma sumZ_delta_r n i f : (i < n)%nat -> sumZ n (fun k => f k * (if (k =? i)%nat then 1 else 0)) = f i.
Proof. intros H. rewrite <- (sumZ_delta n i f H) at 1. apply sumZ_ext. intros k _. rewrite Nat.eqb_sym. lia. Qed.
Lemma sumZ_prod a b f : sumZ (a * b) f = sumZ a (fun i => sumZ b (fun j => f (i * b + j)%nat)).
Proof. induction a; simpl; auto. rewrite Nat.add_comm, sumZ_app, IHa. reflexivity. Qed.
Lemma sumZ_even n f : (forall k, (k < n)%nat -> Z.even (f k) = true) -> Z.even (sumZ n f) = true.
Proof. induction n; simpl; intros H; auto. rewrite Z.even_add, IHn, H; auto. Qed.

Lemma divmod_lt a b k i : (k < a * b)%nat -> i = (k / b)%nat -> (i < a)%nat /\ (k mod b < b)%nat.
Proof. intros H ->. assert (b <> 0)%nat by lia. split; [apply Nat.div_lt_upper_bound; lia | now apply Nat.mod_upper_bound]. Qed.
Lemma div_add b i j : (j < b)%nat -> ((i * b + j) / b = i)%nat.
Proof. intros H. rewrite Nat.div_add_l by lia. rewrite Nat.div_small by lia. lia. Qed.
Lemma mod_add b i j : (j < b)%nat -> ((i * b + j) mod b = j)%nat.
Proof. intros H. rewrite Nat.add_comm, Nat.mod_add by lia. now apply Nat.mod_small. Qed.

(** (A x B)(C x D) = AC x BD *)
Lemma kron_mixed A B C D : a_cols A = a_rows C -> a_cols B = a_rows D ->
  aeq (mmul (kron A B) (kron C D)) (kron (mmul A C) (mmul B D)).
Proof. intros HA HB. split; [reflexivity|]. split; [reflexivity|]. cbn. intros i j Hi Hj.
  rewrite sumZ_prod. rewrite HB.
  rewrite <- sumZ_scal_r. apply sumZ_ext. intros k Hk.
  rewrite <- sumZ_scal. apply sumZ_ext. intros l Hl.
  rewrite !div_add, !mod_add by lia. ring. Qed.

Lemma mmul_eye_l A : aeq (mmul (eye (a_rows A)) A) A.
Proof. split; [reflexivity|]. split; [reflexivity|]. cbn. intros i j Hi Hj. now apply (sumZ_delta _ _ (fun k => a_at A k j)). Qed.
Lemma mmul_eye_r A : aeq (mmul A (eye (a_cols A))) A.
Proof. split; [reflexivity|]. split; [reflexivity|]. cbn. intros i j Hi Hj. now apply (sumZ_delta_r _ _ (fun k => a_at A i k)). Qed.

Lemma aeq_refl A : aeq A A. Proof. repeat split; auto. Qed.
Lemma aeq_sym A B : aeq A B -> aeq B A.
Proof. intros (H1 & H2 & H3). repeat split; auto. intros i j Hi Hj. symmetry. apply H3; congruence. Qed.
Lemma aeq_trans A B C : aeq A B -> aeq B C -> aeq A C.
Proof. intros (H1 & H2 & H3) (K1 & K2 & K3). repeat split; try congruence. intros i j Hi Hj. rewrite H3 by auto. apply K3; congruence. Qed.
Lemma aeq_kron A A' B B' : aeq A A' -> aeq B B' -> aeq (kron A B) (kron A' B').
Proof. intros (H1 & H2 & H3) (K1 & K2 & K3). repeat split; cbn; try congruence. intros i j Hi Hj.
  rewrite <- K1, <- K2. destruct (divmod_lt _ _ _ _ Hi eq_refl), (divmod_lt _ _ _ _ Hj eq_refl). rewrite H3, K3; auto. Qed.
Lemma aeq_mmul A A' B B' : aeq A A' -> aeq B B' -> a_cols A = a_rows B -> aeq (mmul A B) (mmul A' B').
Proof. intros (H1 & H2 & H3) (K1 & K2 & K3) E. repeat split; cbn; try congruence. intros i j Hi Hj. rewrite <- H2.
  apply sumZ_ext. intros k Hk. rewrite H3, K3; auto. congruence. Qed.
Lemma mmul_assoc A B C : a_cols A = a_rows B -> a_cols B = a_rows C -> aeq (mmul (mmul A B) C) (mmul A (mmul B C)).
Proof. intros H1 H2. repeat split; cbn; auto. intros i j Hi Hj.
  transitivity (sumZ (a_cols B) (fun k => sumZ (a_cols A) (fun l => a_at A i l * a_at B l k * a_at C k j))).
  - apply sumZ_ext. intros k Hk. now rewrite <- sumZ_scal_r.
  - rewrite sumZ_swap. apply sumZ_ext. intros l Hl. rewrite <- sumZ_scal. apply sumZ_ext. intros k Hk. ring. Qed.

(** block products *)
Lemma hcat_vcat A B C D : a_cols A = a_rows C -> a_cols B = a_rows D ->
  forall i j, a_at (mmul (hcat A B) (vcat C D)) i j = a_at (mmul A C) i j + a_at (mmul B D) i j.
Proof. intros H1 H2 i j. cbn [a_at mmul hcat vcat a_cols a_rows]. rewrite sumZ_app. f_equal.
  - apply sumZ_ext. intros k Hk. destruct (Nat.ltb_spec k (a_cols A)), (Nat.ltb_spec k (a_rows C)); try lia; reflexivity.
  - apply sumZ_ext. intros k Hk. destruct (Nat.ltb_spec (a_cols A + k) (a_cols A)), (Nat.ltb_spec (a_cols A + k) (a_rows C)); try lia.
    repeat f_equal; lia. Qed.

Lemma even_everywhere_iff A : even_everywhere A = true <-> zero2 A.
Proof. unfold even_everywhere, zero2. rewrite forallb_forall. split.
  - intros H i j Hi Hj. assert (Hi' : In i (seq 0 (a_rows A))) by (apply in_seq; lia). specialize (H i Hi'). rewrite forallb_forall in H. apply H. apply in_seq; lia.
  - intros H i Hi. apply forallb_forall. intros j Hj. apply in_seq in Hi, Hj. apply H; lia. Qed.
Lemma zero2_aeq A B : aeq A B -> zero2 A -> zero2 B.
Proof. intros (H1 & H2 & H3) Z i j Hi Hj. rewrite <- H3 by congruence. apply Z; congruence. Qed.
Lemma zero2_kron_l A B : zero2 A -> zero2 (kron A B).
Proof. intros Z i j Hi Hj. cbn in *. destruct (divmod_lt _ _ _ _ Hi eq_refl), (divmod_lt _ _ _ _ Hj eq_refl). rewrite Z.even_mul, Z; auto. Qed.
