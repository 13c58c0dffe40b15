(** * BbProofs: bivariate bicycle codes *)
From Verif Require Export ArrProofs ProductProofs BbModel CssProofs.

(** ** square arrays that commute *)
Definition sq (N : nat) (A : arr) : Prop := a_rows A = N /\ a_cols A = N.
Definition comm (A B : arr) : Prop := aeq (mmul A B) (mmul B A).

Lemma sq_mmul N A B : sq N A -> sq N B -> sq N (mmul A B).
Proof. intros [H1 H2] [K1 K2]. split; auto. Qed.
Lemma sq_pow N A k : sq N A -> sq N (matpow A k).
Proof. intros H. induction k; [destruct H; split; auto|]. simpl. now apply sq_mmul. Qed.
Lemma sq_add N A B : sq N A -> sq N (addA A B).
Proof. intros [H1 H2]. split; auto. Qed.
Lemma comm_sym A B : comm A B -> comm B A. Proof. apply aeq_sym. Qed.

Lemma comm_mmul_r N A B C : sq N A -> sq N B -> sq N C -> comm A B -> comm A C -> comm A (mmul B C).
Proof. intros [A1 A2] [B1 B2] [C1 C2] H K. unfold comm in *.
  apply (aeq_trans _ (mmul (mmul A B) C)); [apply aeq_sym, mmul_assoc; congruence|].
  apply (aeq_trans _ (mmul (mmul B A) C)); [apply aeq_mmul; auto using aeq_refl; cbn; congruence|].
  apply (aeq_trans _ (mmul B (mmul A C))); [apply mmul_assoc; congruence|].
  apply (aeq_trans _ (mmul B (mmul C A))); [apply aeq_mmul; auto using aeq_refl; cbn; congruence|].
  apply aeq_sym, mmul_assoc; congruence. Qed.
Lemma comm_eye N A : sq N A -> comm A (eye N).
Proof. intros [H1 H2]. unfold comm. apply (aeq_trans _ A); [|apply aeq_sym]; [rewrite <- H2; apply mmul_eye_r | rewrite <- H1; apply mmul_eye_l]. Qed.
Lemma comm_pow_r N A B k : sq N A -> sq N B -> comm A B -> comm A (matpow B k).
Proof. intros HA HB H. induction k; simpl.
  - destruct HB as [-> _]. now apply comm_eye.
  - apply (comm_mmul_r N); auto using sq_pow. Qed.
Lemma comm_pow N A B i j : sq N A -> sq N B -> comm A B -> comm (matpow A i) (matpow B j).
Proof. intros HA HB H. apply (comm_pow_r N); auto using sq_pow. apply comm_sym. apply (comm_pow_r N); auto. now apply comm_sym. Qed.
Lemma comm_self A : comm A A. Proof. apply aeq_refl. Qed.
Lemma comm_add_r N A B C : sq N A -> sq N B -> sq N C -> comm A B -> comm A C -> comm A (addA B C).
Proof. intros [A1 A2] [B1 B2] [C1 C2] (H1 & H2 & H3) (K1 & K2 & K3). repeat split; cbn in *; try congruence. intros i j Hi Hj.
  specialize (H3 i j ltac:(lia) ltac:(lia)). specialize (K3 i j ltac:(lia) ltac:(lia)). 
  rewrite (sumZ_ext (a_cols A) _ (fun k => (a_at A i k * a_at B k j + a_at A i k * a_at C k j)%Z)) by (intros; ring).
  rewrite (sumZ_ext (a_cols B) _ (fun k => (a_at B i k * a_at A k j + a_at C i k * a_at A k j)%Z)) by (intros; ring).
  rewrite !sumZ_add, H3, K3, B2, C2. reflexivity. Qed.
Lemma comm_zero N A : sq N A -> comm A (zerosA N N).
Proof. intros [H1 H2]. repeat split; cbn; auto. intros i j Hi Hj. rewrite !sumZ_0; auto; intros; lia. Qed.

Lemma sq_fold N P a ts : sq N a -> (forall k, sq N (matpow P k)) -> sq N (fold_left (fun a power => addA a (matpow P power)) ts a).
Proof. revert a; induction ts as [|t ts IH]; intros a Ha HP; simpl; [exact Ha|]. apply IH; auto using sq_add. Qed.
Lemma comm_fold N A P a ts : sq N A -> sq N a -> sq N P -> comm A P -> comm A a -> comm A (fold_left (fun a power => addA a (matpow P power)) ts a).
Proof. revert a; induction ts as [|t ts IH]; intros a HA Ha HP C Ca; simpl; [exact Ca|]. apply IH; auto using sq_add.
  apply (comm_add_r N); auto using sq_pow. apply (comm_pow_r N); auto. Qed.

Lemma sq_x l m : sq (l*m) (x_matrix l m). Proof. split; reflexivity. Qed.
Lemma sq_y l m : sq (l*m) (y_matrix l m). Proof. split; reflexivity. Qed.
Lemma xy_comm l m : comm (x_matrix l m) (y_matrix l m).
Proof. unfold comm, x_matrix, y_matrix. apply (aeq_trans _ (kron (shift_matrix l) (shift_matrix m))); [exact (kron_I_left (shift_matrix l) (shift_matrix m))|].
  apply aeq_sym. exact (kron_I_right (shift_matrix l) (shift_matrix m)). Qed.

Lemma sq_cyc xs ys l m : sq (l*m) (cyclic_matrix_sum xs ys l m).
Proof. unfold cyclic_matrix_sum. apply sq_fold; [apply sq_fold|]; try (intros; apply sq_pow); try apply sq_x; try apply sq_y. Qed.
Lemma comm_cyc xs ys l m A : sq (l*m) A -> comm A (x_matrix l m) -> comm A (y_matrix l m) -> comm A (cyclic_matrix_sum xs ys l m).
Proof. intros HA Hx Hy. unfold cyclic_matrix_sum. apply (comm_fold (l*m)); auto using sq_y.
  - apply sq_fold; [split; reflexivity|]. intros; apply sq_pow, sq_x.
  - apply (comm_fold (l*m)); auto using sq_x; [split; reflexivity|]. now apply (comm_zero (l*m)). Qed.
Lemma cyc_comm xs ys xs' ys' l m : comm (cyclic_matrix_sum xs ys l m) (cyclic_matrix_sum xs' ys' l m).
Proof. apply comm_cyc; [apply sq_cyc| |]; apply comm_sym; apply comm_cyc; auto using sq_x, sq_y, comm_self, xy_comm. apply comm_sym, xy_comm. Qed.

(** ** dot products of rows *)
Lemma dot_odd f g s n : dot (map (fun j => Z.odd (f j)) (seq s n)) (map (fun j => Z.odd (g j)) (seq s n)) = Z.odd (sumZ n (fun j => f (s + j)%nat * g (s + j)%nat)%Z).
Proof. induction n; [reflexivity|]. rewrite seq_S, !map_app, dot_app by (now rewrite !map_length). rewrite IHn. simpl. rewrite Z.odd_add, Z.odd_mul, xorb_false_r. reflexivity. Qed.

Lemma odd_mod2 x : Z.odd (x mod 2) = Z.odd x.
Proof. rewrite (Z.div_mod x 2) at 2 by lia. rewrite Z.odd_add, Z.odd_mul. simpl. destruct (Z.odd (x mod 2)); reflexivity. Qed.
Lemma odd_sum_ext n f g : (forall k, k < n -> Z.odd (f k) = Z.odd (g k)) -> Z.odd (sumZ n f) = Z.odd (sumZ n g).
Proof. induction n; simpl; intros H; auto. rewrite !Z.odd_add, IHn, H; auto. Qed.

Lemma bb_orth N A B : sq N A -> sq N B -> comm A B ->
  orthogonal (nd_rows (to_nd (hcat (mod2A A) (mod2A B)))) (nd_rows (to_nd (hcat (trA (mod2A B)) (trA (mod2A A))))).
Proof. intros [A1 A2] [B1 B2] (_ & _ & C) a b Ha Hb. unfold to_nd in *. cbn [nd_rows] in *.
  apply in_map_iff in Ha as (i & <- & Hi). apply in_map_iff in Hb as (j & <- & Hj). apply in_seq in Hi, Hj.
  cbn [hcat mod2A trA a_rows a_cols] in *. 
  replace (a_rows B + a_rows A) with (a_cols A + a_cols B) by lia.
  rewrite dot_odd. cbn [Nat.add]. rewrite sumZ_app, Z.odd_add.
  assert (E1 : Z.odd (sumZ (a_cols A) (fun k => (a_at (hcat (mod2A A) (mod2A B)) i k * a_at (hcat (trA (mod2A B)) (trA (mod2A A))) j k)%Z)) = Z.odd (a_at (mmul A B) i j)).
  { cbn [mmul a_at]. apply odd_sum_ext. intros k Hk. cbn [hcat mod2A trA a_at a_cols a_rows].
    destruct (Nat.ltb_spec k (a_cols A)), (Nat.ltb_spec k (a_rows B)); try lia. rewrite !Z.odd_mul, !odd_mod2. reflexivity. }
  assert (E2 : Z.odd (sumZ (a_cols B) (fun k => (a_at (hcat (mod2A A) (mod2A B)) i (a_cols A + k) * a_at (hcat (trA (mod2A B)) (trA (mod2A A))) j (a_cols A + k))%Z)) = Z.odd (a_at (mmul B A) i j)).
  { cbn [mmul a_at]. apply odd_sum_ext. intros k Hk. cbn [hcat mod2A trA a_at a_cols a_rows].
    destruct (Nat.ltb_spec (a_cols A + k) (a_cols A)), (Nat.ltb_spec (a_cols A + k) (a_rows B)); try lia.
    replace (a_cols A + k - a_cols A) with k by lia. replace (a_cols A + k - a_rows B) with k by lia. rewrite !Z.odd_mul, !odd_mod2. reflexivity. }
  etransitivity; [exact (f_equal2 xorb E1 E2)|]. rewrite C by (cbn; lia). apply xorb_nilpotent. Qed.

Lemma to_nd_ok A : nd_ok (to_nd A).
Proof. unfold nd_ok, to_nd. cbn. apply Forall_forall. intros r Hr. apply in_map_iff in Hr as (i & <- & _). now rewrite map_length, seq_length. Qed.

(** ** row sums: every power of a shift is a permutation matrix *)
Definition rowsum (A : arr) (i : nat) : Z := sumZ (a_cols A) (a_at A i).
Definition rs1 (A : arr) : Prop := (forall i, i < a_rows A -> rowsum A i = 1%Z) /\ (forall i j, i < a_rows A -> j < a_cols A -> (0 <= a_at A i j)%Z).

Lemma sumZ_nonneg n f : (forall k, k < n -> (0 <= f k)%Z) -> (0 <= sumZ n f)%Z.
Proof. induction n; simpl; intros H; [lia|]. specialize (IHn ltac:(auto)). specialize (H n ltac:(lia)). lia. Qed.
Lemma rs1_mmul A B : a_cols A = a_rows B -> rs1 A -> rs1 B -> rs1 (mmul A B).
Proof. intros E [HA NA] [HB NB]. split.
  - intros i Hi. unfold rowsum. cbn in *. rewrite sumZ_swap. rewrite <- (HA i Hi). unfold rowsum. apply sumZ_ext. intros k Hk.
    rewrite sumZ_scal. unfold rowsum in HB. rewrite (HB k) by lia. lia.
  - cbn. intros i j Hi Hj. apply sumZ_nonneg. intros k Hk. apply Z.mul_nonneg_nonneg; [apply NA | apply NB]; auto; lia. Qed.
Lemma rs1_kron A B : rs1 A -> rs1 B -> rs1 (kron A B).
Proof. intros [HA NA] [HB NB]. split.
  - intros i Hi. unfold rowsum in *. cbn in *. destruct (divmod_lt _ _ _ _ Hi eq_refl) as [D M]. rewrite sumZ_prod.
    rewrite <- (HA _ D). apply sumZ_ext. intros k Hk.
    rewrite (sumZ_ext _ _ (fun j => (a_at A (i / a_rows B) k * a_at B (i mod a_rows B) j)%Z)).
    + rewrite sumZ_scal, HB by auto. lia.
    + intros j Hj. rewrite div_add, mod_add by auto. reflexivity.
  - cbn. intros i j Hi Hj. destruct (divmod_lt _ _ _ _ Hi eq_refl), (divmod_lt _ _ _ _ Hj eq_refl). apply Z.mul_nonneg_nonneg; auto. Qed.
Lemma sumZ_one n i : i < n -> sumZ n (fun k => if i =? k then 1%Z else 0%Z) = 1%Z.
Proof. intros H. transitivity (sumZ n (fun k => ((if (i =? k)%nat then 1 else 0) * 1)%Z)); [apply sumZ_ext; intros k _; destruct (i =? k); reflexivity | exact (sumZ_delta n i (fun _ => 1%Z) H)]. Qed.
Lemma rs1_eye n : rs1 (eye n).
Proof. split; cbn; intros; [now apply sumZ_one|]. destruct (_ =? _); lia. Qed.
Lemma rs1_shift l : rs1 (shift_matrix l).
Proof. split; cbn [shift_matrix a_rows a_cols a_at].
  - intros i Hi. unfold rowsum. cbn [shift_matrix a_cols a_at]. etransitivity; [|apply (sumZ_one l ((i + 1) mod l)); apply Nat.mod_upper_bound; lia].
    apply sumZ_ext. intros k Hk. cbn [a_at]. destruct (Nat.eqb_spec k ((i + 1) mod l)), (Nat.eqb_spec ((i + 1) mod l) k); congruence.
  - intros. destruct (_ =? _); lia. Qed.
Lemma rs1_shift_tr l : rs1 (trA (shift_matrix l)).
Proof. split; cbn [shift_matrix a_rows a_cols a_at trA].
  - intros j Hj. unfold rowsum. cbn [shift_matrix trA a_rows a_cols a_at].
    set (p := if j =? 0 then l - 1 else j - 1). assert (Hp : p < l) by (unfold p; destruct (j =? 0); lia).
    etransitivity; [|apply (sumZ_one l p Hp)]. apply sumZ_ext. intros k Hk.
    assert (EQ : (j =? (k + 1) mod l) = (p =? k)).
    { unfold p. destruct (Nat.eq_dec (k + 1) l) as [Q|Q].
      - rewrite Q, Nat.mod_same by lia. destruct (Nat.eqb_spec j 0); [|destruct (Nat.eqb_spec (j - 1) k); lia].
        destruct (Nat.eqb_spec (l - 1) k); lia.
      - rewrite Nat.mod_small by lia. destruct (Nat.eqb_spec j 0), (Nat.eqb_spec j (k+1)); try lia.
        + destruct (Nat.eqb_spec (l - 1) k); lia.
        + destruct (Nat.eqb_spec (j - 1) k); lia.
        + destruct (Nat.eqb_spec (j - 1) k); lia. }
    now rewrite EQ.
  - intros. destruct (_ =? _); lia. Qed.
Lemma rs1_aeq A B : aeq A B -> rs1 A -> rs1 B.
Proof. intros (H1 & H2 & H3) [HA NA]. split.
  - intros i Hi. rewrite <- (HA i) by lia. unfold rowsum. rewrite H2. apply sumZ_ext. intros k Hk. symmetry. apply H3; lia.
  - intros i j Hi Hj. rewrite <- H3 by lia. apply NA; lia. Qed.
Lemma rs1_pow N P k : sq N P -> rs1 P -> rs1 (matpow P k).
Proof. intros S H. induction k; simpl; [apply rs1_eye|]. apply rs1_mmul; auto. destruct (sq_pow N P k S), S. congruence. Qed.
Lemma rs1_pow_tr N P k : sq N P -> rs1 (trA P) -> rs1 (trA (matpow P k)).
Proof. intros S H. induction k; simpl.
  - apply (rs1_aeq (eye (a_rows P))); [|apply rs1_eye]. repeat split. cbn. intros. now rewrite Nat.eqb_sym.
  - apply (rs1_aeq (mmul (trA P) (trA (matpow P k)))).
    + repeat split. cbn [mmul trA a_at a_cols a_rows]. intros i j Hi Hj. destruct (sq_pow N P k S) as [S1 S2], S as [S3 S4]. rewrite S2, S3. apply sumZ_ext. intros; ring.
    + apply rs1_mmul; auto. destruct (sq_pow N P k S), S. cbn. congruence. Qed.

(** nonnegative entries with all row sums c *)
Definition rsc (A : arr) (c : Z) : Prop := (forall i, i < a_rows A -> rowsum A i = c) /\ (forall i j, i < a_rows A -> j < a_cols A -> (0 <= a_at A i j)%Z).
Lemma rsc_add N A B c : sq N A -> sq N B -> rsc A c -> rs1 B -> rsc (addA A B) (c + 1).
Proof. intros [A1 A2] [B1 B2] [HA NA] [HB NB]. split; cbn [addA a_rows a_cols a_at].
  - intros i Hi. unfold rowsum in *. cbn [addA a_cols a_at]. rewrite sumZ_add, HA by auto. rewrite A2, <- B2, HB by lia. reflexivity.
  - intros i j Hi Hj. specialize (NA i j ltac:(lia) ltac:(lia)). specialize (NB i j ltac:(lia) ltac:(lia)). lia. Qed.
Lemma rsc_fold N P a ts c : sq N a -> sq N P -> rsc a c -> (forall k, rs1 (matpow P k)) ->
  rsc (fold_left (fun a power => addA a (matpow P power)) ts a) (c + Z.of_nat (length ts)).
Proof. revert a c; induction ts as [|t ts IH]; intros a c Ha HP HC H; [simpl; now rewrite Z.add_0_r|].
  cbn [fold_left length]. replace (c + Z.of_nat (S (length ts)))%Z with ((c + 1) + Z.of_nat (length ts))%Z by lia. apply IH; auto.
  apply (rsc_add N); auto using sq_pow. Qed.
Lemma rsc_fold_tr N P a ts c : sq N a -> sq N P -> rsc (trA a) c -> (forall k, rs1 (trA (matpow P k))) ->
  rsc (trA (fold_left (fun a power => addA a (matpow P power)) ts a)) (c + Z.of_nat (length ts)).
Proof. revert a c; induction ts as [|t ts IH]; intros a c Ha HP HC H; [simpl; now rewrite Z.add_0_r|].
  cbn [fold_left length]. replace (c + Z.of_nat (S (length ts)))%Z with ((c + 1) + Z.of_nat (length ts))%Z by lia. apply IH; auto.
  destruct Ha as [A1 A2]. destruct (sq_pow N P t HP) as [B1 B2].
  apply (rsc_add N (trA a) (trA (matpow P t))); auto; split; cbn; auto. Qed.

Lemma rs1_x l m : rs1 (x_matrix l m). Proof. apply rs1_kron; [apply rs1_shift | apply rs1_eye]. Qed.
Lemma rs1_y l m : rs1 (y_matrix l m). Proof. apply rs1_kron; [apply rs1_eye | apply rs1_shift]. Qed.
Lemma rs1_eye_tr n : rs1 (trA (eye n)).
Proof. apply (rs1_aeq (eye n)); [|apply rs1_eye]. repeat split. cbn. intros. now rewrite Nat.eqb_sym. Qed.
Lemma rs1_x_tr l m : rs1 (trA (x_matrix l m)). Proof. apply (rs1_kron (trA (shift_matrix l)) (trA (eye m))); [apply rs1_shift_tr | apply rs1_eye_tr]. Qed.
Lemma rs1_y_tr l m : rs1 (trA (y_matrix l m)). Proof. apply (rs1_kron (trA (eye l)) (trA (shift_matrix m))); [apply rs1_eye_tr | apply rs1_shift_tr]. Qed.

Lemma cyc_rsc xs ys l m : rsc (cyclic_matrix_sum xs ys l m) (Z.of_nat (length xs + length ys)).
Proof. unfold cyclic_matrix_sum. rewrite Nat2Z.inj_add. rewrite <- (Z.add_0_l (Z.of_nat (length xs))).
  apply (rsc_fold (l*m)); auto using sq_y; [apply sq_fold; [split; reflexivity | intros; apply sq_pow, sq_x] | | intros; apply (rs1_pow (l*m)); auto using sq_y, rs1_y].
  apply (rsc_fold (l*m)); auto using sq_x; [split; reflexivity | | intros; apply (rs1_pow (l*m)); auto using sq_x, rs1_x].
  split; cbn; intros; [apply sumZ_zero | lia]. Qed.
Lemma cyc_rsc_tr xs ys l m : rsc (trA (cyclic_matrix_sum xs ys l m)) (Z.of_nat (length xs + length ys)).
Proof. unfold cyclic_matrix_sum. rewrite Nat2Z.inj_add. rewrite <- (Z.add_0_l (Z.of_nat (length xs))).
  apply (rsc_fold_tr (l*m)); auto using sq_y; [apply sq_fold; [split; reflexivity | intros; apply sq_pow, sq_x] | | intros; apply (rs1_pow_tr (l*m)); auto using sq_y, rs1_y_tr].
  apply (rsc_fold_tr (l*m)); auto using sq_x; [split; reflexivity | | intros; apply (rs1_pow_tr (l*m)); auto using sq_x, rs1_x_tr].
  split; cbn; intros; [apply sumZ_zero | lia]. Qed.

Lemma weight_app a b : weight (a ++ b) = weight a + weight b.
Proof. induction a as [|[] a IH]; simpl; auto. Qed.
Lemma weight_odd f s n : (forall k, k < n -> (0 <= f (s + k)%nat)%Z) ->
  (Z.of_nat (weight (map (fun j => Z.odd (f j)) (seq s n))) <= sumZ n (fun k => f (s + k)%nat))%Z /\
  Z.odd (Z.of_nat (weight (map (fun j => Z.odd (f j)) (seq s n)))) = Z.odd (sumZ n (fun k => f (s + k)%nat)).
Proof. induction n; intros H; [split; reflexivity|]. rewrite seq_S, map_app, weight_app, Nat2Z.inj_add. cbn [sumZ map].
  destruct IHn as [I1 I2]; [auto|]. specialize (H n ltac:(lia)). rewrite !Z.odd_add, I2.
  destruct (Z.odd (f (s + n))) eqn:E; cbn [weight] in *.
  - assert (f (s + n)%nat <> 0)%Z by (intros Q; rewrite Q in E; discriminate). split; [simpl; lia | reflexivity].
  - split; [simpl; lia | reflexivity]. Qed.

Lemma row_weight A B cA cB i : a_rows A = a_rows B -> rsc A cA -> rsc B cB -> i < a_rows A ->
  let w := Z.of_nat (weight (nth i (nd_rows (to_nd (hcat (mod2A A) (mod2A B)))) [])) in
  (w <= cA + cB)%Z /\ Z.odd w = Z.odd (cA + cB).
Proof. intros E [HA NA] [HB NB] Hi. unfold to_nd. cbn [nd_rows hcat mod2A a_rows a_cols].
  rewrite (nth_indep _ [] (map (fun j => Z.odd (a_at (hcat (mod2A A) (mod2A B)) 0 j)) (seq 0 (a_cols A + a_cols B)))) by (rewrite map_length, seq_length; auto).
  rewrite (map_nth (fun i => map (fun j => Z.odd (a_at (hcat (mod2A A) (mod2A B)) i j)) (seq 0 (a_cols A + a_cols B)))).
  rewrite seq_nth by auto. cbn [Nat.add].
  rewrite (map_ext_in _ (fun j => Z.odd (a_at (hcat A B) i j))).
  2: { intros j _. cbn [hcat mod2A a_at a_cols]. destruct (j <? a_cols A); apply odd_mod2. }
  destruct (weight_odd (fun j => a_at (hcat A B) i j) 0 (a_cols A + a_cols B)) as [W1 W2].
  { intros k Hk. cbn [hcat a_at Nat.add]. destruct (Nat.ltb_spec k (a_cols A)); [apply NA | apply NB]; lia. }
  assert (S : sumZ (a_cols A + a_cols B) (fun k => a_at (hcat A B) i (0 + k)) = (cA + cB)%Z).
  { rewrite sumZ_app. f_equal.
    - rewrite <- (HA i) by auto. unfold rowsum. apply sumZ_ext. intros k Hk. cbn [hcat a_at Nat.add]. destruct (Nat.ltb_spec k (a_cols A)); auto; lia.
    - rewrite <- (HB i) by lia. unfold rowsum. apply sumZ_ext. intros k Hk. cbn [hcat a_at Nat.add]. destruct (Nat.ltb_spec (a_cols A + k) (a_cols A)); [lia|]. f_equal. lia. }
  rewrite S in W1, W2. split; auto. Qed.
