(** * ProductProofs: the product constructions are chain complexes *)
From Verif Require Export ArrProofs ProductModel.
Local Open Scope Z_scope.

Definition firstM (a p : arr) := hcat (kron a (eye (a_rows p))) (kron (eye (a_rows a)) p).
Definition lowZ (lo hi p : arr) := hcat (zerosA (a_rows lo * a_cols p) (a_cols hi * a_rows p)) (kron lo (eye (a_cols p))).
Definition midM (lo hi p : arr) := vcat (firstM hi p) (lowZ lo hi p).
Definition lastM (a p : arr) := vcat (kron (eye (a_cols a)) p) (kron a (eye (a_cols p))).

Lemma hstackA_ok A B : a_rows A = a_rows B -> hstackA A B = Ret (hcat A B).
Proof. intros H. unfold hstackA. now rewrite H, Nat.eqb_refl. Qed.
Lemma vstackA_ok A B : a_cols A = a_cols B -> vstackA A B = Ret (vcat A B).
Proof. intros H. unfold vstackA. now rewrite H, Nat.eqb_refl. Qed.
Lemma matmul_ok A B : a_cols A = a_rows B -> matmul A B = Ret (mmul A B).
Proof. intros H. unfold matmul. now rewrite H, Nat.eqb_refl. Qed.

Lemma first_ok a p : hstackA (kron a (eye (a_rows p))) (kron (eye (a_rows a)) p) = Ret (firstM a p).
Proof. apply hstackA_ok. reflexivity. Qed.
Lemma last_ok a p : vstackA (kron (eye (a_cols a)) p) (kron a (eye (a_cols p))) = Ret (lastM a p).
Proof. apply vstackA_ok. reflexivity. Qed.
Lemma mid_ok lo hi p : a_cols lo = a_rows hi -> middle_map lo hi p = Ret (midM lo hi p).
Proof. intros H. unfold middle_map. rewrite first_ok. cbn [pbind]. unfold firstM at 1.
  cbn [a_cols kron hcat eye]. rewrite H.
  destruct (Nat.ltb_spec (a_cols hi * a_rows p + a_rows hi * a_cols p) (a_rows hi * a_cols p)); [lia|].
  rewrite hstackA_ok by reflexivity. cbn [pbind]. rewrite vstackA_ok.
  - f_equal. unfold midM, lowZ. f_equal. f_equal. unfold zerosA. f_equal. cbn. lia.
  - cbn. lia. Qed.

Lemma mmul_zero_l A B i j : (forall k, (k < a_cols A)%nat -> a_at A i k = 0) -> a_at (mmul A B) i j = 0.
Proof. intros H. cbn. apply sumZ_0. intros k Hk. rewrite H; auto. Qed.
Lemma mmul_zero_r A B i j : (forall k, (k < a_cols A)%nat -> a_at B k j = 0) -> a_at (mmul A B) i j = 0.
Proof. intros H. cbn. apply sumZ_0. intros k Hk. rewrite H; auto. lia. Qed.
Lemma mmul_hcat_r M X Y i j : a_at (mmul M (hcat X Y)) i j = if (j <? a_cols X)%nat then a_at (mmul M X) i j else a_at (mmul M Y) i (j - a_cols X).
Proof. cbn [a_at mmul hcat]. destruct (j <? a_cols X)%nat; reflexivity. Qed.
Lemma mmul_vcat_l X Y M i j : a_cols X = a_cols Y -> a_at (mmul (vcat X Y) M) i j = if (i <? a_rows X)%nat then a_at (mmul X M) i j else a_at (mmul Y M) (i - a_rows X) j.
Proof. intros H. cbn [a_at mmul vcat a_cols]. destruct (i <? a_rows X)%nat; rewrite <- ?H; reflexivity. Qed.

(** (A x I)(I x B) = A x B = (I x B)(A x I) *)
Lemma kron_I_left A B : aeq (mmul (kron A (eye (a_rows B))) (kron (eye (a_cols A)) B)) (kron A B).
Proof. eapply aeq_trans; [apply kron_mixed; reflexivity|]. apply aeq_kron; [apply mmul_eye_r | apply mmul_eye_l]. Qed.
Lemma kron_I_right A B : aeq (mmul (kron (eye (a_rows A)) B) (kron A (eye (a_cols B)))) (kron A B).
Proof. eapply aeq_trans; [apply kron_mixed; reflexivity|]. apply aeq_kron; [apply mmul_eye_l | apply mmul_eye_r]. Qed.
Lemma kron_comp A B n : a_cols A = a_rows B -> aeq (mmul (kron A (eye n)) (kron B (eye n))) (kron (mmul A B) (eye n)).
Proof. intros H. eapply aeq_trans; [apply kron_mixed; auto|]. apply aeq_kron; [apply aeq_refl | exact (mmul_eye_l (eye n))]. Qed.

Lemma first_mid a1 a2 p : a_cols a1 = a_rows a2 -> zero2 (mmul a1 a2) -> zero2 (mmul (firstM a1 p) (midM a1 a2 p)).
Proof. intros H Z i j Hi Hj. cbn [mmul firstM midM lowZ hcat vcat kron eye zerosA a_rows a_cols] in Hi, Hj.
  unfold firstM at 1, midM. rewrite hcat_vcat by (cbn; lia).
  unfold firstM, lowZ. rewrite !mmul_hcat_r. cbn [zerosA kron eye a_cols].
  destruct (Nat.ltb_spec j (a_cols a2 * a_rows p)) as [J|J].
  - rewrite (mmul_zero_r _ (zerosA _ _)) by reflexivity. rewrite Z.add_0_r.
    destruct (kron_comp a1 a2 (a_rows p) H) as (_ & _ & E). rewrite E by (cbn; lia). apply zero2_kron_l; cbn; auto.
  - destruct (kron_I_left a1 p) as (R1 & C1 & E1). destruct (kron_I_right a1 p) as (R2 & C2 & E2).
    cbn [mmul kron eye a_rows a_cols] in R1, C1, R2, C2. rewrite <- H.
    rewrite E1 by (cbn; lia). rewrite E2 by (cbn; lia). rewrite Z.even_add. apply eqb_reflx. Qed.

Lemma mid_last a1 a2 p : a_cols a1 = a_rows a2 -> zero2 (mmul a1 a2) -> zero2 (mmul (midM a1 a2 p) (lastM a2 p)).
Proof. intros H Z i j Hi Hj. cbn [mmul firstM midM lowZ lastM hcat vcat kron eye zerosA a_rows a_cols] in Hi, Hj.
  unfold midM. rewrite mmul_vcat_l by (cbn; nia). cbn [firstM hcat kron eye a_rows].
  destruct (Nat.ltb_spec i (a_rows a2 * a_rows p)) as [J|J].
  - unfold firstM, lastM. rewrite hcat_vcat by reflexivity.
    destruct (kron_I_left a2 p) as (_ & _ & E1). destruct (kron_I_right a2 p) as (_ & _ & E2).
    rewrite E1 by (cbn; lia). rewrite E2 by (cbn; lia). rewrite Z.even_add. apply eqb_reflx.
  - unfold lowZ, lastM. rewrite hcat_vcat by (cbn; nia). rewrite (mmul_zero_l (zerosA _ _)) by reflexivity. rewrite Z.add_0_l.
    destruct (kron_comp a1 a2 (a_cols p) H) as (_ & _ & E). rewrite E by (cbn; lia). apply zero2_kron_l; cbn; auto; lia. Qed.

Lemma mid_mid a1 a2 a3 p : a_cols a1 = a_rows a2 -> a_cols a2 = a_rows a3 -> zero2 (mmul a1 a2) -> zero2 (mmul a2 a3) ->
  zero2 (mmul (midM a1 a2 p) (midM a2 a3 p)).
Proof. intros H H' Z Z' i j Hi Hj. cbn [mmul firstM midM lowZ hcat vcat kron eye zerosA a_rows a_cols] in Hi, Hj.
  unfold midM at 1. rewrite mmul_vcat_l by (cbn; nia). cbn [firstM hcat kron eye a_rows].
  destruct (Nat.ltb_spec i (a_rows a2 * a_rows p)) as [J|J].
  - apply first_mid; auto; cbn; lia.
  - unfold lowZ at 1, midM. rewrite hcat_vcat by (cbn; nia). rewrite (mmul_zero_l (zerosA _ _)) by reflexivity. rewrite Z.add_0_l.
    unfold lowZ. rewrite mmul_hcat_r. cbn [zerosA a_cols]. destruct (Nat.ltb_spec j (a_cols a3 * a_rows p)) as [K|K].
    + rewrite (mmul_zero_r _ (zerosA _ _)) by reflexivity. reflexivity.
    + destruct (kron_comp a1 a2 (a_cols p) H) as (_ & _ & E). rewrite E by (cbn; lia). apply zero2_kron_l; cbn; auto; lia. Qed.

(** conversely the first composition vanishes only if a1 a2 does *)
Lemma first_mid_conv a1 a2 p : a_cols a1 = a_rows a2 -> (0 < a_rows p)%nat -> zero2 (mmul (firstM a1 p) (midM a1 a2 p)) -> zero2 (mmul a1 a2).
Proof. intros H R Z i j Hi Hj. cbn [mmul a_rows a_cols] in Hi, Hj.
  set (r := a_rows p) in *. specialize (Z (i * r)%nat (j * r)%nat).
  assert (B1 : (i * r < a_rows a1 * r)%nat) by nia. assert (B2 : (j * r < a_cols a2 * r)%nat) by nia.
  cbn [mmul firstM midM lowZ hcat vcat kron eye zerosA a_rows a_cols] in Z. fold r in Z. specialize (Z B1 ltac:(lia)).
  unfold firstM at 1, midM in Z. rewrite hcat_vcat in Z by (cbn; lia).
  unfold firstM, lowZ in Z. rewrite !mmul_hcat_r in Z. cbn [zerosA kron eye a_cols] in Z. fold r in Z.
  destruct (Nat.ltb_spec (j * r) (a_cols a2 * r)) as [J|J]; [|lia].
  rewrite (mmul_zero_r _ (zerosA _ _)) in Z by reflexivity. rewrite Z.add_0_r in Z.
  destruct (kron_comp a1 a2 r H) as (_ & _ & E). rewrite E in Z by (cbn; auto). clear E.
  cbn [kron eye a_rows a_cols a_at] in Z.
  rewrite !Nat.div_mul, !Nat.mod_mul in Z by lia. rewrite Nat.eqb_refl, Z.mul_1_r in Z. exact Z. Qed.
