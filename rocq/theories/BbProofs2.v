(** * BbProofs2: explicit form of the bivariate bicycle checks *)
From Verif Require Export BbProofs.

(** qubit (u, v) of the l x m torus has index u*m + v; its translates by k along the two axes *)
Definition tx (l m k i : nat) : nat := ((i / m + k) mod l) * m + i mod m.
Definition ty (l m k i : nat) : nat := (i / m) * m + (i mod m + k) mod m.

Lemma eq_divmod m i u v : v < m -> (i = u * m + v <-> i / m = u /\ i mod m = v).
Proof. intros Hv. split.
  - intros ->. now rewrite div_add, mod_add.
  - intros [<- <-]. rewrite (Nat.div_mod i m) at 1 by lia. lia. Qed.

Lemma x_at l m i j : 0 < l -> 0 < m -> a_at (x_matrix l m) i j = if j =? tx l m 1 i then 1%Z else 0%Z.
Proof. intros Hl Hm. cbn [x_matrix kron shift_matrix eye a_at a_rows a_cols]. unfold tx.
  assert (M : i mod m < m) by (apply Nat.mod_upper_bound; lia).
  pose proof (eq_divmod m j ((i / m + 1) mod l) (i mod m) M) as Q.
  destruct (Nat.eqb_spec (j / m) ((i / m + 1) mod l)), (Nat.eqb_spec (i mod m) (j mod m)), (Nat.eqb_spec j ((i / m + 1) mod l * m + i mod m)); auto; exfalso;
   first [tauto | apply n; apply Q; split; congruence | destruct (proj1 Q ltac:(auto)); congruence]. Qed.
Lemma y_at l m i j : 0 < l -> 0 < m -> a_at (y_matrix l m) i j = if j =? ty l m 1 i then 1%Z else 0%Z.
Proof. intros Hl Hm. cbn [y_matrix kron shift_matrix eye a_at a_rows a_cols]. unfold ty.
  assert (M : (i mod m + 1) mod m < m) by (apply Nat.mod_upper_bound; lia).
  pose proof (eq_divmod m j (i / m) ((i mod m + 1) mod m) M) as Q.
  destruct (Nat.eqb_spec (i / m) (j / m)), (Nat.eqb_spec (j mod m) ((i mod m + 1) mod m)), (Nat.eqb_spec j (i / m * m + (i mod m + 1) mod m)); auto; exfalso;
   first [tauto | apply n; apply Q; split; congruence | destruct (proj1 Q ltac:(auto)); congruence]. Qed.

Lemma tx_lt l m k i : 0 < l -> 0 < m -> tx l m k i < l * m.
Proof. intros Hl Hm. unfold tx. assert ((i / m + k) mod l < l) by (apply Nat.mod_upper_bound; lia). assert (i mod m < m) by (apply Nat.mod_upper_bound; lia). nia. Qed.
Lemma ty_lt l m k i : 0 < m -> i < l * m -> ty l m k i < l * m.
Proof. intros Hm Hi. unfold ty. assert ((i mod m + k) mod m < m) by (apply Nat.mod_upper_bound; lia). assert (i / m < l) by (apply Nat.div_lt_upper_bound; lia). nia. Qed.
Lemma tx_S l m k i : 0 < l -> 0 < m -> tx l m 1 (tx l m k i) = tx l m (S k) i.
Proof. intros Hl Hm. unfold tx. assert (i mod m < m) by (apply Nat.mod_upper_bound; lia). rewrite div_add, mod_add by auto.
  rewrite Nat.add_mod_idemp_l by lia. f_equal. f_equal. f_equal. lia. Qed.
Lemma ty_S l m k i : 0 < m -> ty l m 1 (ty l m k i) = ty l m (S k) i.
Proof. intros Hm. unfold ty. assert ((i mod m + k) mod m < m) by (apply Nat.mod_upper_bound; lia). rewrite div_add, mod_add by auto.
  rewrite Nat.add_mod_idemp_l by lia. f_equal. f_equal. lia. Qed.
Lemma tx_0 l m i : 0 < m -> i < l * m -> tx l m 0 i = i.
Proof. intros Hm Hi. unfold tx. assert (i / m < l) by (apply Nat.div_lt_upper_bound; lia). rewrite Nat.add_0_r, Nat.mod_small by auto. rewrite (Nat.div_mod i m) at 3 by lia. lia. Qed.
Lemma ty_0 l m i : 0 < m -> i < l * m -> ty l m 0 i = i.
Proof. intros Hm Hi. unfold ty. rewrite Nat.add_0_r, Nat.mod_mod by lia. rewrite (Nat.div_mod i m) at 3 by lia. lia. Qed.

Lemma pow_at P N (t : nat -> nat -> nat) : sq N P ->
  (forall i j, a_at P i j = if j =? t 1 i then 1%Z else 0%Z) -> (forall i, i < N -> t 0 i = i) -> (forall k i, t 1 (t k i) = t (S k) i) -> (forall k i, i < N -> t k i < N) ->
  forall k i j, i < N -> a_at (matpow P k) i j = if j =? t k i then 1%Z else 0%Z.
Proof. intros S H H0 HS HL k. induction k as [|k IH]; intros i j Hi.
  - cbn. rewrite H0 by auto. now rewrite Nat.eqb_sym.
  - cbn [matpow mmul a_at]. destruct (sq_pow N P k S) as [_ S2]. rewrite S2.
    rewrite (sumZ_ext N _ (fun q => ((if (t k i =? q)%nat then 1 else 0) * a_at P q j)%Z)).
    + rewrite sumZ_delta by auto. rewrite H, HS. reflexivity.
    + intros q Hq. rewrite IH by auto. now rewrite Nat.eqb_sym. Qed.
Lemma xpow_at l m k i j : 0 < l -> 0 < m -> i < l * m -> a_at (matpow (x_matrix l m) k) i j = if j =? tx l m k i then 1%Z else 0%Z.
Proof. intros Hl Hm Hi. apply (pow_at _ (l*m)); auto using sq_x, x_at, tx_0, tx_S, tx_lt. Qed.
Lemma ypow_at l m k i j : 0 < l -> 0 < m -> i < l * m -> a_at (matpow (y_matrix l m) k) i j = if j =? ty l m k i then 1%Z else 0%Z.
Proof. intros Hl Hm Hi. apply (pow_at _ (l*m)); auto using sq_y, y_at, ty_0, ty_S, ty_lt. Qed.

(** parity of the number of terms that translate i to j *)
Definition par (bs : list bool) : bool := fold_left xorb bs false.
Definition cyc_par (l m : nat) (ts : list nat * list nat) (i j : nat) : bool :=
  par (map (fun k => j =? tx l m k i) (fst ts) ++ map (fun k => j =? ty l m k i) (snd ts)).

Lemma fold_at P (t : nat -> nat) a ts i j : (forall k, a_at (matpow P k) i j = if j =? t k then 1%Z else 0%Z) ->
  Z.odd (a_at (fold_left (fun a power => addA a (matpow P power)) ts a) i j) = fold_left xorb (map (fun k => j =? t k) ts) (Z.odd (a_at a i j)).
Proof. intros H. revert a; induction ts as [|k ts IH]; intros a; [reflexivity|]. cbn [fold_left map]. rewrite IH. f_equal.
  cbn [addA a_at]. rewrite Z.odd_add, H. destruct (j =? t k); reflexivity. Qed.
Lemma cyc_at l m ts i j : 0 < l -> 0 < m -> i < l * m -> Z.odd (a_at (cyclic_matrix_sum (fst ts) (snd ts) l m) i j) = cyc_par l m ts i j.
Proof. intros Hl Hm Hi. unfold cyclic_matrix_sum, cyc_par, par. rewrite fold_left_app.
  rewrite (fold_at _ (fun k => ty l m k i)) by (intros; now apply ypow_at). f_equal.
  rewrite (fold_at _ (fun k => tx l m k i)) by (intros; now apply xpow_at). reflexivity. Qed.

(** the two check matrices explicitly *)
Definition bb_hx (l m : nat) (a b : list nat * list nat) : nd := mkNd (2 * (l * m))
  (map (fun i => map (cyc_par l m a i) (seq 0 (l*m)) ++ map (cyc_par l m b i) (seq 0 (l*m))) (seq 0 (l*m))).
Definition bb_hz (l m : nat) (a b : list nat * list nat) : nd := mkNd (2 * (l * m))
  (map (fun i => map (fun j => cyc_par l m b j i) (seq 0 (l*m)) ++ map (fun j => cyc_par l m a j i) (seq 0 (l*m))) (seq 0 (l*m))).

Lemma seq_shift_map {A} (f : nat -> A) s n : map f (seq s n) = map (fun j => f (s + j)) (seq 0 n).
Proof. revert s f; induction n; intros s f; [reflexivity|]. rewrite !seq_S, !map_app, IHn. reflexivity. Qed.
Lemma hcat_row (f : nat -> nat -> Z) A B i : a_cols A + a_cols B = a_cols A + a_cols B ->
  map (fun j => Z.odd (a_at (hcat A B) i j)) (seq 0 (a_cols A + a_cols B)) =
  map (fun j => Z.odd (a_at A i j)) (seq 0 (a_cols A)) ++ map (fun j => Z.odd (a_at B i j)) (seq 0 (a_cols B)).
Proof. intros _. rewrite seq_app, map_app. cbn [hcat a_at]. f_equal.
  - apply map_ext_in. intros j Hj. apply in_seq in Hj. destruct (Nat.ltb_spec j (a_cols A)); auto; lia.
  - rewrite seq_shift_map. apply map_ext_in. intros j Hj. apply in_seq in Hj. destruct (Nat.ltb_spec (0 + a_cols A + j) (a_cols A)); [lia|]. do 2 f_equal. lia. Qed.

Lemma check_matrix_form m l a b : 0 < l -> 0 < m -> exists hx hz, cyclic_code_check_matrix m l a b = Ret (hx, hz) /\
  to_nd hx = bb_hx l m a b /\ to_nd hz = bb_hz l m a b /\
  orthogonal (nd_rows (to_nd hx)) (nd_rows (to_nd hz)).
Proof. intros Hl Hm. unfold cyclic_code_check_matrix.
  set (A := cyclic_matrix_sum (fst a) (snd a) l m). set (B := cyclic_matrix_sum (fst b) (snd b) l m).
  destruct (sq_cyc (fst a) (snd a) l m) as [A1 A2]. destruct (sq_cyc (fst b) (snd b) l m) as [B1 B2]. fold A in A1, A2. fold B in B1, B2.
  rewrite !hstackA_ok by (cbn; congruence). cbn [pbind]. do 2 eexists. split; [reflexivity|].
  assert (EA : forall i j, i < l*m -> Z.odd (a_at A i j) = cyc_par l m a i j) by (intros; now apply cyc_at).
  assert (EB : forall i j, i < l*m -> Z.odd (a_at B i j) = cyc_par l m b i j) by (intros; now apply cyc_at).
  split; [|split].
  - unfold to_nd, bb_hx. cbn [hcat mod2A a_cols a_rows]. f_equal; [lia|]. rewrite A1. apply map_ext_in. intros i Hi. apply in_seq in Hi.
    pose proof (hcat_row (fun _ _ => 0%Z) (mod2A A) (mod2A B) i eq_refl) as HR. cbn [mod2A a_cols a_at hcat] in *. rewrite HR, A2, B2.
    f_equal; apply map_ext; intros j; rewrite odd_mod2; [apply EA | apply EB]; lia.
  - unfold to_nd, bb_hz. cbn [hcat mod2A trA a_cols a_rows]. f_equal; [lia|]. rewrite B2. apply map_ext_in. intros i Hi. apply in_seq in Hi.
    pose proof (hcat_row (fun _ _ => 0%Z) (trA (mod2A B)) (trA (mod2A A)) i eq_refl) as HR. cbn [mod2A trA a_cols a_rows a_at hcat] in *. rewrite HR, A1, B1.
    f_equal; apply map_ext_in; intros j Hj; apply in_seq in Hj; rewrite odd_mod2; [apply EB | apply EA]; lia.
  - apply (bb_orth (l*m)); [split; auto.. | apply cyc_comm]. Qed.

Definition bb_k (l m : nat) a b : nat := let n := 2 * (l * m) in n - rk n (nd_rows (bb_hx l m a b)) - rk n (nd_rows (bb_hz l m a b)).
