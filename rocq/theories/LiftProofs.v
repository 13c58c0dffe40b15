(** * LiftProofs: lifted protographs: rows of the two checks meet an even number of times *)
From Verif Require Export LiftModel ArrProofs.
From Verif Require Import BbProofs.
Local Open Scope nat_scope.

(** in how many ways a monomial of x from s and one of y from s' lead to the same place *)
Definition pairs (L : nat) (x y : ring) (s s' : nat) : Z :=
  Z.of_nat (length (filter (fun p => ((Z.of_nat s + fst p) mod Z.of_nat L =? (Z.of_nat s' + snd p) mod Z.of_nat L)%Z) (list_prod x y))).
Lemma monomials_nil L s t : monomials L [] s t = 0%Z. Proof. reflexivity. Qed.
Lemma monomials_cons L k x s t : monomials L (k :: x) s t = ((if ((Z.of_nat s + k) mod Z.of_nat L =? Z.of_nat t)%Z then 1 else 0) + monomials L x s t)%Z.
Proof. unfold monomials. cbn [filter]. destruct (_ =? _)%Z; cbn [length]; lia. Qed.
Lemma sum_one L k (f : nat -> Z) : 0 < L -> sumZ L (fun t => (if (k mod Z.of_nat L =? Z.of_nat t)%Z then 1 else 0) * f t)%Z = f (Z.to_nat (k mod Z.of_nat L)).
Proof. intros P. pose proof (Z.mod_pos_bound k (Z.of_nat L) ltac:(lia)) as B. rewrite <- (sumZ_delta L (Z.to_nat (k mod Z.of_nat L)) f) by lia. apply sumZ_ext. intros t Ht.
  destruct (Z.eqb_spec (k mod Z.of_nat L) (Z.of_nat t)), (Nat.eqb_spec (Z.to_nat (k mod Z.of_nat L)) t); lia. Qed.
Lemma sum_monomials L x : 0 < L -> forall s, sumZ L (fun t => monomials L x s t) = Z.of_nat (length x).
Proof. intros P s. induction x as [|k x IH]; [apply sumZ_zero|]. rewrite (sumZ_ext L (fun t => monomials L (k :: x) s t) (fun t => (if ((Z.of_nat s + k) mod Z.of_nat L =? Z.of_nat t)%Z then 1 else 0) * 1 + monomials L x s t)%Z) by (intros t _; rewrite monomials_cons; lia).
  rewrite sumZ_add, (sum_one L _ (fun _ => 1%Z)) by auto. etransitivity; [apply (f_equal (Z.add 1) IH)|]. cbn [length]. lia. Qed.
Lemma pairs_cons L k x y s s' : pairs L (k :: x) y s s' = (Z.of_nat (length (filter (fun l => ((Z.of_nat s + k) mod Z.of_nat L =? (Z.of_nat s' + l) mod Z.of_nat L)%Z) y)) + pairs L x y s s')%Z.
Proof. unfold pairs. cbn [list_prod]. rewrite filter_app, app_length. f_equal. rewrite Nat2Z.inj_add. f_equal. f_equal. induction y as [|l y IH]; cbn [map filter fst snd]; auto. destruct (_ =? _)%Z; cbn [length]; auto. Qed.
Lemma sum_pairs L x y s s' : 0 < L -> sumZ L (fun t => monomials L x s t * monomials L y s' t)%Z = pairs L x y s s'.
Proof. intros P. induction x as [|k x IH].
  - rewrite sumZ_0; auto.
  - rewrite (sumZ_ext L _ (fun t => (if ((Z.of_nat s + k) mod Z.of_nat L =? Z.of_nat t)%Z then 1 else 0) * monomials L y s' t + monomials L x s t * monomials L y s' t)%Z) by (intros t _; rewrite monomials_cons; lia).
    rewrite sumZ_add, pairs_cons, <- IH, (sum_one L _ (fun t => monomials L y s' t)) by auto. f_equal. unfold monomials. f_equal. f_equal. apply filter_ext. intros l.
    pose proof (Z.mod_pos_bound (Z.of_nat s + k) (Z.of_nat L) ltac:(lia)). rewrite Z2Nat.id by lia. apply Z.eqb_sym. Qed.
Lemma pairs_sym L x y s s' : pairs L x y s s' = pairs L y x s' s.
Proof. unfold pairs. f_equal. induction x as [|k x IH]; cbn [list_prod]; [induction y; auto|].
  rewrite filter_app, app_length, IH. clear IH. assert (E : forall z, length (filter (fun p => ((Z.of_nat s' + fst p) mod Z.of_nat L =? (Z.of_nat s + snd p) mod Z.of_nat L)%Z) (list_prod z (k :: x))) =
    length (filter (fun l => ((Z.of_nat s' + l) mod Z.of_nat L =? (Z.of_nat s + k) mod Z.of_nat L)%Z) z) + length (filter (fun p => ((Z.of_nat s' + fst p) mod Z.of_nat L =? (Z.of_nat s + snd p) mod Z.of_nat L)%Z) (list_prod z x))).
  { induction z as [|l z IHz]; auto. cbn [list_prod map filter fst snd app]. rewrite !filter_app. destruct (_ =? _)%Z; cbn [length]; rewrite !app_length; cbn [list_prod] in IHz; lia. }
  rewrite E. f_equal. clear E. induction y as [|l y IH]; cbn [map filter fst snd]; auto. rewrite (Z.eqb_sym ((Z.of_nat s + k) mod _)). destruct (_ =? _)%Z; cbn [length]; auto. Qed.
Lemma filter_map_len {A B} (f : A -> B) p l : length (filter p (map f l)) = length (filter (fun x => p (f x)) l).
Proof. induction l as [|x l IH]; cbn; auto. destruct (p (f x)); cbn; auto. Qed.
Lemma list_prod_map {A B C D} (f : A -> C) (g : B -> D) x y : list_prod (map f x) (map g y) = map (fun p => (f (fst p), g (snd p))) (list_prod x y).
Proof. induction x as [|a x IH]; cbn [map list_prod]; auto. rewrite IH, map_app, !map_map. f_equal. Qed.
(** going along x from s and along y from s' to one place, or backwards along y from s and along x from s' *)
Lemma pairs_T L x y s s' : 0 < L -> pairs L (r_T y) (r_T x) s s' = pairs L x y s s'.
Proof. intros P. rewrite (pairs_sym L (r_T y)). unfold pairs, r_T. rewrite list_prod_map, filter_map_len. f_equal. f_equal. apply filter_ext. intros [k l]. cbn [fst snd].
  set (N := Z.of_nat L) in *. assert (N0 : N <> 0%Z) by lia.
  assert (X : forall a b, ((a mod N =? b mod N) = ((a - b) mod N =? 0))%Z).
  { intros a b. rewrite Zminus_mod. pose proof (Z.mod_pos_bound a N ltac:(lia)). pose proof (Z.mod_pos_bound b N ltac:(lia)). destruct (Z.eqb_spec (a mod N) (b mod N)) as [E|E].
    - rewrite E, Z.sub_diag, Z.mod_0_l by auto. reflexivity.
    - symmetry. apply Z.eqb_neq. intros E'. apply Z.mod_divide in E' as [q E']; auto. assert (q = 0)%Z by nia. lia. }
  rewrite X, (X (Z.of_nat s + k)%Z). replace (Z.of_nat s' + - k - (Z.of_nat s + - l))%Z with (- (Z.of_nat s + k - (Z.of_nat s' + l)))%Z by lia.
  set (d := (Z.of_nat s + k - (Z.of_nat s' + l))%Z). destruct (Z.eqb_spec (d mod N) 0) as [E|E].
  - apply Z.eqb_eq. now apply Z.mod_opp_l_z.
  - apply Z.eqb_neq. rewrite Z.mod_opp_l_nz by auto. pose proof (Z.mod_pos_bound d N ltac:(lia)). lia. Qed.

(** parity of the product of two rows of lifted protographs *)
Definition rowp (L : nat) (A B : proto) (i j : nat) : Z := sumZ (p_cols A) (fun al => pairs L (p_at A (i / L) al) (p_at B (j / L) al) (i mod L) (j mod L)).
Lemma lifted_row L A B i j : 0 < L -> Z.odd (sumZ (p_cols A * L) (fun c => a_at (to_binary L A) i c * a_at (to_binary L B) j c)%Z) = Z.odd (rowp L A B i j).
Proof. intros P. rewrite sumZ_prod. unfold rowp. apply odd_sum_ext. intros al Hal. rewrite <- sum_pairs by auto. apply odd_sum_ext. intros t Ht. cbn [to_binary a_at]. rewrite div_add, mod_add by auto.
  now rewrite !Z.odd_mul, !odd_mod2. Qed.
Lemma rowp_hcat L A1 A2 B1 B2 i j : p_cols A1 = p_cols B1 -> rowp L (p_hcat A1 A2) (p_hcat B1 B2) i j = (rowp L A1 B1 i j + rowp L A2 B2 i j)%Z.
Proof. intros E. unfold rowp. cbn [p_hcat p_cols p_at]. rewrite sumZ_app. rewrite <- E. f_equal; apply sumZ_ext; intros c Hc.
  - destruct (Nat.ltb_spec c (p_cols A1)); [auto|lia].
  - destruct (Nat.ltb_spec (p_cols A1 + c) (p_cols A1)); [lia|]. now replace (p_cols A1 + c - p_cols A1) with c by lia. Qed.
Lemma r_mul_one x : r_mul x r_one = x.
Proof. unfold r_mul, r_one. induction x as [|k x IH]; auto. cbn [flat_map map app] in *. f_equal; [lia|exact IH]. Qed.
Lemma r_mul_one_l x : r_mul r_one x = x.
Proof. unfold r_mul, r_one. cbn [flat_map]. rewrite app_nil_r. induction x as [|k x IH]; auto. cbn [map]. f_equal; auto. Qed.
Lemma r_mul_nil x : r_mul x [] = []. Proof. unfold r_mul. induction x; auto. Qed.
Lemma r_mul_eye x (b : bool) : r_mul x (if b then r_one else []) = if b then x else [].
Proof. destruct b; [apply r_mul_one|apply r_mul_nil]. Qed.
Lemma r_mul_eye_l x (b : bool) : r_mul (if b then r_one else []) x = if b then x else [].
Proof. destruct b; [apply r_mul_one_l|reflexivity]. Qed.
Lemma pairs_nil_l L y s s' : pairs L [] y s s' = 0%Z. Proof. reflexivity. Qed.
Lemma pairs_nil_r L x s s' : pairs L x [] s s' = 0%Z. Proof. now rewrite pairs_sym. Qed.
Lemma pairs_if L (b b' : bool) x y s s' : pairs L (if b then x else []) (if b' then y else []) s s' = ((if b then 1 else 0) * ((if b' then 1 else 0) * pairs L x y s s'))%Z.
Proof. destruct b, b'; rewrite ?pairs_nil_l, ?pairs_nil_r; lia. Qed.
(** (A x I)(I x B)^* and (I x B)(A x I)^*, entry by entry *)
Lemma rowp_ab L A B i j : i / L < p_rows A * p_cols B -> j / L < p_cols A * p_rows B ->
  rowp L (p_kron A (p_eye (p_cols B))) (p_kron (p_eye (p_cols A)) B) i j =
  pairs L (p_at A (i / L / p_cols B) (j / L / p_rows B)) (p_at B (j / L mod p_rows B) (i / L mod p_cols B)) (i mod L) (j mod L).
Proof. intros Hi Hj. unfold rowp. cbn [p_kron p_cols p_at p_eye p_rows]. rewrite sumZ_prod.
  destruct (divmod_lt _ _ _ _ Hi eq_refl) as [I0 I1]. destruct (divmod_lt _ _ _ _ Hj eq_refl) as [J0 J1].
  rewrite <- (sumZ_delta (p_cols A) (j / L / p_rows B) (fun al => pairs L (p_at A (i / L / p_cols B) al) (p_at B (j / L mod p_rows B) (i / L mod p_cols B)) (i mod L) (j mod L))) by auto. apply sumZ_ext. intros al Hal.
  rewrite <- (sumZ_delta (p_cols B) (i / L mod p_cols B) (fun be => pairs L (p_at A (i / L / p_cols B) al) (p_at B (j / L mod p_rows B) be) (i mod L) (j mod L))) by auto. rewrite <- sumZ_scal. apply sumZ_ext. intros be Hbe.
  rewrite div_add, mod_add by auto. rewrite r_mul_eye, r_mul_eye_l, pairs_if. lia. Qed.
Lemma rowp_sym L A B i j : p_cols A = p_cols B -> rowp L A B i j = rowp L B A j i.
Proof. intros E. unfold rowp. rewrite <- E. apply sumZ_ext. intros al _. apply pairs_sym. Qed.
Lemma rowp_zeros_l L r c B i j : rowp L (p_zeros r c) B i j = 0%Z.
Proof. unfold rowp. apply sumZ_0. intros k _. apply pairs_nil_l. Qed.
Lemma rowp_zeros_r L r c A i j : rowp L A (p_zeros r c) i j = 0%Z.
Proof. unfold rowp. apply sumZ_0. intros k _. apply pairs_nil_r. Qed.
Lemma lifted_orth L a b c i j : 0 < L -> LiftedHgp L a (Some b) = Ret c -> i < a_rows (l_hx c) -> j < a_rows (l_hz c) ->
  rowp L (l_hx1 c) (l_hz1 c) i j = rowp L (l_hx2 c) (l_hz2 c) i j /\ rowp L (l_hxp c) (l_hzp c) i j = (rowp L (l_hx1 c) (l_hz1 c) i j + rowp L (l_hx2 c) (l_hz2 c) i j)%Z.
Proof. intros P E Hi Hj. unfold LiftedHgp, p_hstack in E. cbn [p_kron p_eye p_T p_rows p_cols] in E. rewrite !Nat.eqb_refl in E. cbn [pbind] in E. injection E as <-. cbn [l_hx l_hz l_hxp l_hzp l_L to_binary a_rows l_hx1 l_hx2 l_hz1 l_hz2] in *. unfold l_hx, l_hz in *. cbn [l_hxp l_hzp l_L to_binary a_rows p_hcat p_kron p_rows p_eye p_T p_cols] in Hi, Hj.
  assert (Hi' : i / L < p_rows a * p_cols b) by (apply Nat.div_lt_upper_bound; lia). assert (Hj' : j / L < p_cols a * p_rows b) by (apply Nat.div_lt_upper_bound; lia).
  split; [|apply rowp_hcat; reflexivity].
  rewrite (rowp_ab L a b i j Hi' Hj').
  rewrite (rowp_sym L (p_kron (p_eye (p_rows a)) (p_T b))) by reflexivity.
  change (p_kron (p_T a) (p_eye (p_rows b))) with (p_kron (p_T a) (p_eye (p_cols (p_T b)))). change (p_kron (p_eye (p_rows a)) (p_T b)) with (p_kron (p_eye (p_cols (p_T a))) (p_T b)).
  rewrite rowp_ab by (cbn [p_T p_rows p_cols]; auto). cbn [p_T p_rows p_cols p_at].
  rewrite (pairs_sym L (r_T _) (r_T _)), pairs_T by auto. reflexivity. Qed.
