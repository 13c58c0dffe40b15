(** * PropLift: property C76 - lifted product codes (scripts/numerics/code_construct/lifted_hgp.py) *)
From Verif Require Import LiftProofs BbProofs CreateModel.
Local Open Scope nat_scope.

(** ** specification *)
(** the product of row i of A and row j of B; the number of ones in row i of a 0/1 array *)
Definition meet (A B : arr) (i j : nat) : Z := sumZ (a_cols A) (fun c => a_at A i c * a_at B j c)%Z.
Definition ones (A : arr) (i : nat) : Z := sumZ (a_cols A) (fun c => a_at A i c).
Definition binary (A : arr) : Prop := forall i j, a_at A i j = 0%Z \/ a_at A i j = 1%Z.
(** how many monomials row i of a, column l of b have *)
Definition row_terms (a : proto) (i : nat) : Z := sumZ (p_cols a) (fun j => Z.of_nat (length (p_at a i j))).
Definition col_terms (b : proto) (l : nat) : Z := sumZ (p_rows b) (fun j => Z.of_nat (length (p_at b j l))).
(** ** proofs *)
Definition lifted_of (L : nat) (a b : proto) : lifted :=
  let hx1 := p_kron a (p_eye (p_cols b)) in let hx2 := p_kron (p_eye (p_rows a)) (p_T b) in let hz1 := p_kron (p_eye (p_cols a)) b in let hz2 := p_kron (p_T a) (p_eye (p_rows b)) in
  mkLifted L hx1 hx2 hz1 hz2 (p_hcat hx1 hx2) (p_hcat hz1 hz2).
Lemma LiftedHgp_eq L a ob : LiftedHgp L a ob = Ret (lifted_of L a (match ob with Some b => b | None => a end)).
Proof. unfold LiftedHgp, p_hstack. cbn [p_kron p_eye p_T p_rows p_cols]. rewrite !Nat.eqb_refl. reflexivity. Qed.
Lemma binary_lift L A : binary (to_binary L A).
Proof. intros i j. cbn [to_binary a_at]. pose proof (Z.mod_pos_bound (monomials L (p_at A (i / L) (j / L)) (i mod L) (j mod L)) 2 ltac:(lia)). lia. Qed.
Lemma even_odd x y : Z.odd x = Z.odd y -> Z.even y = true -> Z.even x = true.
Proof. rewrite <- !Z.negb_odd. now intros ->. Qed.
Lemma hcat_col L A B i j : 0 < L -> a_at (to_binary L (p_hcat A B)) i j = if j <? p_cols A * L then a_at (to_binary L A) i j else a_at (to_binary L B) i (j - p_cols A * L).
Proof. intros P. cbn [to_binary p_hcat a_at p_at]. pose proof (Nat.div_mod j L ltac:(lia)) as D. pose proof (Nat.mod_upper_bound j L ltac:(lia)) as M.
  destruct (Nat.ltb_spec j (p_cols A * L)) as [H|H], (Nat.ltb_spec (j / L) (p_cols A)) as [H'|H']; try nia; auto.
  assert (E : j = p_cols A * L + (j - p_cols A * L)) by lia. remember (j - p_cols A * L) as r eqn:Er. clear Er D M. subst j. rewrite Nat.div_add_l by lia. rewrite (Nat.add_comm (p_cols A * L) r), Nat.mod_add by lia. now replace (p_cols A + r / L - p_cols A) with (r / L) by lia. Qed.
(** ** C76 *)
(** The construction always succeeds; the two matrices are binary, of the documented shape, and every X check meets every Z check an even number of times - for every pair of protographs and every lift. *)
Theorem C76_css : forall L a ob, 0 < L -> let b := match ob with Some b => b | None => a end in exists c, LiftedHgp L a ob = Ret c /\
  a_rows (l_hx c) = p_rows a * p_cols b * L /\ a_rows (l_hz c) = p_cols a * p_rows b * L /\
  a_cols (l_hx c) = (p_cols a * p_cols b + p_rows a * p_rows b) * L /\ a_cols (l_hz c) = a_cols (l_hx c) /\ binary (l_hx c) /\ binary (l_hz c) /\
  forall i j, i < a_rows (l_hx c) -> j < a_rows (l_hz c) -> Z.even (meet (l_hx c) (l_hz c) i j) = true.
Proof. intros L a ob P b. rewrite LiftedHgp_eq. fold b. exists (lifted_of L a b). split; [reflexivity|]. split; [reflexivity|]. split; [reflexivity|]. split; [reflexivity|]. split; [reflexivity|]. split; [apply binary_lift|]. split; [apply binary_lift|].
  intros i j Hi Hj. pose proof (LiftedHgp_eq L a (Some b)) as E. cbv beta iota in E. destruct (lifted_orth L a b (lifted_of L a b) i j P E Hi Hj) as [E1 E2].
  apply (even_odd _ (rowp L (l_hxp (lifted_of L a b)) (l_hzp (lifted_of L a b)) i j)).
  - unfold meet, l_hx, l_hz. cbn [to_binary a_cols]. change (l_L (lifted_of L a b)) with L. now apply lifted_row.
  - rewrite E2, E1. rewrite Z.even_add. destruct (Z.even _); reflexivity. Qed.
Print Assumptions C76_css.
(** The X matrix is the lift of [a x I | I x b^T], the Z matrix that of [I x b | a^T x I]; the properties hx1, hx2, hz1, hz2 are these blocks. *)
Theorem C76_blocks : forall L a ob c i j, 0 < L -> LiftedHgp L a ob = Ret c -> let b := match ob with Some b => b | None => a end in
  (a_at (l_hx c) i j = if j <? p_cols a * p_cols b * L then a_at (to_binary L (l_hx1 c)) i j else a_at (to_binary L (l_hx2 c)) i (j - p_cols a * p_cols b * L)) /\
  (a_at (l_hz c) i j = if j <? p_cols a * p_cols b * L then a_at (to_binary L (l_hz1 c)) i j else a_at (to_binary L (l_hz2 c)) i (j - p_cols a * p_cols b * L)) /\
  l_hx1 c = p_kron a (p_eye (p_cols b)) /\ l_hx2 c = p_kron (p_eye (p_rows a)) (p_T b) /\ l_hz1 c = p_kron (p_eye (p_cols a)) b /\ l_hz2 c = p_kron (p_T a) (p_eye (p_rows b)).
Proof. intros L a ob c i j P E b. rewrite LiftedHgp_eq in E. fold b in E. injection E as <-. unfold l_hx, l_hz. split; [exact (hcat_col L _ _ i j P)|]. split; [exact (hcat_col L _ _ i j P)|]. repeat split. Qed.
Print Assumptions C76_blocks.
(** The weight of a check does not grow with the lift: at most the number of monomials in a row of a and a column of b - and exactly that if the exponents of each entry are different modulo L. *)
Lemma monomials_pos L x s t : (0 <= monomials L x s t)%Z. Proof. unfold monomials. lia. Qed.
Definition distinct (L : nat) (A : proto) : Prop := forall i j, NoDup (map (fun k => (k mod Z.of_nat L)%Z) (p_at A i j)).
Lemma monomials_one L x s t : 0 < L -> NoDup (map (fun k => (k mod Z.of_nat L)%Z) x) -> (monomials L x s t <= 1)%Z.
Proof. intros P. unfold monomials. induction x as [|k x IH]; intros ND; [cbn; lia|]. cbn [map] in ND. apply NoDup_cons_iff in ND as [NI ND]. specialize (IH ND). cbn [filter]. destruct (Z.eqb_spec ((Z.of_nat s + k) mod Z.of_nat L) (Z.of_nat t)) as [E|E]; [|exact IH].
  replace (filter _ x) with (@nil Z); [cbn; lia|]. symmetry. apply filter_none || (destruct (filter _ x) as [|k' l] eqn:F; auto; exfalso).
  assert (Hk : In k' (filter (fun k => ((Z.of_nat s + k) mod Z.of_nat L =? Z.of_nat t)%Z) x)) by (rewrite F; left; auto). apply filter_In in Hk as [Hin Hk]. apply Z.eqb_eq in Hk. apply NI. apply in_map_iff. exists k'. split; auto.
  assert (X : ((Z.of_nat s + k - Z.of_nat s) mod Z.of_nat L = (Z.of_nat s + k' - Z.of_nat s) mod Z.of_nat L)%Z) by (rewrite (Zminus_mod _ (Z.of_nat s)), E, <- Hk, <- Zminus_mod; reflexivity).
  replace (Z.of_nat s + k - Z.of_nat s)%Z with k in X by lia. replace (Z.of_nat s + k' - Z.of_nat s)%Z with k' in X by lia. auto. Qed.
Definition wt (L : nat) (x : ring) (s : nat) : Z := sumZ L (fun t => (monomials L x s t mod 2)%Z).
Lemma sumZ_le n f g : (forall k, k < n -> (f k <= g k)%Z) -> (sumZ n f <= sumZ n g)%Z.
Proof. induction n; cbn [sumZ]; intros H; [lia|]. pose proof (H n ltac:(lia)). assert (sumZ n f <= sumZ n g)%Z by (apply IHn; intros; apply H; lia). lia. Qed.
Lemma wt_le L x s : 0 < L -> (wt L x s <= Z.of_nat (length x))%Z.
Proof. intros P. rewrite <- (sum_monomials L x P s). apply sumZ_le. intros t _. apply Z.mod_le; [apply monomials_pos|lia]. Qed.
Lemma wt_eq L x s : 0 < L -> NoDup (map (fun k => (k mod Z.of_nat L)%Z) x) -> wt L x s = Z.of_nat (length x).
Proof. intros P ND. rewrite <- (sum_monomials L x P s). apply sumZ_ext. intros t _. apply Z.mod_small. pose proof (monomials_pos L x s t). pose proof (monomials_one L x s t P ND). lia. Qed.
Lemma ones_lift L A i : 0 < L -> ones (to_binary L A) i = sumZ (p_cols A) (fun al => wt L (p_at A (i / L) al) (i mod L)).
Proof. intros P. unfold ones. cbn [to_binary a_cols a_at]. rewrite sumZ_prod. apply sumZ_ext. intros al _. apply sumZ_ext. intros t Ht. now rewrite div_add, mod_add by auto. Qed.
Lemma wt_nil L s : wt L [] s = 0%Z. Proof. unfold wt. apply sumZ_0. reflexivity. Qed.
Lemma wt_if L (b : bool) x s : wt L (if b then x else []) s = ((if b then 1 else 0) * wt L x s)%Z.
Proof. destruct b; [lia|rewrite wt_nil; lia]. Qed.
Lemma row_ab L a (n : nat) i : i / L < p_rows a * n -> sumZ (p_cols a * n) (fun al => wt L (p_at (p_kron a (p_eye n)) (i / L) al) (i mod L)) = sumZ (p_cols a) (fun j => wt L (p_at a (i / L / n) j) (i mod L)).
Proof. intros Hi. rewrite sumZ_prod. destruct (divmod_lt _ _ _ _ Hi eq_refl) as [I0 I1]. apply sumZ_ext. intros al _. cbn [p_kron p_at p_eye p_rows p_cols].
  rewrite <- (sumZ_delta n (i / L mod n) (fun _ => wt L (p_at a (i / L / n) al) (i mod L))) by auto. apply sumZ_ext. intros be Hbe. rewrite div_add, mod_add by auto. now rewrite r_mul_eye, wt_if. Qed.
Lemma row_ba L b (n : nat) i : i / L < n * p_rows b -> sumZ (n * p_cols b) (fun al => wt L (p_at (p_kron (p_eye n) b) (i / L) al) (i mod L)) = sumZ (p_cols b) (fun j => wt L (p_at b (i / L mod p_rows b) j) (i mod L)).
Proof. intros Hi. rewrite sumZ_prod. destruct (divmod_lt _ _ _ _ Hi eq_refl) as [I0 I1]. rewrite <- (sumZ_delta n (i / L / p_rows b) (fun _ => sumZ (p_cols b) (fun j => wt L (p_at b (i / L mod p_rows b) j) (i mod L)))) by auto.
  apply sumZ_ext. intros al _. rewrite <- sumZ_scal. apply sumZ_ext. intros be Hbe. cbn [p_kron p_at p_eye p_rows p_cols]. rewrite div_add, mod_add by auto. now rewrite r_mul_eye_l, wt_if. Qed.
Lemma ones_hx L a b i : 0 < L -> i < p_rows a * p_cols b * L -> ones (l_hx (lifted_of L a b)) i =
  (sumZ (p_cols a) (fun j => wt L (p_at a (i / L / p_cols b) j) (i mod L)) + sumZ (p_rows b) (fun j => wt L (r_T (p_at b j (i / L mod p_cols b))) (i mod L)))%Z.
Proof. intros P Hi. assert (Hi' : i / L < p_rows a * p_cols b) by (apply Nat.div_lt_upper_bound; lia). unfold l_hx. change (l_L (lifted_of L a b)) with L. rewrite ones_lift by auto. cbn [lifted_of l_hxp p_hcat p_cols p_at p_kron p_eye p_T p_rows].
  rewrite sumZ_app. f_equal.
  - rewrite <- row_ab by auto. apply sumZ_ext. intros c Hc. destruct (Nat.ltb_spec c (p_cols a * p_cols b)); [reflexivity|lia].
  - etransitivity; [|exact (row_ba L (p_T b) (p_rows a) i Hi')]. apply sumZ_ext. intros c Hc. destruct (Nat.ltb_spec (p_cols a * p_cols b + c) (p_cols a * p_cols b)); [lia|]. replace (p_cols a * p_cols b + c - p_cols a * p_cols b) with c by lia. reflexivity. Qed.
Lemma distinct_T L x : 0 < L -> NoDup (map (fun k => (k mod Z.of_nat L)%Z) x) -> NoDup (map (fun k => (k mod Z.of_nat L)%Z) (r_T x)).
Proof. intros P. unfold r_T. rewrite map_map. induction x as [|k x IH]; cbn [map]; auto. intros ND. apply NoDup_cons_iff in ND as [NI ND]. constructor; auto. intros HI. apply in_map_iff in HI as (k' & E & Hk). apply NI. apply in_map_iff. exists k'. split; auto.
  rewrite <- (Z.opp_involutive k'), <- (Z.opp_involutive k), <- (Z.sub_0_l (- k')), <- (Z.sub_0_l (- k)), (Zminus_mod 0 (- k')), (Zminus_mod 0 (- k)), E. reflexivity. Qed.
Theorem C76_weight : forall L a ob c i, 0 < L -> LiftedHgp L a ob = Ret c -> let b := match ob with Some b => b | None => a end in i < a_rows (l_hx c) ->
  (ones (l_hx c) i <= row_terms a (i / L / p_cols b) + col_terms b (i / L mod p_cols b))%Z /\
  (distinct L a -> distinct L b -> ones (l_hx c) i = row_terms a (i / L / p_cols b) + col_terms b (i / L mod p_cols b))%Z.
Proof. intros L a ob c i P E b Hi. rewrite LiftedHgp_eq in E. fold b in E. injection E as <-. rewrite ones_hx by auto. split.
  - apply Z.add_le_mono; apply sumZ_le; intros j _; [now apply wt_le|]. rewrite <- (map_length Z.opp). now apply wt_le.
  - intros DA DB. f_equal; apply sumZ_ext; intros j _; [now apply wt_eq, DA|]. rewrite <- (map_length Z.opp). apply wt_eq; auto. now apply distinct_T, DB. Qed.
Print Assumptions C76_weight.
(** The bias-tailored code: its 2 * (number of X checks) rows [x_i | z_i] commute in pairs, provided the two kinds of checks are equally many; otherwise the constructor raises ValueError, because the blocks of zeros
    have the wrong shape. *)
Lemma meet_rowp L A B i j : 0 < L -> Z.odd (meet (to_binary L A) (to_binary L B) i j) = Z.odd (rowp L A B i j).
Proof. intros P. unfold meet. cbn [to_binary a_cols]. now apply lifted_row. Qed.
Lemma rowp_vcat_l L A1 A2 B i j : rowp L (p_vcat A1 A2) B i j = if i / L <? p_rows A1 then rowp L A1 B i j else sumZ (p_cols A1) (fun al => pairs L (p_at A2 (i / L - p_rows A1) al) (p_at B (j / L) al) (i mod L) (j mod L)).
Proof. unfold rowp. cbn [p_vcat p_cols p_at]. destruct (_ <? _); reflexivity. Qed.
(** the product of two rows of a protograph, by the numbers of the rows of blocks *)
Definition rowq (L : nat) (A B : proto) (r r' s s' : nat) : Z := sumZ (p_cols A) (fun al => pairs L (p_at A r al) (p_at B r' al) s s').
Lemma rowq_vcat_l L A1 A2 B r r' s s' : p_cols A1 = p_cols A2 -> rowq L (p_vcat A1 A2) B r r' s s' = if r <? p_rows A1 then rowq L A1 B r r' s s' else rowq L A2 B (r - p_rows A1) r' s s'.
Proof. intros E. unfold rowq. cbn [p_vcat p_cols p_at]. destruct (_ <? _); [reflexivity|]. now rewrite <- E. Qed.
Lemma rowq_vcat_r L A B1 B2 r r' s s' : rowq L A (p_vcat B1 B2) r r' s s' = if r' <? p_rows B1 then rowq L A B1 r r' s s' else rowq L A B2 r (r' - p_rows B1) s s'.
Proof. unfold rowq. cbn [p_vcat p_cols p_at]. destruct (_ <? _); reflexivity. Qed.
Lemma rowq_hcat L A1 A2 B1 B2 r r' s s' : p_cols A1 = p_cols B1 -> rowq L (p_hcat A1 A2) (p_hcat B1 B2) r r' s s' = (rowq L A1 B1 r r' s s' + rowq L A2 B2 r r' s s')%Z.
Proof. intros E. unfold rowq. cbn [p_hcat p_cols p_at]. rewrite sumZ_app. rewrite <- E. f_equal; apply sumZ_ext; intros c Hc.
  - destruct (Nat.ltb_spec c (p_cols A1)); [auto|lia].
  - destruct (Nat.ltb_spec (p_cols A1 + c) (p_cols A1)); [lia|]. now replace (p_cols A1 + c - p_cols A1) with c by lia. Qed.
Lemma rowq_zeros_l L n c B r r' s s' : rowq L (p_zeros n c) B r r' s s' = 0%Z.
Proof. unfold rowq. apply sumZ_0. intros k _. apply pairs_nil_l. Qed.
Lemma rowq_zeros_r L n c A r r' s s' : rowq L A (p_zeros n c) r r' s s' = 0%Z.
Proof. unfold rowq. apply sumZ_0. intros k _. apply pairs_nil_r. Qed.
Lemma rowq_sym L A B r r' s s' : p_cols A = p_cols B -> rowq L A B r r' s s' = rowq L B A r' r s' s.
Proof. intros E. unfold rowq. rewrite <- E. apply sumZ_ext. intros al _. apply pairs_sym. Qed.
Lemma rowq_orth L a b r r' s s' : 0 < L -> s < L -> s' < L -> r < p_rows a * p_cols b -> r' < p_cols a * p_rows b ->
  rowq L (p_kron a (p_eye (p_cols b))) (p_kron (p_eye (p_cols a)) b) r r' s s' = rowq L (p_kron (p_eye (p_rows a)) (p_T b)) (p_kron (p_T a) (p_eye (p_rows b))) r r' s s'.
Proof. intros P S S' R R'. pose proof (LiftedHgp_eq L a (Some b)) as E. cbv beta iota in E.
  destruct (lifted_orth L a b (lifted_of L a b) (r * L + s) (r' * L + s') P E) as [X _]; [unfold l_hx; cbn [lifted_of l_L l_hxp to_binary a_rows p_hcat p_kron p_rows p_eye]; nia|unfold l_hz; cbn [lifted_of l_L l_hzp to_binary a_rows p_hcat p_kron p_rows p_eye p_T p_cols]; nia|].
  unfold rowp in X. rewrite !div_add, !mod_add in X by auto. exact X. Qed.
Theorem C76_biased : forall L a ob, 0 < L -> let b := match ob with Some b => b | None => a end in
  (p_rows a * p_cols b <> p_cols a * p_rows b -> BiasTailored L a ob = Raise ValueError) /\
  (p_rows a * p_cols b = p_cols a * p_rows b -> exists hxp hzp, BiasTailored L a ob = Ret (hxp, hzp) /\ let X := to_binary L hxp in let Z' := to_binary L hzp in
    a_rows X = 2 * (p_rows a * p_cols b) * L /\ a_rows Z' = a_rows X /\ a_cols X = (p_cols a * p_cols b + p_rows a * p_rows b) * L /\ a_cols Z' = a_cols X /\ binary X /\ binary Z' /\
    forall i j, i < a_rows X -> j < a_rows X -> Z.even (meet X Z' i j + meet Z' X i j) = true).
Proof. intros L a ob P b. unfold BiasTailored. rewrite LiftedHgp_eq. fold b. cbn [pbind lifted_of l_hx1 l_hx2 l_hz1 l_hz2]. unfold p_hstack, p_vstack. cbn [p_zeros p_rows p_kron p_eye p_T p_cols]. split; intros H.
  - destruct (Nat.eqb_spec (p_rows a * p_cols b) (p_cols a * p_rows b)); [contradiction|reflexivity].
  - do 8 (rewrite ?H, ?Nat.eqb_refl; cbn [pbind p_rows p_kron p_eye p_T p_cols p_hcat p_zeros]). eexists. eexists. split; [reflexivity|]. cbv zeta. split; [cbn [to_binary a_rows p_vcat p_hcat p_kron p_rows p_eye p_cols p_T p_zeros]; rewrite <- ?H; ring|].
    split; [cbn [to_binary a_rows p_vcat p_hcat p_kron p_rows p_eye p_cols p_T p_zeros]; rewrite <- ?H; ring|].
    split; [cbn [to_binary a_cols p_vcat p_hcat p_kron p_rows p_eye p_cols p_T p_zeros]; rewrite <- ?H; ring|]. split; [cbn [to_binary a_cols p_vcat p_hcat p_kron p_rows p_eye p_cols p_T p_zeros]; rewrite <- ?H; ring|].
    split; [apply binary_lift|]. split; [apply binary_lift|]. intros i j Hi Hj. cbn [to_binary a_rows p_vcat p_hcat p_kron p_rows p_eye p_cols p_T p_zeros] in Hi, Hj.
    assert (Hi' : i / L < p_cols a * p_rows b + p_rows a * p_cols b) by (apply Nat.div_lt_upper_bound; lia). assert (Hj' : j / L < p_cols a * p_rows b + p_rows a * p_cols b) by (apply Nat.div_lt_upper_bound; lia).
    pose proof (Nat.mod_upper_bound i L ltac:(lia)) as Mi. pose proof (Nat.mod_upper_bound j L ltac:(lia)) as Mj.
    set (hx1 := p_kron a (p_eye (p_cols b))) in *. set (hx2 := p_kron (p_eye (p_rows a)) (p_T b)) in *. set (hz1 := p_kron (p_eye (p_cols a)) b) in *. set (hz2 := p_kron (p_T a) (p_eye (p_rows b))) in *.
    match goal with |- context [meet (to_binary L ?A) (to_binary L ?B) i j] => set (HX := A); set (HZ := B) end.
    assert (ORTH : forall r r' s s', s < L -> s' < L -> r < p_rows a * p_cols b -> r' < p_cols a * p_rows b -> rowq L hx1 hz1 r r' s s' = rowq L hx2 hz2 r r' s s') by (intros; now apply rowq_orth).
    apply (even_odd _ (rowq L HX HZ (i / L) (j / L) (i mod L) (j mod L) + rowq L HZ HX (i / L) (j / L) (i mod L) (j mod L))%Z).
    { rewrite !Z.odd_add, !meet_rowp by auto. reflexivity. }
    rewrite (rowq_sym L HZ HX) by reflexivity.
    assert (V : forall r r' s s', rowq L HX HZ r r' s s' = if r <? p_cols a * p_rows b then if r' <? p_cols a * p_rows b then 0%Z else rowq L hz2 hx2 r (r' - p_cols a * p_rows b) s s' else if r' <? p_cols a * p_rows b then rowq L hx1 hz1 (r - p_cols a * p_rows b) r' s s' else 0%Z).
    { intros r r' s s'. unfold HX, HZ. rewrite rowq_vcat_l by reflexivity. cbn [p_hcat p_rows p_zeros]. rewrite !rowq_vcat_r. cbn [p_hcat p_rows p_kron p_zeros]. change (p_rows hz1) with (p_cols a * p_rows b).
      rewrite ?(rowq_hcat L (p_zeros _ (p_cols hx1))), ?(rowq_hcat L hx1) by reflexivity. rewrite !rowq_zeros_l, !rowq_zeros_r, !Z.add_0_l, ?Z.add_0_r. reflexivity. }
    rewrite !V. destruct (Nat.ltb_spec (i / L) (p_cols a * p_rows b)) as [I|I], (Nat.ltb_spec (j / L) (p_cols a * p_rows b)) as [J|J]; auto.
    + rewrite (rowq_sym L hz2 hx2) by reflexivity. rewrite <- ORTH by (auto; lia). rewrite Z.even_add. destruct (Z.even _); reflexivity.
    + rewrite (rowq_sym L hz2 hx2) by reflexivity. rewrite <- ORTH by (auto; lia). rewrite Z.even_add. destruct (Z.even _); reflexivity. Qed.
Print Assumptions C76_biased.
(** Lift 1 is the hypergraph product of the matrices that count monomials modulo 2. *)
Definition counts (a : proto) : arr := mkArr (p_rows a) (p_cols a) (fun i j => Z.of_nat (length (p_at a i j))).
Lemma monomials_lift1 x : monomials 1 x 0 0 = Z.of_nat (length x).
Proof. unfold monomials. f_equal. induction x as [|k x IHx]; auto. cbn [filter length]. assert (E : ((Z.of_nat 0 + k) mod Z.of_nat 1 =? Z.of_nat 0)%Z = true) by (apply Z.eqb_eq; change (Z.of_nat 1) with 1%Z; apply Z.mod_1_r). rewrite E. cbn [length]. f_equal. exact IHx. Qed.
Lemma to_binary1 A i j : a_at (to_binary 1 A) i j = (Z.of_nat (length (p_at A i j)) mod 2)%Z.
Proof. cbn [to_binary a_at]. rewrite !Nat.div_1_r, !Nat.mod_1_r, monomials_lift1. reflexivity. Qed.
Theorem C76_lift_one : forall a ob c, LiftedHgp 1 a ob = Ret c -> let b := match ob with Some b => b | None => a end in
  aeq (l_hx c) (mod2A (fst (hypergraph_product (counts a) (counts b)))) /\ aeq (l_hz c) (mod2A (snd (hypergraph_product (counts a) (counts b)))).
Proof. intros a ob c E b. rewrite LiftedHgp_eq in E. fold b in E. injection E as <-. assert (LM : forall (x : ring) (t : bool), length (if t then x else []) = length x * if t then 1 else 0) by (intros x [|]; cbn; lia).
  assert (LF : forall x : ring, length (r_T x) = length x) by (intros x; apply map_length). unfold aeq, l_hx, l_hz. split; (split; [cbn; lia|split; [cbn; lia|]]); intros i j Hi Hj; change (l_L (lifted_of 1 a b)) with 1; rewrite to_binary1;
    cbn [mod2A a_at fst snd hypergraph_product lifted_of l_hxp l_hzp p_hcat p_at p_kron p_eye p_T p_rows p_cols hcat vcat trA kron eye counts a_rows a_cols]; f_equal.
  - destruct (_ <? _); rewrite ?r_mul_eye, ?r_mul_eye_l, LM, ?LF; destruct (_ =? _); lia.
  - destruct (_ <? _); rewrite ?r_mul_eye, ?r_mul_eye_l, LM, ?LF; [rewrite (Nat.eqb_sym (j / p_cols b))|rewrite (Nat.eqb_sym ((j - _) mod _))]; destruct (_ =? _); lia. Qed.
Print Assumptions C76_lift_one.
(** the protograph of scripts/numerics/code_construct/constructLPcodes.py, lift 32; another pair of protographs of which the bias-tailored product does not exist *)
Definition lp_row (i : nat) : list Z := nth i [[0; 11; 7; 12]; [1; 8; 1; 8]; [11; 0; 4; 8]; [6; 2; 4; 12]]%Z [].
Definition lp_a : proto := mkProto 4 4 (fun i j => [nth j (lp_row i) 0%Z]).
Example C76_nonvacuous : (exists c, LiftedHgp 32 lp_a None = Ret c /\ a_rows (l_hx c) = 512 /\ a_cols (l_hx c) = 1024 /\ ones (l_hx c) 37 = 8%Z /\ meet (l_hx c) (l_hz c) 0 170 = 2%Z) /\ distinct 32 lp_a /\
  BiasTailored 3 (mkProto 1 2 (fun _ j => [Z.of_nat j])) (Some (mkProto 1 1 (fun _ _ => [0; 2]%Z))) = Raise ValueError.
Proof. split; [|split; [intros i j; cbn; repeat constructor; intros []|reflexivity]]. eexists. split; [reflexivity|]. split; [reflexivity|]. split; [reflexivity|]. split; vm_compute; reflexivity. Qed.
