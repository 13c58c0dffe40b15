(* Property C60: initial values of the virtual nodes. *)
From Coq Require Import Reals List Lra.
From Verif Require Import VirtualModel.
Import ListNotations.
Local Open Scope R_scope.

(* For sigma > 0 each value is a probability v in (0, 1/2] whose log-likelihood ratio log((1-v)/v) is 2|y|/sigma^2: the
   reliability of the measured sign, independent of the sign itself. *)
Theorem C60_llr sigma ys i : 0 < sigma -> (i < length ys)%nat ->
  length (get_virtual_check_init_vals ys sigma) = length ys /\
  let v := nth i (get_virtual_check_init_vals ys sigma) 0 in
  let y := nth i ys 0 in
  0 < v <= / 2 /\ ln ((1 - v) / v) = 2 * Rabs y / (sigma * sigma).
Proof.
  intros S I. unfold get_virtual_check_init_vals, get_analog_llr. destruct (Rle_dec sigma 0) as [L|_]; [lra|].
  split; [rewrite !map_length; reflexivity|]. cbn zeta. rewrite map_map.
  rewrite (nth_indep _ 0 ((fun y => 1 / (exp (Rabs (2 * y / (sigma * sigma))) + 1)) 0)) by (rewrite map_length; exact I).
  rewrite (map_nth (fun y => 1 / (exp (Rabs (2 * y / (sigma * sigma))) + 1))). set (y := nth i ys 0).
  assert (SS : 0 < sigma * sigma) by (apply Rmult_lt_0_compat; exact S).
  set (l := Rabs (2 * y / (sigma * sigma))).
  assert (El : l = 2 * Rabs y / (sigma * sigma)).
  { unfold l, Rdiv. rewrite !Rabs_mult, (Rabs_pos_eq 2) by lra. rewrite (Rabs_pos_eq (/ (sigma * sigma))); [reflexivity|].
    left. apply Rinv_0_lt_compat. exact SS. }
  assert (Pl : 0 <= l) by apply Rabs_pos.
  assert (E1 : 1 <= exp l). { rewrite <- exp_0. destruct (Rle_lt_or_eq_dec _ _ Pl) as [Q|Q]; [left; apply exp_increasing; exact Q|rewrite <- Q; lra]. }
  split; [split|].
  - apply Rdiv_lt_0_compat; lra.
  - unfold Rdiv. rewrite Rmult_1_l. apply Rinv_le_contravar; lra.
  - rewrite <- El. transitivity (ln (exp l)); [|apply ln_exp]. f_equal. field. lra.
Qed.
Print Assumptions C60_llr.

(* more reliable measurements get smaller values; the sign does not matter *)
Theorem C60_monotone sigma ys i j : 0 < sigma -> (i < length ys)%nat -> (j < length ys)%nat ->
  let v k := nth k (get_virtual_check_init_vals ys sigma) 0 in
  (Rabs (nth i ys 0) < Rabs (nth j ys 0) -> v j < v i) /\ (Rabs (nth i ys 0) = Rabs (nth j ys 0) -> v j = v i).
Proof.
  intros S I J v. destruct (C60_llr sigma ys i S I) as [_ [[A1 A2] A3]]. destruct (C60_llr sigma ys j S J) as [_ [[B1 B2] B3]].
  fold (v i) in *. fold (v j) in *. assert (SS : 0 < sigma * sigma) by (apply Rmult_lt_0_compat; exact S).
  assert (G : forall a b, 0 < a <= / 2 -> 0 < b <= / 2 -> ln ((1 - a) / a) < ln ((1 - b) / b) -> b < a).
  { intros a b [Ha Ha'] [Hb Hb'] L. assert (P1 : 0 < (1 - a) / a) by (apply Rdiv_lt_0_compat; lra). assert (P2 : 0 < (1 - b) / b) by (apply Rdiv_lt_0_compat; lra).
    apply ln_lt_inv in L; auto. destruct (Rlt_or_le b a) as [Q|Q]; auto. exfalso.
    assert ((1 - b) / b <= (1 - a) / a); [|lra]. unfold Rdiv. apply Rmult_le_compat; try lra. left; apply Rinv_0_lt_compat; lra. apply Rinv_le_contravar; lra. }
  assert (K : forall a b, a < b -> 2 * a / (sigma * sigma) < 2 * b / (sigma * sigma)).
  { intros a b L. unfold Rdiv. apply Rmult_lt_compat_r; [apply Rinv_0_lt_compat; exact SS|lra]. }
  split.
  - intros L. apply G; try lra. rewrite A3, B3. apply K, L.
  - intros L. destruct (Rtotal_order (v i) (v j)) as [Q|[Q|Q]]; auto; exfalso.
    + assert (ln ((1 - v i) / v i) = ln ((1 - v j) / v j)) by (rewrite A3, B3, L; reflexivity).
      apply ln_inv in H; try (apply Rdiv_lt_0_compat; lra).
      assert (1 / v i = 1 / v j) by (replace (1 / v i) with ((1 - v i) / v i + 1) by (field; lra); rewrite H; field; lra).
      assert (v i = v j); [|lra]. unfold Rdiv in H0. rewrite !Rmult_1_l in H0. apply (f_equal Rinv) in H0. rewrite !Rinv_inv in H0. exact H0.
    + assert (ln ((1 - v i) / v i) = ln ((1 - v j) / v j)) by (rewrite A3, B3, L; reflexivity).
      apply ln_inv in H; try (apply Rdiv_lt_0_compat; lra).
      assert (1 / v i = 1 / v j) by (replace (1 / v i) with ((1 - v i) / v i + 1) by (field; lra); rewrite H; field; lra).
      assert (v i = v j); [|lra]. unfold Rdiv in H0. rewrite !Rmult_1_l in H0. apply (f_equal Rinv) in H0. rewrite !Rinv_inv in H0. exact H0.
Qed.
Print Assumptions C60_monotone.

(* without noise the virtual nodes are switched off *)
Theorem C60_no_noise sigma ys : sigma <= 0 -> get_virtual_check_init_vals ys sigma = repeat 0 (length ys).
Proof.
  intros S. unfold get_virtual_check_init_vals. destruct (Rle_dec sigma 0); [|lra]. induction ys; cbn; f_equal; auto.
Qed.
Print Assumptions C60_no_noise.
Example C60_instance : get_virtual_check_init_vals [0; 1] 1 = [1 / (exp (Rabs (2 * 0 / (1 * 1))) + 1); 1 / (exp (Rabs (2 * 1 / (1 * 1))) + 1)] /\ nth 0 (get_virtual_check_init_vals [0; 1] 1) 0 = / 2.
Proof.
  unfold get_virtual_check_init_vals, get_analog_llr. destruct (Rle_dec 1 0); [lra|]. cbn [map nth]. split; [reflexivity|].
  replace (2 * 0 / (1 * 1)) with 0 by field. rewrite Rabs_R0, exp_0. lra.
Qed.
