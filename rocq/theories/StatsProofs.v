From Coq Require Import List String Reals ZArith Lra Lia Permutation.
From Verif Require Import StatsModel.
Import ListNotations.
Open Scope R_scope.

Section Rates.
Variables (s r k : nat).
Hypothesis Hr : (1 <= r)%nat.
Hypothesis Hs : (s <= r)%nat.
Hypothesis Hk : (1 <= k)%nat.

Lemma r_pos :  0 < INR r. Proof. clear Hs Hk. apply lt_0_INR. lia. Qed.
Lemma k_pos :  0 < INR k. Proof. clear Hs Hr. apply lt_0_INR. lia. Qed.
Lemma r_ge1 :  1 <= INR r. Proof. clear Hs Hk. change 1 with (INR 1). apply le_INR. lia. Qed.
Lemma k_ge1 :  1 <= INR k. Proof. clear Hs Hr. change 1 with (INR 1). apply le_INR. lia. Qed.

Lemma one_minus_ler : 1 - ler (INR s) (INR r) = INR s / INR r.
Proof. unfold ler. ring. Qed.
Lemma frac_bounds : 0 <= INR s / INR r <= 1.
Proof.
  pose proof r_pos. pose proof (pos_INR s). pose proof (le_INR _ _ Hs). split.
  - apply Rmult_le_pos; auto. left. apply Rinv_0_lt_compat; auto.
  - apply (Rmult_le_reg_r (INR r)); auto. unfold Rdiv. rewrite Rmult_assoc, Rinv_l by lra. lra.
Qed.
Lemma ler_bounds : 0 <= ler (INR s) (INR r) <= 1.
Proof. pose proof frac_bounds. unfold ler. lra. Qed.
Lemma ler_eb_bounds : 0 <= ler_eb (INR s) (INR r) <= / 2.
Proof.
  unfold ler_eb. split; [apply sqrt_pos|].
  replace (/ 2) with (sqrt (/ 2 * / 2)) by (apply sqrt_square; lra). apply sqrt_le_1_alt.
  set (l := ler (INR s) (INR r)). pose proof ler_bounds as B. fold l in B. pose proof r_ge1. pose proof r_pos.
  apply (Rmult_le_reg_r (INR r)); auto. unfold Rdiv. rewrite Rmult_assoc, Rinv_l by lra.
  assert ((1 - l) * l <= / 4). { assert (0 <= (l - / 2) * (l - / 2)) by apply Rle_0_sqr. lra. }
  nra.
Qed.
Lemma ler_eb_zero : ler_eb (INR s) (INR r) = 0 <-> s = 0%nat \/ s = r.
Proof.
  pose proof r_pos as P. pose proof ler_bounds as B. unfold ler_eb.
  assert (ND : 0 <= (1 - ler (INR s) (INR r)) * ler (INR s) (INR r) / INR r).
  { apply Rmult_le_pos; [apply Rmult_le_pos; lra|]. left. apply Rinv_0_lt_compat; auto. }
  split.
  - intros E. apply sqrt_eq_0 in E; auto. unfold Rdiv in E. apply Rmult_integral in E as [E|E].
    2:{ exfalso. apply (Rinv_neq_0_compat (INR r)) in E; auto. lra. }
    apply Rmult_integral in E as [E|E].
    + left. rewrite one_minus_ler in E. apply INR_eq. unfold Rdiv in E. apply Rmult_integral in E as [E|E]; auto.
      exfalso. apply (Rinv_neq_0_compat (INR r)) in E; auto. lra.
    + right. apply INR_eq. unfold ler in E. assert (INR s / INR r = 1) by lra.
      apply (f_equal (fun x => x * INR r)) in H. unfold Rdiv in H. rewrite Rmult_assoc, Rinv_l in H by lra. lra.
  - intros [->| ->].
    + replace ((1 - ler (INR 0) (INR r)) * ler (INR 0) (INR r) / INR r) with 0. apply sqrt_0. unfold ler. simpl. field. lra.
    + replace ((1 - ler (INR r) (INR r)) * ler (INR r) (INR r) / INR r) with 0. apply sqrt_0. unfold ler. field. lra.
Qed.

Lemma pypow_pos x y : 0 < x -> pypow x y = Rpower x y.
Proof. intros P. unfold pypow. destruct (Req_EM_T x 0); auto. lra. Qed.
Lemma Rpower_pos x y : 0 < Rpower x y. Proof. apply exp_pos. Qed.

Lemma wer_eb_zero : wer_eb (INR s) (INR r) (INR k) = 0 <-> s = 0%nat \/ s = r.
Proof.
  rewrite <- ler_eb_zero. unfold wer_eb. pose proof k_pos. pose proof ler_eb_bounds. split.
  - intros E. unfold Rdiv in E. apply Rmult_integral in E as [E|E].
    2:{ exfalso. apply (Rinv_neq_0_compat (INR k)) in E; auto. lra. }
    apply Rmult_integral in E as [E|E]; auto.
    rewrite pypow_pos in E by lra. pose proof (Rpower_pos (1 - ler_eb (INR s) (INR r)) (1 / INR k - 1)). lra.
  - intros ->. unfold Rdiv. ring.
Qed.

Lemma wer_pow : (1 - wer (INR s) (INR r) (INR k)) ^ k = INR s / INR r.
Proof.
  unfold wer. rewrite one_minus_ler. replace (1 - (1 - pypow (INR s / INR r) (1 / INR k))) with (pypow (INR s / INR r) (1 / INR k)) by ring.
  pose proof k_pos. unfold pypow. destruct (Req_EM_T (INR s / INR r) 0) as [E|E].
  - destruct (Req_EM_T (1 / INR k) 0) as [E'|_].
    + exfalso. unfold Rdiv in E'. rewrite Rmult_1_l in E'. apply (Rinv_neq_0_compat (INR k)) in E'; auto. lra.
    + rewrite E. apply pow_i. lia.
  - pose proof frac_bounds. assert (P : 0 < INR s / INR r) by lra.
    rewrite <- Rpower_pow by apply Rpower_pos. rewrite Rpower_mult. unfold Rdiv at 2. rewrite Rmult_1_l, Rinv_l by lra.
    apply Rpower_1; auto.
Qed.

Lemma wer_range : 0 <= wer (INR s) (INR r) (INR k) <= 1.
Proof.
  unfold wer. rewrite one_minus_ler. pose proof k_pos. pose proof frac_bounds. unfold pypow.
  destruct (Req_EM_T (INR s / INR r) 0) as [E|E]; [destruct (Req_EM_T (1 / INR k) 0); lra|].
  assert (P : 0 < INR s / INR r) by lra. pose proof (Rpower_pos (INR s / INR r) (1 / INR k)).
  split; [|lra].
  assert (Rpower (INR s / INR r) (1 / INR k) <= 1); [|lra].
  unfold Rpower. apply Rle_trans with (exp 0); [|rewrite exp_0; lra]. destruct (Req_dec (INR s / INR r) 1) as [Q|Q].
  - rewrite Q, ln_1, Rmult_0_r. lra.
  - left. apply exp_increasing. assert (L : ln (INR s / INR r) < 0). { rewrite <- ln_1. apply ln_increasing; lra. }
    assert (0 < 1 / INR k). { unfold Rdiv. rewrite Rmult_1_l. apply Rinv_0_lt_compat; auto. }
    rewrite <- (Rmult_0_r (1 / INR k)). apply Rmult_lt_compat_l; auto.
Qed.

(* ler_eb = ler is impossible for whole numbers *)
Lemma ler_eb_ne_ler : (0 < s < r)%nat -> ler_eb (INR s) (INR r) <> ler (INR s) (INR r).
Proof.
  clear Hk. intros SR E. pose proof r_pos. pose proof ler_bounds as B. unfold ler_eb in E.
  set (l := ler (INR s) (INR r)) in *.
  assert (ND : 0 <= (1 - l) * l / INR r).
  { apply Rmult_le_pos; [apply Rmult_le_pos; lra|]. left. apply Rinv_0_lt_compat; auto. }
  assert (E2 : (1 - l) * l / INR r = l * l). { rewrite <- (sqrt_sqrt _ ND). rewrite E. reflexivity. }
  assert (LP : 0 < l).
  { unfold l, ler. assert (INR s < INR r) by (apply lt_INR; lia).
    assert (INR s / INR r < 1); [|lra]. apply (Rmult_lt_reg_r (INR r)); auto. unfold Rdiv. rewrite Rmult_assoc, Rinv_l by lra. lra. }
  assert (E3 : (1 - l) / INR r = l). { apply (Rmult_eq_reg_r l); [|lra]. rewrite <- E2. field. lra. }
  unfold l in E3. rewrite one_minus_ler in E3. unfold ler in E3.
  assert (E4 : INR s + INR r * INR s = INR r * INR r).
  { apply (f_equal (fun x => x * (INR r * INR r))) in E3.
    replace (INR s / INR r / INR r * (INR r * INR r)) with (INR s) in E3 by (field; lra).
    replace ((1 - INR s / INR r) * (INR r * INR r)) with (INR r * INR r - INR r * INR s) in E3 by (field; lra). lra. }
  rewrite <- !mult_INR, <- plus_INR in E4. apply INR_eq in E4. clear - E4 SR. destruct SR as [A B].
  (* s (r + 1) = r r, so r + 1 divides 1 *)
  assert (Q : ((r + 1) * s = (r + 1) * (r - 1) + 1)%nat). { destruct r as [|r']; [lia|]. replace (S r' - 1)%nat with r' by lia. nia. }
  destruct (Nat.lt_trichotomy s (r - 1)) as [D|[D|D]]; nia.
Qed.
End Rates.

Definition prop_wer (k l : R) : R := 1 - Rpower (1 - l) (1 / k).

Lemma derivative_wer k l : 0 < k -> l < 1 ->
  derivable_pt_lim (prop_wer k) l (/ k * Rpower (1 - l) (1 / k - 1)).
Proof.
  intros K L. unfold prop_wer.
  replace (/ k * Rpower (1 - l) (1 / k - 1)) with (0 - (1 / k * Rpower (1 - l) (1 / k - 1)) * (0 - 1)) by (unfold Rdiv; ring).
  apply (derivable_pt_lim_minus (fct_cte 1) (fun x => Rpower (1 - x) (1 / k))).
  - apply derivable_pt_lim_const.
  - apply (derivable_pt_lim_comp (fun x => 1 - x) (fun y => Rpower y (1 / k))).
    + apply (derivable_pt_lim_minus (fct_cte 1) id); [apply derivable_pt_lim_const|apply derivable_pt_lim_id].
    + apply derivable_pt_lim_power. lra.
Qed.

Lemma Rpower_inj_base x y c : 0 < x -> 0 < y -> c <> 0 -> Rpower x c = Rpower y c -> x = y.
Proof.
  intros X Y C E. unfold Rpower in E. apply exp_inv in E. apply Rmult_eq_reg_l in E; auto. apply ln_inv; auto.
Qed.

Lemma error_bar_right_iff s r k : (1 <= k)%nat -> (0 < s < r)%nat ->
  (wer_eb (INR s) (INR r) (INR k) = ler_eb (INR s) (INR r) * (/ INR k * Rpower (1 - ler (INR s) (INR r)) (1 / INR k - 1)) <-> k = 1%nat).
Proof.
  intros K SR. assert (Hr : (1 <= r)%nat) by lia. assert (Hs : (s <= r)%nat) by lia.
  pose proof (k_pos k K). pose proof (ler_eb_bounds s r Hr Hs).
  assert (NZ : ler_eb (INR s) (INR r) <> 0). { intros E. apply ler_eb_zero in E; auto. lia. }
  assert (P : 0 < 1 - ler (INR s) (INR r)).
  { rewrite one_minus_ler. apply Rmult_lt_0_compat; [apply lt_0_INR; lia|apply Rinv_0_lt_compat, lt_0_INR; lia]. }
  unfold wer_eb. rewrite pypow_pos by lra. split.
  - intros E. destruct (Nat.eq_dec k 1) as [|NK]; auto. exfalso.
    assert (E' : Rpower (1 - ler_eb (INR s) (INR r)) (1 / INR k - 1) = Rpower (1 - ler (INR s) (INR r)) (1 / INR k - 1)).
    { unfold Rdiv in E. rewrite Rmult_assoc in E. apply Rmult_eq_reg_l in E; auto. rewrite (Rmult_comm (/ INR k)) in E.
      apply Rmult_eq_reg_r in E; [|apply Rinv_neq_0_compat; lra]. exact E. }
    apply Rpower_inj_base in E'; try lra.
    + apply (ler_eb_ne_ler s r Hr Hs); auto. lra.
    + intros C. assert (D : 1 = INR k). { apply (f_equal (fun x => (x + 1) * INR k)) in C. unfold Rdiv in C.
        replace ((1 * / INR k - 1 + 1) * INR k) with 1 in C by (field; lra). lra. }
      apply NK. apply INR_eq. simpl. lra.
  - intros ->. simpl. replace (1 / 1 - 1) with 0 by field. rewrite !Rpower_O by lra. field.
Qed.

(* ---- dictionaries ---- *)
Lemma get_set_same k v d : get k (set k v d) = Some v.
Proof. induction d as [|[k' v'] d IH]; simpl. - rewrite String.eqb_refl. auto. - destruct (String.eqb_spec k k'); simpl. + rewrite String.eqb_refl. auto. + destruct (String.eqb_spec k k'); [congruence|auto]. Qed.
Lemma get_set_other k k' v d : k <> k' -> get k (set k' v d) = get k d.
Proof.
  intros N. induction d as [|[a b] d IH]; simpl.
  - destruct (String.eqb_spec k k'); [congruence|auto].
  - destruct (String.eqb_spec k' a); simpl.
    + subst. destruct (String.eqb_spec k a); [congruence|auto].
    + destruct (String.eqb k a); auto.
Qed.
Lemma get_pop_other k k' d : k <> k' -> get k (pop k' d) = get k d.
Proof.
  intros N. induction d as [|[a b] d IH]; simpl; auto. destruct (String.eqb_spec k' a); simpl.
  - subst. destruct (String.eqb_spec k a); [congruence|auto].
  - destruct (String.eqb k a); auto.
Qed.
Lemma get_pop_same k d : get k (pop k d) = None.
Proof.
  induction d as [|[a b] d IH]; simpl; auto. destruct (String.eqb_spec k a); simpl; auto.
  destruct (String.eqb_spec k a); [congruence|auto].
Qed.

(* last binding of a key in a list, as update sees it *)
Lemma update_cons d k v e : update d ((k, v) :: e) = update (set k v d) e.
Proof. reflexivity. Qed.
Lemma get_update_none k d e : get k e = None -> get k (update d e) = get k d.
Proof.
  revert d. induction e as [|[a b] e IH]; intros d E; auto. rewrite update_cons. simpl in E.
  destruct (String.eqb_spec k a); [discriminate|]. rewrite IH by auto. apply get_set_other; auto.
Qed.
Definition nodup_keys (e : dict) : Prop := NoDup (map fst e).
Lemma get_none_in k e : ~ In k (map fst e) <-> get k e = None.
Proof.
  induction e as [|[a b] e IH]; simpl; [tauto|]. destruct (String.eqb_spec k a).
  - subst. split; [tauto|discriminate].
  - rewrite <- IH. split; intros A; [tauto|]. intros [?|?]; [congruence|tauto].
Qed.
Lemma get_update_some k v d e : nodup_keys e -> get k e = Some v -> get k (update d e) = Some v.
Proof.
  unfold nodup_keys. revert d. induction e as [|[a b] e IH]; simpl; intros d N E; [discriminate|].
  change (update d ((a, b) :: e)) with (update (set a b d) e). inversion N; subst.
  destruct (String.eqb_spec k a).
  - subst. injection E as ->. rewrite get_update_none by (apply get_none_in; auto). apply get_set_same.
  - apply IH; auto.
Qed.

(* value of a count, 0 when missing (data.get(k, 0)) *)
Definition count (k : string) (d : dict) : Z := match get k d with Some (VZ z) => z | _ => 0%Z end.
Definition total (k : string) (ds : list dict) : Z := fold_right (fun d acc => (count k d + acc)%Z) 0%Z ds.
(* the key holds an integer or is missing *)
Definition intkey (k : string) (d : dict) : Prop := match get k d with None | Some (VZ _) => True | _ => False end.

Lemma add_key_ok k data m a : get k m = Some (VZ a) -> intkey k data ->
  add_key k data m = MOk (set k (VZ (a + count k data)) m).
Proof.
  intros E I. unfold add_key, count. rewrite E. unfold intkey in I. destruct (get k data) as [[z|r|t]|]; try contradiction; auto.
Qed.

Lemma add_keys_ok ks data m : NoDup ks -> (forall k, In k ks -> (exists a, get k m = Some (VZ a)) /\ intkey k data) ->
  exists m', add_keys ks data m = MOk m' /\
    (forall k, In k ks -> get k m' = Some (VZ (count k m + count k data))) /\ (forall k, ~ In k ks -> get k m' = get k m).
Proof.
  revert m. induction ks as [|k ks IH]; intros m ND A; simpl.
  - exists m. split; auto. split; [intros ? []|auto].
  - inversion ND; subst. destruct (A k) as [[a Ea] Ik]; [left; auto|]. rewrite (add_key_ok k data m a Ea Ik). cbn [mbind].
    destruct (IH (set k (VZ (a + count k data)) m)) as [m' [E [G1 G2]]]; auto.
    { intros k' I. destruct (A k') as [[a' Ea'] Ik']; [right; auto|]. split; auto. exists a'. rewrite get_set_other; auto. intros ->; auto. }
    exists m'. split; auto. split.
    + intros k' [<-|I].
      * rewrite G2 by auto. rewrite get_set_same. unfold count at 2. rewrite Ea. reflexivity.
      * rewrite G1 by auto. unfold count at 1. rewrite get_set_other by (intros ->; auto). reflexivity.
    + intros k' N. rewrite G2 by (intros I; apply N; right; auto). apply get_set_other. intros ->. apply N. left; auto.
Qed.

Lemma add_all_ok ks ds m : NoDup ks -> (forall k, In k ks -> (exists a, get k m = Some (VZ a)) /\ Forall (intkey k) ds) ->
  exists m', add_all ks ds m = MOk m' /\
    (forall k, In k ks -> get k m' = Some (VZ (total k (m :: ds)))) /\ (forall k, ~ In k ks -> get k m' = get k m).
Proof.
  intros ND. revert m. induction ds as [|d ds IH]; intros m A; simpl.
  - exists m. split; auto. split; auto. intros k I. destruct (A k I) as [[a Ea] _]. rewrite Ea. unfold count. rewrite Ea. f_equal. f_equal. lia.
  - destruct (add_keys_ok ks d m ND) as [m1 [E1 [G1 G2]]].
    { intros k I. destruct (A k I) as [B C]. split; auto. inversion C; auto. }
    rewrite E1. cbn [mbind]. destruct (IH m1) as [m' [E [H1 H2]]].
    { intros k I. split; [eauto|]. destruct (A k I) as [B C]. inversion C; auto. }
    exists m'. split; auto. split.
    + intros k I. rewrite H1 by auto. simpl. unfold count at 1. rewrite G1 by auto. f_equal. f_equal. lia.
    + intros k N. rewrite H2, G2; auto.
Qed.

Lemma total_perm k a b : Permutation a b -> total k a = total k b.
Proof. induction 1; simpl; lia. Qed.


(* Python dictionaries have distinct keys *)
Fixpoint nodupb (l : list string) : bool :=
  match l with [] => true | a :: r => (negb (existsb (String.eqb a) r) && nodupb r)%bool end.
Lemma nodupb_sound l : nodupb l = true -> NoDup l.
Proof.
  induction l; simpl; intros E; constructor; apply andb_prop in E as [E1 E2]; auto.
  intros I. apply Bool.negb_true_iff in E1. assert (existsb (String.eqb a) l = true); [|congruence].
  apply existsb_exists. exists a. split; auto. apply String.eqb_refl.
Qed.
Lemma set_in k v d a : In a (map fst (set k v d)) <-> a = k \/ In a (map fst d).
Proof.
  induction d as [|[k' v'] d IH]; simpl; [intuition|]. destruct (String.eqb_spec k k'); simpl; subst; [intuition|].
  rewrite IH. intuition.
Qed.
Lemma nodup_set k v d : nodup_keys d -> nodup_keys (set k v d).
Proof.
  unfold nodup_keys. induction d as [|[k' v'] d IH]; simpl; intros N; [repeat constructor; auto|]. inversion N; subst.
  destruct (String.eqb_spec k k'); simpl; [subst; constructor; auto|]. constructor; auto.
  rewrite set_in. intros [E|E]; congruence.
Qed.
Lemma nodup_pop k d : nodup_keys d -> nodup_keys (pop k d).
Proof.
  unfold nodup_keys, pop. induction d as [|[k' v'] d IH]; simpl; intros N; auto. inversion N; subst.
  destruct (String.eqb k k'); simpl; auto. constructor; auto. intros I. apply H1.
  apply in_map_iff in I as [x [E I]]. apply filter_In in I as [I _]. apply in_map_iff. eauto.
Qed.
Lemma nodup_update d e : nodup_keys d -> nodup_keys (update d e).
Proof. revert d. induction e as [|[k v] e IH]; intros d N; auto. rewrite update_cons. apply IH, nodup_set; auto. Qed.
Lemma nodup_add_key k data m m' : nodup_keys m -> add_key k data m = MOk m' -> nodup_keys m'.
Proof.
  intros N E. unfold add_key in E. destruct (get k m) as [[z|r|t]|]; try discriminate.
  destruct (get k data) as [[z'|r'|t']|]; try discriminate; injection E as <-; apply nodup_set; auto.
Qed.
Lemma nodup_add_keys ks data m m' : nodup_keys m -> add_keys ks data m = MOk m' -> nodup_keys m'.
Proof.
  revert m. induction ks as [|k ks IH]; simpl; intros m N E; [injection E as <-; auto|].
  destruct (add_key k data m) as [m1| | |] eqn:E1; try discriminate. apply (IH m1); auto. eapply nodup_add_key; eauto.
Qed.
Lemma nodup_add_all ks ds m m' : nodup_keys m -> add_all ks ds m = MOk m' -> nodup_keys m'.
Proof.
  revert m. induction ds as [|d ds IH]; simpl; intros m N E; [injection E as <-; auto|].
  destruct (add_keys ks d m) as [m1| | |] eqn:E1; try discriminate. apply (IH m1); auto. eapply nodup_add_keys; eauto.
Qed.
