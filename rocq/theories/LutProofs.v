(** * LutProofs *)
From Verif Require Export CssProofs NamedProofs LutModel.

Lemma key_eqb_eq a b : key_eqb a b = true <-> a = b.
Proof. unfold key_eqb. destruct (list_eq_dec _ a b); split; congruence. Qed.
Lemma key_eqb_refl a : key_eqb a a = true.
Proof. now apply key_eqb_eq. Qed.

Lemma kfind_append k k' x d : kfind k (kappend k' x d) =
  if key_eqb k k' then Some (match kfind k d with Some l => l ++ [x] | None => [x] end) else kfind k d.
Proof. induction d as [|[k1 l] d IH]; cbn [kappend kfind].
  - destruct (key_eqb k k'); reflexivity.
  - destruct (key_eqb k' k1) eqn:E1; cbn [kfind].
    + apply key_eqb_eq in E1. subst k1. destruct (key_eqb k k'); reflexivity.
    + rewrite IH. destruct (key_eqb k k1) eqn:E2; [|reflexivity]. apply key_eqb_eq in E2. subst k1.
      destruct (key_eqb k k') eqn:E3; [|reflexivity]. apply key_eqb_eq in E3. subst. rewrite key_eqb_refl in E1. discriminate. Qed.

Definition optapp (o : option (list vec)) (f : list vec) : option (list vec) :=
  match o, f with Some l, _ => Some (l ++ f) | None, [] => None | None, _ => Some f end.
Lemma group_spec {I} (st : I -> vec) (ky : I -> key) k ix : forall d,
  kfind k (fold_left (fun d i => kappend (ky i) (st i) d) ix d) = optapp (kfind k d) (map st (filter (fun i => key_eqb k (ky i)) ix)).
Proof. induction ix as [|i ix IH]; intros d; cbn [fold_left filter map].
  - destruct (kfind k d); cbn; [now rewrite app_nil_r|reflexivity].
  - rewrite IH, kfind_append. destruct (key_eqb k (ky i)); cbn [map].
    + destruct (kfind k d); cbn [optapp]; [now rewrite <- app_assoc|reflexivity].
    + reflexivity. Qed.
Lemma kfind_map {A B} (g : A -> B) k (d : list (key * A)) : kfind k (map (fun '(k, v) => (k, g v)) d) = option_map g (kfind k d).
Proof. induction d as [|[k1 v] d IH]; cbn; auto. destruct (key_eqb k k1); auto. Qed.

Lemma min_sum_in l : forall b, In (min_sum b l) (b :: l).
Proof. induction l as [|v l IH]; intros b; cbn [min_sum]; [now left|]. destruct (weight v <? weight b).
  - destruct (IH v) as [<-|H]; [right; now left|right; now right].
  - destruct (IH b) as [<-|H]; [now left|right; now right]. Qed.
Lemma min_sum_le l : forall b v, In v (b :: l) -> weight (min_sum b l) <= weight v.
Proof. induction l as [|a l IH]; intros b v H; cbn [min_sum].
  - destruct H as [<-|[]]; auto.
  - destruct (Nat.ltb_spec (weight a) (weight b)).
    + destruct H as [<-|H]; [specialize (IH a a (or_introl eq_refl)); lia|now apply IH].
    + destruct H as [<-|[<-|H]]; [apply IH; now left|specialize (IH b b (or_introl eq_refl)); lia|apply IH; now right]. Qed.

(** *** all binary words *)
Lemma digits_S n i : binary_digits (S n) i = Nat.testbit i n :: binary_digits n i.
Proof. unfold binary_digits. cbn [seq map]. f_equal; [f_equal; lia|]. rewrite <- seq_shift, map_map. apply map_ext_in. intros j Hj. apply in_seq in Hj. f_equal. lia. Qed.
Lemma digits_length n i : length (binary_digits n i) = n.
Proof. unfold binary_digits. now rewrite map_length, seq_length. Qed.
Fixpoint val (v : vec) : nat := match v with [] => 0 | b :: v' => (if b then 2 ^ length v' else 0) + val v' end.
Lemma val_lt v : val v < 2 ^ length v.
Proof. induction v as [|b v IH]; cbn; [lia|]. destruct b; lia. Qed.
Lemma digits_ext n i j : (forall b, b < n -> Nat.testbit i b = Nat.testbit j b) -> binary_digits n i = binary_digits n j.
Proof. intros H. unfold binary_digits. apply map_ext_in. intros b Hb. apply in_seq in Hb. apply H. lia. Qed.
Lemma digits_val v : binary_digits (length v) (val v) = v.
Proof. induction v as [|b v IH]; [reflexivity|]. cbn [length val]. rewrite digits_S. pose proof (val_lt v) as L. f_equal.
  - destruct b.
    + apply Nat.b2n_inj. rewrite Nat.testbit_spec'. replace (2 ^ length v + val v) with (1 * 2 ^ length v + val v) by lia.
      rewrite Nat.div_add_l by (apply Nat.pow_nonzero; lia). rewrite Nat.div_small by auto. reflexivity.
    + apply Nat.b2n_inj. rewrite Nat.testbit_spec'. cbn [Nat.add]. rewrite Nat.div_small by auto. reflexivity.
  - transitivity (binary_digits (length v) (val v)); [|exact IH]. apply digits_ext. intros j Hj. destruct b; [|reflexivity].
    apply Nat.b2n_inj. rewrite !Nat.testbit_spec'.
    assert (E : 2 ^ length v = 2 ^ (length v - j - 1) * 2 * 2 ^ j).
    { rewrite <- Nat.mul_assoc, <- (Nat.pow_succ_r' 2 j), <- Nat.pow_add_r. f_equal. lia. }
    rewrite E, Nat.div_add_l by (apply Nat.pow_nonzero; lia). rewrite Nat.add_comm, Nat.mod_add by lia. reflexivity. Qed.
Lemma digits_all n v : length v = n -> exists i, i < 2 ^ n /\ binary_digits n i = v.
Proof. intros <-. exists (val v). split; [apply val_lt|apply digits_val]. Qed.

Lemma tobytes1_inj a b : tobytes (mkArr 1 a) = tobytes (mkArr 1 b) -> a = b.
Proof. unfold tobytes. cbn [itemsize entries]. revert b. induction a as [|x a IH]; intros [|y b]; cbn; try (destruct x || destruct y; discriminate); auto.
  intros H. injection H as H1 H2. f_equal; [destruct x, y; congruence|]. now apply IH. Qed.

(** *** the table *)
Definition lut_entry (n : nat) (H : mat) (s e : vec) : Prop :=
  length e = n /\ mulMV H e = s /\ forall e', length e' = n -> mulMV H e' = s -> weight e <= weight e'.
Lemma lut_find n H k : kfind k (generate_lut (mkNd n H)) =
  match map (binary_digits n) (filter (fun i => key_eqb k (tobytes (mkArr 1 (mulMV H (binary_digits n i))))) (seq 0 (2 ^ n))) with
  | [] => None | s :: v' => Some (min_sum s v') end.
Proof. unfold generate_lut. cbn [nd_cols nd_rows]. rewrite (kfind_map (fun v => match v with [] => [] | s :: v' => min_sum s v' end)).
  rewrite (group_spec (binary_digits n) (fun i => tobytes (mkArr 1 (mulMV H (binary_digits n i))))). cbn [kfind].
  destruct (map _ _); reflexivity. Qed.
Lemma lut_spec n H s : (forall e, kfind (tobytes (mkArr 1 s)) (generate_lut (mkNd n H)) = Some e -> lut_entry n H s e) /\
  ((exists e, length e = n /\ mulMV H e = s) -> exists e, kfind (tobytes (mkArr 1 s)) (generate_lut (mkNd n H)) = Some e).
Proof. rewrite lut_find. set (l := map _ _).
  assert (IN : forall e, In e l <-> length e = n /\ mulMV H e = s).
  { intros e. unfold l. rewrite in_map_iff. split.
    - intros (i & <- & Hi). apply filter_In in Hi. destruct Hi as [_ Hk]. apply key_eqb_eq in Hk. apply tobytes1_inj in Hk. split; [apply digits_length|auto].
    - intros [Hl Hs]. destruct (digits_all n e Hl) as (i & Hi & Ei). exists i. split; auto. apply filter_In. split; [apply in_seq; lia|]. rewrite Ei, Hs. apply key_eqb_refl. }
  split.
  - intros e He. destruct l as [|a l']; [discriminate|]. injection He as <-. pose proof (min_sum_in l' a) as HI. apply IN in HI. destruct HI as [H1 H2]. split; auto. split; auto.
    intros e' Hl Hs. apply min_sum_le. now apply IN.
  - intros (e & Hl & Hs). destruct l as [|a l']; [|eauto]. elim (proj2 (IN e)); auto. Qed.
Lemma lut_keys n H k : kfind k (generate_lut (mkNd n H)) <> None -> exists s, k = tobytes (mkArr 1 s) /\ exists e, length e = n /\ mulMV H e = s.
Proof. rewrite lut_find. destruct (map _ _) as [|a l] eqn:E; [congruence|]. intros _.
  assert (HI : In a (a :: l)) by now left. rewrite <- E in HI. apply in_map_iff in HI. destruct HI as (i & Ei & Hi). apply filter_In in Hi. destruct Hi as [_ Hk]. apply key_eqb_eq in Hk.
  eexists. split; [exact Hk|]. exists (binary_digits n i). split; [apply digits_length|reflexivity]. Qed.
Lemma lut_nonempty n H : length (generate_lut (mkNd n H)) <> 0.
Proof. intros HL. destruct (proj2 (lut_spec n H (mulMV H (vzero n)))) as (e & He); [exists (vzero n); split; [apply vzero_length|reflexivity]|].
  destruct (generate_lut (mkNd n H)); [discriminate|discriminate]. Qed.
