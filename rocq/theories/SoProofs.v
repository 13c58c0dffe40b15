(** * SoProofs: geometry of the square-octagon color codes of odd distance d = 2m+1. *)
From Verif Require Export HexProofs.
Local Open Scope Z_scope.

Definition sunion (l s : list coord) : list coord := fold_left (fun s p => sadd p s) l s.
Lemma sunion_app a b s : sunion (a ++ b) s = sunion b (sunion a s).
Proof. apply fold_left_app. Qed.
Lemma sunion_new l : forall s, NoDup l -> (forall p, In p l -> ~ In p s) -> sunion l s = s ++ l.
Proof. induction l as [|a l IH]; intros s ND H; cbn [sunion fold_left]; [now rewrite app_nil_r|]. inversion ND; subst.
  rewrite sadd_new by (apply H; now left). fold (sunion l (s ++ [a])). rewrite IH; auto; [now rewrite <- app_assoc|].
  intros p Hp. rewrite in_app_iff. intros [A|[<-|[]]]; [apply (H p); auto; now right|contradiction]. Qed.

(** positions in a data row: 0, 2, 6, 8, 12, ... *)
Definition dpos (j : nat) : Z := 3 * Z.of_nat j - Z.of_nat (j mod 2).
Definition drow (todo : nat) (x y : Z) : list coord := map (fun j => (x + dpos j, y)) (seq 0 todo).
Definition arow (todo : nat) (x y : Z) : list coord := map (fun j => (x + 6 * Z.of_nat j, y)) (seq 0 todo).

Lemma so_data_loop_eq todo : forall i x y s, 
  so_data_loop todo (Nat.even i) (x + dpos i) y s = mkSo (sunion (map (fun j => (x + dpos j, y)) (seq i todo)) (so_data s)) (so_sq s) (so_oct s).
Proof. induction todo as [|k IH]; intros i x y s; cbn [so_data_loop seq map].
  - now destruct s.
  - replace (negb (Nat.even i)) with (Nat.even (S i)) by (now rewrite Nat.even_succ, <- Nat.negb_even).
    replace (x + dpos i + (if Nat.even i then 2 else 4)) with (x + dpos (S i)).
    + rewrite IH. reflexivity.
    + unfold dpos. destruct (Nat.even i) eqn:E.
      * apply Nat.even_spec in E. destruct E as [q Eq]. subst i. replace (S (2 * q)) with (1 + q * 2)%nat by lia. rewrite (Nat.mul_comm 2 q), Nat.mod_mul, Nat.mod_add by lia. change (1 mod 2)%nat with 1%nat. lia.
      * assert (O : Nat.odd i = true) by (now rewrite <- Nat.negb_even, E). apply Nat.odd_spec in O. destruct O as [q Eq]. subst i.
        replace (S (2 * q + 1)) with ((q + 1) * 2)%nat by lia. replace (2 * q + 1)%nat with (1 + q * 2)%nat by lia. rewrite Nat.mod_mul, Nat.mod_add by lia. change (1 mod 2)%nat with 1%nat. lia. Qed.
Lemma so_data_row todo x y s : so_data_loop todo true x y s = mkSo (sunion (drow todo x y) (so_data s)) (so_sq s) (so_oct s).
Proof. pose proof (so_data_loop_eq todo 0 x y s) as E. unfold dpos in E at 1. cbn [Nat.even] in E. change (0 mod 2)%nat with 0%nat in E. replace (x + (3 * Z.of_nat 0 - Z.of_nat 0)) with x in E by lia. exact E. Qed.

Lemma so_anc_loop_eq k : forall b i x y s,
  so_anc_loop (2 * k) b (x + 6 * Z.of_nat i) y s =
  mkSo (so_data s) (sunion (map (fun j => ((if b then x else x + 3) + 6 * Z.of_nat j, y)) (seq i k)) (so_sq s))
       (sunion (map (fun j => ((if b then x + 3 else x) + 6 * Z.of_nat j, y)) (seq i k)) (so_oct s)).
Proof. induction k as [|k IH]; intros b i x y s.
  - now destruct s.
  - replace (2 * S k)%nat with (S (S (2 * k))) by lia. cbn [so_anc_loop seq map].
    rewrite negb_involutive. replace (x + 6 * Z.of_nat i + 3 + 3) with (x + 6 * Z.of_nat (S i)) by lia. rewrite IH.
    destruct b; cbn [so_add_sq so_add_oct so_sq so_oct so_data negb sunion fold_left]; replace (x + 6 * Z.of_nat i + 3) with (x + 3 + 6 * Z.of_nat i) by lia; reflexivity. Qed.

Lemma even_anc_row k y s : even_ancilla_qubit_row (2 * Z.of_nat k) y s = mkSo (so_data s) (sunion (arow k (y + 1) y) (so_sq s)) (sunion (arow k (y + 4) y) (so_oct s)).
Proof. unfold even_ancilla_qubit_row. replace (Z.to_nat (2 * Z.of_nat k)) with (2 * k)%nat by lia.
  pose proof (so_anc_loop_eq k true 0 (y + 1) y s) as E. replace (y + 1 + 6 * Z.of_nat 0) with (y + 1) in E by lia. rewrite E. replace (y + 1 + 3) with (y + 4) by lia. reflexivity. Qed.
Lemma odd_anc_row k y s : odd_ancilla_qubit_row (2 * Z.of_nat k) y s = mkSo (so_data s) (sunion (arow k (y + 1) y) (so_sq s)) (sunion (arow k (y - 2) y) (so_oct s)).
Proof. unfold odd_ancilla_qubit_row. replace (Z.to_nat (2 * Z.of_nat k)) with (2 * k)%nat by lia.
  pose proof (so_anc_loop_eq k false 0 (y - 2) y s) as E. replace (y - 2 + 6 * Z.of_nat 0) with (y - 2) in E by lia. rewrite E. replace (y - 2 + 3) with (y + 1) by lia. reflexivity. Qed.

Definition octx (y : Z) : Z := if y mod 2 =? 0 then y + 4 else y - 2.

(** the three sets, round by round; [c] is the length of the first data row of the round, [r] = m - b *)
Fixpoint Dl (c r b : nat) : list coord :=
  drow c (3 * Z.of_nat b) (3 * Z.of_nat b + 1) ++ drow (2 * r) (3 * Z.of_nat b + 3) (3 * Z.of_nat b + 2) ++
  match r with O => [] | S r' => Dl (2 * r) r' (S b) end.
Fixpoint Sl (r b : nat) : list coord :=
  match r with O => [] | S r' => arow r (3 * Z.of_nat b + 4) (3 * Z.of_nat b + 3) ++ Sl r' (S b) end.
Fixpoint Ol (r b : nat) : list coord :=
  match r with O => [] | S r' => arow r (octx (3 * Z.of_nat b + 3)) (3 * Z.of_nat b + 3) ++ Ol r' (S b) end.

Lemma so_add_loop_stop fuel y_max y x s : y_max < y -> so_add_loop fuel y_max y x s = s.
Proof. destruct fuel; auto. cbn [so_add_loop]. intros H. replace (y <=? y_max) with false by (symmetry; apply Z.leb_gt; lia). reflexivity. Qed.

Lemma so_add_eq r : forall fuel b c s, (r < fuel)%nat ->
  c = (if (b =? 0)%nat then 2 * r + 1 else 2 * r + 2)%nat ->
  so_add_loop fuel (3 * (Z.of_nat r + Z.of_nat b) + 1) (3 * Z.of_nat b + 1) (Z.of_nat c) s =
  mkSo (sunion (Dl c r b) (so_data s)) (sunion (Sl r b) (so_sq s)) (sunion (Ol r b) (so_oct s)).
Proof. induction r as [|r IH]; intros fuel b c s Hf Hc; (destruct fuel as [|fuel]; [lia|]); cbn [so_add_loop].
  - replace (3 * Z.of_nat b + 1 <=? 3 * (Z.of_nat 0 + Z.of_nat b) + 1) with true by (symmetry; apply Z.leb_le; lia).
    replace (3 * Z.of_nat b + 1 + 1 <=? 3 * (Z.of_nat 0 + Z.of_nat b) + 1) with false by (symmetry; apply Z.leb_gt; lia).
    replace (3 * Z.of_nat b + 1 + 1 <=? 3 * (Z.of_nat 0 + Z.of_nat b) + 1) with false by (symmetry; apply Z.leb_gt; lia).
    rewrite so_add_loop_stop by lia. unfold even_data_qubit_row. rewrite so_data_row, Nat2Z.id. cbn [Dl Sl Ol sunion fold_left].
    replace (3 * Z.of_nat b + 1 - 1) with (3 * Z.of_nat b) by lia. change (drow (2 * 0) (3 * Z.of_nat b + 3) (3 * Z.of_nat b + 2)) with (@nil coord). rewrite !app_nil_r. reflexivity.
  - replace (3 * Z.of_nat b + 1 <=? 3 * (Z.of_nat (S r) + Z.of_nat b) + 1) with true by (symmetry; apply Z.leb_le; lia).
    replace (3 * Z.of_nat b + 1 + 1 <=? 3 * (Z.of_nat (S r) + Z.of_nat b) + 1) with true by (symmetry; apply Z.leb_le; lia).
    replace (3 * Z.of_nat b + 1 + 1 + 1 <=? 3 * (Z.of_nat (S r) + Z.of_nat b) + 1) with true by (symmetry; apply Z.leb_le; lia).
    replace (if 3 * Z.of_nat b + 1 =? 1 then Z.of_nat c - 1 else Z.of_nat c - 2) with (2 * Z.of_nat (S r)).
    2: { destruct (Nat.eqb_spec b 0) as [->|Hb]; [cbn [Z.of_nat Z.mul Z.add Z.eqb Pos.eqb]; lia|]. replace (3 * Z.of_nat b + 1 =? 1) with false by (symmetry; apply Z.eqb_neq; lia). lia. }
    unfold even_data_qubit_row, odd_data_qubit_row. rewrite !so_data_row, Nat2Z.id.
    replace (Z.to_nat (2 * Z.of_nat (S r))) with (2 * S r)%nat by lia.
    replace (3 * Z.of_nat b + 1 - 1) with (3 * Z.of_nat b) by lia. replace (3 * Z.of_nat b + 1 + 1 + 1 + 1) with (3 * Z.of_nat (S b) + 1) by lia.
    replace (3 * Z.of_nat b + 1 + 1 + 1) with (3 * Z.of_nat b + 3) by lia. replace (3 * Z.of_nat b + 1 + 1) with (3 * Z.of_nat b + 2) by lia.
    replace (3 * Z.of_nat b + 2 + 1) with (3 * Z.of_nat b + 3) by lia.
    assert (A : forall s, (if (3 * Z.of_nat b + 3) mod 2 =? 0 then even_ancilla_qubit_row (2 * Z.of_nat (S r)) (3 * Z.of_nat b + 3) s else odd_ancilla_qubit_row (2 * Z.of_nat (S r)) (3 * Z.of_nat b + 3) s)
       = mkSo (so_data s) (sunion (arow (S r) (3 * Z.of_nat b + 4) (3 * Z.of_nat b + 3)) (so_sq s)) (sunion (arow (S r) (octx (3 * Z.of_nat b + 3)) (3 * Z.of_nat b + 3)) (so_oct s))).
    { intros s'. unfold octx. replace (3 * Z.of_nat b + 4) with (3 * Z.of_nat b + 3 + 1) by lia. destruct (_ =? 0); [apply even_anc_row|apply odd_anc_row]. }
    rewrite A. replace (2 * Z.of_nat (S r)) with (Z.of_nat (2 * S r)) by lia.
    replace (3 * (Z.of_nat (S r) + Z.of_nat b) + 1) with (3 * (Z.of_nat r + Z.of_nat (S b)) + 1) by lia.
    rewrite IH; [|lia|cbn [Nat.eqb]; lia]. cbn [so_data so_sq so_oct Dl Sl Ol]. rewrite !sunion_app. reflexivity. Qed.

Definition Bl (m : nat) : list coord := arow m 4 0.
Lemma bottom_eq d s : bottom_row_ancillas d s = mkSo (so_data s) (so_sq s) (sunion (Bl (Z.to_nat ((d / 2 * 6 - 4 + 5) / 6))) (so_oct s)).
Proof. unfold bottom_row_ancillas, Bl, arow. generalize (seq 0 (Z.to_nat ((d / 2 * 6 - 4 + 5) / 6))). intros l. revert s.
  induction l as [|a l IH]; intros s; cbn [map fold_left]; [now destruct s|]. rewrite IH. reflexivity. Qed.

Lemma so_add_qubits_eq m : (1 <= m)%nat -> so_add_qubits (2 * Z.of_nat m + 1) = mkSo (sunion (Dl (2 * m + 1) m 0) []) (sunion (Sl m 0) []) (sunion (Bl m ++ Ol m 0) []).
Proof. intros Hm. unfold so_add_qubits. rewrite bottom_eq. cbn [so_data so_sq so_oct].
  replace (2 * Z.of_nat m + 1 + (2 * Z.of_nat m + 1) / 2) with (3 * (Z.of_nat m + Z.of_nat 0) + 1) by zmod.
  replace (((2 * Z.of_nat m + 1) / 2 * 6 - 4 + 5) / 6) with (Z.of_nat m) by zmod. rewrite Nat2Z.id.
  pose proof (so_add_eq m (Z.to_nat (3 * (Z.of_nat m + Z.of_nat 0) + 1)) 0 (2 * m + 1)) as E.
  replace (Z.of_nat (2 * m + 1)) with (2 * Z.of_nat m + 1) in E by lia. replace (3 * Z.of_nat 0 + 1) with 1 in E by lia.
  rewrite E; [|lia|reflexivity]. cbn [so_data so_sq so_oct]. now rewrite sunion_app. Qed.

(** *** membership *)
Lemma dpos_inj i j : dpos i = dpos j -> i = j.
Proof. unfold dpos. pose proof (Nat.mod_upper_bound i 2). pose proof (Nat.mod_upper_bound j 2). lia. Qed.
Lemma In_drow c x y p : In p (drow c x y) <-> snd p = y /\ exists j, (j < c)%nat /\ fst p = x + dpos j.
Proof. unfold drow. rewrite in_map_iff. split.
  - intros (j & <- & H). apply in_seq in H. cbn [fst snd]. split; auto. exists j. split; [lia|auto].
  - intros (H & j & Hj & E). exists j. split; [|apply in_seq; lia]. destruct p. cbn [fst snd] in *. now subst. Qed.
Lemma In_arow c x y p : In p (arow c x y) <-> snd p = y /\ exists j, (j < c)%nat /\ fst p = x + 6 * Z.of_nat j.
Proof. unfold arow. rewrite in_map_iff. split.
  - intros (j & <- & H). apply in_seq in H. cbn [fst snd]. split; auto. exists j. split; [lia|auto].
  - intros (H & j & Hj & E). exists j. split; [|apply in_seq; lia]. destruct p. cbn [fst snd] in *. now subst. Qed.
Lemma drow_iff k x y p : In p (drow (2 * k) x y) <-> snd p = y /\ ((fst p - x) mod 6 = 0 \/ (fst p - x) mod 6 = 2) /\ x <= fst p /\ fst p < x + 6 * Z.of_nat k.
Proof. rewrite In_drow. apply and_iff_compat_l. split.
  - intros (j & Hj & ->). unfold dpos. pose proof (Nat.mod_upper_bound j 2 ltac:(lia)). pose proof (Nat.div_mod j 2 ltac:(lia)) as D. zmod.
  - intros ([H|H] & H1 & H2).
    + exists (2 * Z.to_nat ((fst p - x) / 6))%nat. unfold dpos. rewrite Nat.mul_comm, Nat.mod_mul by lia. zmod.
    + exists (1 + Z.to_nat ((fst p - x) / 6) * 2)%nat. unfold dpos. rewrite Nat.mod_add by lia. change (1 mod 2)%nat with 1%nat. zmod. Qed.
Lemma drow1_iff k x y p : In p (drow (2 * k + 1) x y) <-> snd p = y /\ ((fst p - x) mod 6 = 0 \/ (fst p - x) mod 6 = 2) /\ x <= fst p /\ fst p <= x + 6 * Z.of_nat k.
Proof. rewrite In_drow. apply and_iff_compat_l. split.
  - intros (j & Hj & ->). unfold dpos. pose proof (Nat.mod_upper_bound j 2 ltac:(lia)). pose proof (Nat.div_mod j 2 ltac:(lia)) as D. zmod.
  - intros ([H|H] & H1 & H2).
    + exists (2 * Z.to_nat ((fst p - x) / 6))%nat. unfold dpos. rewrite Nat.mul_comm, Nat.mod_mul by lia. zmod.
    + exists (1 + Z.to_nat ((fst p - x) / 6) * 2)%nat. unfold dpos. rewrite Nat.mod_add by lia. change (1 mod 2)%nat with 1%nat. zmod. Qed.
Lemma arow_iff k x y p : In p (arow k x y) <-> snd p = y /\ (fst p - x) mod 6 = 0 /\ x <= fst p /\ fst p < x + 6 * Z.of_nat k.
Proof. rewrite In_arow. apply and_iff_compat_l. split.
  - intros (j & Hj & ->). zmod.
  - intros (H & H1 & H2). exists (Z.to_nat ((fst p - x) / 6)). zmod. Qed.

(** arithmetic description of the three sets for d = 2m+1 *)
Definition sod (m : Z) (p : coord) : Prop :=
  let (x, y) := p in
  (1 <= y /\ y mod 3 = 1 /\ ((x - y + 1) mod 6 = 0 \/ (x - y + 1) mod 6 = 2) /\ y - 1 <= x /\ x <= 6 * m - y + 3 /\ (y = 1 -> x <= 6 * m)) \/
  (2 <= y /\ y mod 3 = 2 /\ ((x - y - 1) mod 6 = 0 \/ (x - y - 1) mod 6 = 2) /\ y + 1 <= x /\ x <= 6 * m - y + 1).
Definition soq (m : Z) (p : coord) : Prop :=
  let (x, y) := p in 3 <= y /\ y mod 3 = 0 /\ (x - y - 1) mod 6 = 0 /\ y + 1 <= x /\ x <= 6 * m - y + 1.
Definition soo (m : Z) (p : coord) : Prop :=
  let (x, y) := p in
  (y = 0 /\ x mod 6 = 4 /\ 0 <= x /\ x <= 6 * m - 2) \/
  (3 <= y /\ y mod 6 = 3 /\ (x - y + 2) mod 6 = 0 /\ y - 2 <= x /\ x <= 6 * m - y - 2) \/
  (6 <= y /\ y mod 6 = 0 /\ (x - y - 4) mod 6 = 0 /\ y + 4 <= x /\ x <= 6 * m - y + 4).

Lemma In_Sl r : forall b p, In p (Sl r b) <-> (let (x, y) := p in 3 * Z.of_nat b + 3 <= y /\ y mod 3 = 0 /\ (x - y - 1) mod 6 = 0 /\ y + 1 <= x /\ x <= 6 * (Z.of_nat r + Z.of_nat b) - y + 1).
Proof. induction r as [|r IH]; intros b [x y]; cbn [Sl].
  - split; [easy|]. intros. lia.
  - rewrite in_app_iff, IH, arow_iff. cbn [fst snd]. split.
    + intros [(-> & H1 & H2 & H3)|H]; [|lia]. split; [lia|]. split; [zmod|]. split; [zmod|]. split; [lia|]. zmod.
    + intros (H1 & H2 & H3 & H4 & H5). destruct (Z.eq_dec y (3 * Z.of_nat b + 3)) as [->|]; [left|right]; [split; [reflexivity|split; [zmod|split; [zmod|]]]; zmod|]. split; [zmod|]. split; [lia|]. split; [lia|]. lia. Qed.
Lemma In_Ol r : forall b p, In p (Ol r b) <-> (let (x, y) := p in 3 * Z.of_nat b + 3 <= y /\ y mod 3 = 0 /\ (x - octx y) mod 6 = 0 /\ octx y <= x /\ x < octx y + 6 * (Z.of_nat r + Z.of_nat b) - 2 * y + 6).
Proof. induction r as [|r IH]; intros b [x y]; cbn [Ol].
  - split; [easy|]. intros (H1 & H2 & H3 & H4 & H5). zmod.
  - rewrite in_app_iff, IH, arow_iff. cbn [fst snd]. split.
    + intros [(-> & H1 & H2 & H3)|H]; [|lia]. split; [lia|]. split; [zmod|]. split; [exact H1|]. split; [lia|]. lia.
    + intros (H1 & H2 & H3 & H4 & H5). destruct (Z.eq_dec y (3 * Z.of_nat b + 3)) as [->|]; [left|right]; [split; [reflexivity|split; [exact H3|split; lia]]|]. split; [zmod|]. split; [lia|]. split; [exact H3|]. lia. Qed.
Lemma In_Dl2 r : forall b p, (1 <= b)%nat -> In p (Dl (2 * r + 2) r b) <->
  (let (x, y) := p in
   (3 * Z.of_nat b + 1 <= y /\ y mod 3 = 1 /\ ((x - y + 1) mod 6 = 0 \/ (x - y + 1) mod 6 = 2) /\ y - 1 <= x /\ x <= 6 * (Z.of_nat r + Z.of_nat b) - y + 3) \/
   (3 * Z.of_nat b + 2 <= y /\ y mod 3 = 2 /\ ((x - y - 1) mod 6 = 0 \/ (x - y - 1) mod 6 = 2) /\ y + 1 <= x /\ x <= 6 * (Z.of_nat r + Z.of_nat b) - y + 1)).
Proof. induction r as [|r IH]; intros b [x y] Hb.
  - change (Dl (2 * 0 + 2) 0 b) with (drow (2 * 1) (3 * Z.of_nat b) (3 * Z.of_nat b + 1) ++ []). rewrite app_nil_r, drow_iff. cbn [fst snd]. split.
    + intros (-> & H1 & H2 & H3). left. split; [lia|]. split; [zmod|]. split; [|zmod]. replace (x - (3 * Z.of_nat b + 1) + 1) with (x - 3 * Z.of_nat b) by lia. exact H1.
    + intros [(H1 & H2 & H3 & H4 & H5)|(H1 & H2 & H3 & H4 & H5)]; [|exfalso; zmod].
      assert (y = 3 * Z.of_nat b + 1) by zmod. subst y. split; auto. replace (x - (3 * Z.of_nat b + 1) + 1) with (x - 3 * Z.of_nat b) in H3 by lia. split; auto. lia.
  - cbn [Dl]. replace (2 * S r + 2)%nat with (2 * S (S r))%nat by lia. replace (2 * S r)%nat with (2 * r + 2)%nat at 2 by lia. rewrite !in_app_iff, IH, !drow_iff by lia. cbn [fst snd]. split.
    + intros [(-> & H1 & H2 & H3)|[(-> & H1 & H2 & H3)|[H|H]]].
      * left. split; [lia|]. split; [zmod|]. split; [|zmod]. replace (x - (3 * Z.of_nat b + 1) + 1) with (x - 3 * Z.of_nat b) by lia. exact H1.
      * right. split; [lia|]. split; [zmod|]. split; [|zmod]. replace (x - (3 * Z.of_nat b + 2) - 1) with (x - (3 * Z.of_nat b + 3)) by lia. exact H1.
      * left. intuition lia.
      * right. intuition lia.
    + intros [(H1 & H2 & H3 & H4 & H5)|(H1 & H2 & H3 & H4 & H5)].
      * destruct (Z.eq_dec y (3 * Z.of_nat b + 1)) as [->|].
        -- left. split; auto. replace (x - (3 * Z.of_nat b + 1) + 1) with (x - 3 * Z.of_nat b) in H3 by lia. split; auto. split; [lia|]. zmod.
        -- right. right. left. split; [zmod|]. split; [lia|]. split; [exact H3|]. lia.
      * destruct (Z.eq_dec y (3 * Z.of_nat b + 2)) as [->|].
        -- right. left. split; auto. replace (x - (3 * Z.of_nat b + 2) - 1) with (x - (3 * Z.of_nat b + 3)) in H3 by lia. split; auto. split; [lia|]. zmod.
        -- right. right. right. split; [zmod|]. split; [lia|]. split; [exact H3|]. lia. Qed.

Lemma In_so_data m p : (1 <= m)%nat -> In p (Dl (2 * m + 1) m 0) <-> sod (Z.of_nat m) p.
Proof. intros Hm. destruct m as [|r]; [lia|]. destruct p as [x y]. cbn [Dl]. replace (2 * S r)%nat with (2 * r + 2)%nat at 3 by lia.
  rewrite !in_app_iff, In_Dl2, drow1_iff, drow_iff by lia. cbn [fst snd]. unfold sod. split.
  - intros [(-> & H1 & H2 & H3)|[(-> & H1 & H2 & H3)|[H|H]]].
    + left. split; [lia|]. split; [reflexivity|]. split; [|zmod]. replace (x - (3 * Z.of_nat 0 + 1) + 1) with (x - 3 * Z.of_nat 0) by lia. exact H1.
    + right. split; [lia|]. split; [reflexivity|]. split; [|zmod]. replace (x - (3 * Z.of_nat 0 + 2) - 1) with (x - (3 * Z.of_nat 0 + 3)) by lia. exact H1.
    + left. destruct H as (A & B & C & D & F). split; [lia|]. split; [exact B|]. split; [exact C|]. lia.
    + right. destruct H as (A & B & C & D & F). split; [lia|]. split; [exact B|]. split; [exact C|]. lia.
  - intros [(H1 & H2 & H3 & H4 & H5 & H6)|(H1 & H2 & H3 & H4 & H5)].
    + destruct (Z.eq_dec y 1) as [->|].
      * left. split; [lia|]. replace (x - 1 + 1) with (x - 3 * Z.of_nat 0) in H3 by lia. split; [exact H3|lia].
      * right. right. left. split; [zmod|]. split; [exact H2|]. split; [exact H3|]. lia.
    + destruct (Z.eq_dec y 2) as [->|].
      * right. left. split; [lia|]. replace (x - 2 - 1) with (x - (3 * Z.of_nat 0 + 3)) in H3 by lia. split; auto. zmod.
      * right. right. right. split; [zmod|]. split; [exact H2|]. split; [exact H3|]. lia. Qed.
Lemma In_so_sq m p : In p (Sl m 0) <-> soq (Z.of_nat m) p.
Proof. rewrite In_Sl. destruct p as [x y]. unfold soq. cbn [Z.of_nat]. rewrite Z.mul_0_r, Z.add_0_r. reflexivity. Qed.
Lemma In_so_oct m p : In p (Bl m ++ Ol m 0) <-> soo (Z.of_nat m) p.
Proof. rewrite in_app_iff, In_Ol. unfold Bl. rewrite arow_iff. destruct p as [x y]. unfold soo, octx. cbn [fst snd]. split.
  - intros [(-> & H1 & H2 & H3)|(H1 & H2 & H3 & H4 & H5)]; [left; split; [reflexivity|zmod]|].
    right. destruct (Z.eqb_spec (y mod 2) 0).
    + right. split; [zmod|]. split; [zmod|]. split; [zmod|]. zmod.
    + left. split; [zmod|]. split; [zmod|]. split; [zmod|]. zmod.
  - intros [(-> & H1 & H2 & H3)|[(H1 & H2 & H3 & H4 & H5)|(H1 & H2 & H3 & H4 & H5)]].
    + left. split; [reflexivity|zmod].
    + right. replace (y mod 2 =? 0) with false by (symmetry; apply Z.eqb_neq; zmod). split; [zmod|]. split; [zmod|]. split; [zmod|]. zmod.
    + right. replace (y mod 2 =? 0) with true by (symmetry; apply Z.eqb_eq; zmod). split; [zmod|]. split; [zmod|]. split; [zmod|]. zmod. Qed.

(** *** no repetitions, sizes *)
Lemma NoDup_map_inj {A B} (f : A -> B) l : (forall a b, f a = f b -> a = b) -> NoDup l -> NoDup (map f l).
Proof. intros HI. induction 1 as [|a l Hn _ IH]; cbn; constructor; auto. intros H. apply in_map_iff in H. destruct H as (b & E & Hb). apply HI in E. congruence. Qed.
Lemma NoDup_drow c x y : NoDup (drow c x y).
Proof. apply NoDup_map_inj; [|apply seq_NoDup]. intros a b H. apply (f_equal fst) in H; cbn [fst] in H. apply dpos_inj. lia. Qed.
Lemma NoDup_arow c x y : NoDup (arow c x y).
Proof. apply NoDup_map_inj; [|apply seq_NoDup]. intros a b H. apply (f_equal fst) in H; cbn [fst] in H. lia. Qed.
Lemma Dl_y r : forall c b p, In p (Dl c r b) -> 3 * Z.of_nat b + 1 <= snd p.
Proof. induction r as [|r IH]; intros c b p; cbn [Dl]; rewrite !in_app_iff, !In_drow.
  - intros [(-> & _)|[(-> & _)|[]]]; lia.
  - intros [(-> & _)|[(-> & _)|H]]; [lia|lia|]. apply IH in H. lia. Qed.
Lemma NoDup_Dl r : forall c b, NoDup (Dl c r b).
Proof. induction r as [|r IH]; intros c b; cbn [Dl]; (apply NoDup_app_i; [apply NoDup_drow| |]).
  - rewrite app_nil_r. apply NoDup_drow.
  - intros p H1 H2. rewrite app_nil_r in H2. apply In_drow in H1, H2. lia.
  - apply NoDup_app_i; [apply NoDup_drow|apply IH|]. intros p H1 H2. apply In_drow in H1. apply Dl_y in H2. lia.
  - intros p H1 H2. apply In_drow in H1. apply in_app_iff in H2. rewrite In_drow in H2. destruct H2 as [H2|H2]; [lia|]. apply Dl_y in H2. lia. Qed.
Lemma NoDup_Sl r : forall b, NoDup (Sl r b).
Proof. induction r as [|r IH]; intros b; cbn [Sl]; [constructor|]. apply NoDup_app_i; auto using NoDup_arow. intros [x y] H1 H2. apply In_arow in H1. apply In_Sl in H2. cbn [fst snd] in H1. lia. Qed.
Lemma NoDup_Ol r : forall b, NoDup (Ol r b).
Proof. induction r as [|r IH]; intros b; cbn [Ol]; [constructor|]. apply NoDup_app_i; auto using NoDup_arow. intros [x y] H1 H2. apply In_arow in H1. apply In_Ol in H2. cbn [fst snd] in H1. lia. Qed.
Lemma NoDup_BOl m : NoDup (Bl m ++ Ol m 0).
Proof. apply NoDup_app_i; auto using NoDup_Ol. - apply NoDup_arow. - intros [x y] H1 H2. apply In_arow in H1. apply In_Ol in H2. cbn [fst snd] in H1. lia. Qed.

Lemma Dl_len r : forall c b, length (Dl c r b) = (c + 2 * r * r + 2 * r)%nat.
Proof. induction r as [|r IH]; intros c b; cbn [Dl]; rewrite !app_length; unfold drow; rewrite !map_length, !seq_length.
  - cbn. lia.
  - rewrite IH. lia. Qed.
Lemma Sl_len r : forall b, (2 * length (Sl r b) = r * r + r)%nat.
Proof. induction r as [|r IH]; intros b; cbn [Sl]; [reflexivity|]. rewrite app_length. unfold arow. rewrite map_length, seq_length. specialize (IH (S b)). lia. Qed.
Lemma Ol_len r : forall b, (2 * length (Ol r b) = r * r + r)%nat.
Proof. induction r as [|r IH]; intros b; cbn [Ol]; [reflexivity|]. rewrite app_length. unfold arow. rewrite map_length, seq_length. specialize (IH (S b)). lia. Qed.

Lemma so_add_qubits_lists m : (1 <= m)%nat -> so_add_qubits (2 * Z.of_nat m + 1) = mkSo (Dl (2 * m + 1) m 0) (Sl m 0) (Bl m ++ Ol m 0).
Proof. intros Hm. rewrite so_add_qubits_eq by auto. rewrite !sunion_new; auto using NoDup_Dl, NoDup_Sl, NoDup_BOl. Qed.
