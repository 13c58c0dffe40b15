(** * SoEven: the square-octagon construction at an even distance: one octagon keeps an odd number of its corners. *)
From Verif Require Export SoCode.
Local Open Scope Z_scope.

Lemma In_sadd p l q : In q (sadd p l) <-> q = p \/ In q l.
Proof. unfold sadd. destruct (cmem p l) eqn:E; [apply cmem_In in E|]; rewrite ?in_app_iff; cbn [In]; intuition congruence. Qed.
Lemma NoDup_sadd p l : NoDup l -> NoDup (sadd p l).
Proof. intros H. unfold sadd. destruct (cmem p l) eqn:E; auto. apply NoDup_app_i; auto.
  - repeat constructor. intros [].
  - intros x A [<-|[]]. apply cmem_In in A. congruence. Qed.
Lemma In_sunion l : forall s p, In p (sunion l s) <-> In p l \/ In p s.
Proof. induction l as [|a l IH]; intros s p; cbn [sunion fold_left In]; [tauto|]. fold (sunion l (sadd a s)). rewrite IH, In_sadd. intuition congruence. Qed.
Lemma NoDup_sunion l : forall s, NoDup s -> NoDup (sunion l s).
Proof. induction l as [|a l IH]; intros s H; cbn [sunion fold_left]; auto. fold (sunion l (sadd a s)). apply IH. now apply NoDup_sadd. Qed.

Record so_inv (s : sosets) : Prop := {
  si_d : NoDup (so_data s); si_s : NoDup (so_sq s); si_o : NoDup (so_oct s);
  si_sq : forall x y, In (x, y) (so_sq s) -> (x - y - 1) mod 6 = 0;
  si_oct : forall x y, In (x, y) (so_oct s) -> (x - y - 4) mod 6 = 0 }.

Lemma so_data_loop_inv n x y s : so_inv s -> so_inv (so_data_loop n true x y s).
Proof. intros [A B C D F]. rewrite so_data_row. constructor; cbn [so_data so_sq so_oct]; auto. now apply NoDup_sunion. Qed.
Lemma so_anc_loop_inv n : forall (b : bool) x y s, (x - y - (if b then 1 else 4)) mod 6 = 0 -> so_inv s -> so_inv (so_anc_loop n b x y s).
Proof. induction n as [|n IH]; intros b x y s H I; cbn [so_anc_loop]; auto. apply IH.
  - destruct b; cbn [negb]; Z.div_mod_to_equations; lia.
  - destruct I as [A B C D F]. destruct b; constructor; cbn [so_add_sq so_add_oct so_data so_sq so_oct]; auto; try (now apply NoDup_sadd);
      intros u v Hu; apply In_sadd in Hu; destruct Hu as [Hu|Hu]; auto; injection Hu as -> ->; exact H. Qed.
Lemma so_anc_loop_data n : forall b x y s, so_data (so_anc_loop n b x y s) = so_data s.
Proof. induction n as [|n IH]; intros b x y s; cbn [so_anc_loop]; auto. rewrite IH. now destruct b. Qed.
Lemma so_anc_loop_keep n : forall b x y s p, In p (so_oct s) -> In p (so_oct (so_anc_loop n b x y s)).
Proof. induction n as [|n IH]; intros b x y s p H; cbn [so_anc_loop]; auto. apply IH. destruct b; cbn [so_add_sq so_add_oct so_oct]; auto. apply In_sadd. auto. Qed.
Lemma even_anc_inv n y s : so_inv s -> so_inv (even_ancilla_qubit_row n y s).
Proof. apply so_anc_loop_inv. Z.div_mod_to_equations; lia. Qed.
Lemma odd_anc_inv n y s : so_inv s -> so_inv (odd_ancilla_qubit_row n y s).
Proof. apply so_anc_loop_inv. Z.div_mod_to_equations; lia. Qed.

(** what every round keeps; [y0]: the rows below are finished *)
Record so_later (y0 : Z) (s s' : sosets) : Prop := {
  sl_inv : so_inv s'; sl_data : forall x y, y < y0 -> (In (x, y) (so_data s') <-> In (x, y) (so_data s));
  sl_oct : forall p, In p (so_oct s) -> In p (so_oct s') }.
Lemma so_later_refl y0 s : so_inv s -> so_later y0 s s.
Proof. constructor; auto; tauto. Qed.
Lemma so_later_trans y0 y1 a b c : y0 <= y1 -> so_later y0 a b -> so_later y1 b c -> so_later y0 a c.
Proof. intros Hy [A B C] [D F G]. constructor; auto. intros x y H. rewrite F by lia. auto. Qed.
Lemma so_data_later n x y s : so_inv s -> so_later y s (so_data_loop n true x y s).
Proof. intros I. constructor; [now apply so_data_loop_inv| |]; rewrite so_data_row; cbn [so_data so_oct]; auto.
  intros u v Hv. rewrite In_sunion, In_drow. cbn [fst snd]. intuition lia. Qed.
Lemma so_anc_later n (b : bool) x y s y0 : (x - y - (if b then 1 else 4)) mod 6 = 0 -> so_inv s -> so_later y0 s (so_anc_loop n b x y s).
Proof. intros H I. constructor; [now apply so_anc_loop_inv| |]. - intros. rewrite so_anc_loop_data. tauto. - apply so_anc_loop_keep. Qed.

Lemma so_add_loop_later fuel : forall y_max y xm s, so_inv s -> so_later y s (so_add_loop fuel y_max y xm s).
Proof. induction fuel as [|f IH]; intros y_max y xm s I; cbn [so_add_loop]; [now apply so_later_refl|].
  destruct (y <=? y_max); [|now apply so_later_refl].
  set (xm' := if y =? 1 then xm - 1 else xm - 2). set (s1 := even_data_qubit_row xm y s).
  assert (L1 : so_later y s s1) by (apply so_data_later; auto).
  assert (L2 : so_later y s (fst (if y + 1 <=? y_max then (odd_data_qubit_row xm' (y + 1) s1, y + 1 + 1) else (s1, y + 1))) /\ y < snd (if y + 1 <=? y_max then (odd_data_qubit_row xm' (y + 1) s1, y + 1 + 1) else (s1, y + 1))).
  { destruct (y + 1 <=? y_max); cbn [fst snd]; (split; [|lia]); auto. apply (so_later_trans y (y + 1) _ s1); [lia|auto|]. apply so_data_later. apply L1. }
  destruct (if y + 1 <=? y_max then _ else _) as [s2 y2]. cbn [fst snd] in L2. destruct L2 as [L2 Hy2].
  assert (L3 : so_later y s (fst (if y2 <=? y_max then ((if y2 mod 2 =? 0 then even_ancilla_qubit_row xm' y2 s2 else odd_ancilla_qubit_row xm' y2 s2), y2 + 1) else (s2, y2)))
    /\ y < snd (if y2 <=? y_max then ((if y2 mod 2 =? 0 then even_ancilla_qubit_row xm' y2 s2 else odd_ancilla_qubit_row xm' y2 s2), y2 + 1) else (s2, y2))).
  { destruct (y2 <=? y_max); cbn [fst snd]; (split; [|lia]); auto. apply (so_later_trans y y2 _ s2); [lia|auto|].
    destruct (y2 mod 2 =? 0); (apply so_anc_later; [cbv iota; clear; Z.div_mod_to_equations; lia|apply L2]). }
  destruct (if y2 <=? y_max then _ else _) as [s3 y3]. cbn [fst snd] in L3. destruct L3 as [L3 Hy3].
  apply (so_later_trans y y3 _ s3); [lia|auto|]. apply IH. apply L3. Qed.

Lemma so_inv_start d : so_inv (bottom_row_ancillas d (mkSo [] [] [])).
Proof. rewrite bottom_eq. cbn [so_data so_sq so_oct]. constructor; cbn [so_data so_sq so_oct]; try constructor; try (intros x y []).
  - apply NoDup_sunion. constructor.
  - intros x y H. apply In_sunion in H. destruct H as [H|[]]. unfold Bl in H. apply In_arow in H. cbn [fst snd] in H. destruct H as (-> & j & _ & ->). Z.div_mod_to_equations; lia. Qed.
Lemma so_inv_all d : so_inv (so_add_qubits d).
Proof. unfold so_add_qubits. apply so_add_loop_later, so_inv_start. Qed.

Lemma odd_row_oct n : forall x y s, In (x + 6 * Z.of_nat n, y) (so_oct (so_anc_loop (2 * n + 1) false x y s)).
Proof. induction n as [|n IH]; intros x y s.
  - cbn [so_anc_loop Nat.mul Nat.add so_add_oct so_oct]. apply In_sadd. left. apply f_equal2; lia.
  - replace (2 * S n + 1)%nat with (S (S (2 * n + 1))) by lia. cbn [so_anc_loop negb].
    replace (x + 6 * Z.of_nat (S n)) with (x + 3 + 3 + 6 * Z.of_nat n) by lia. apply IH. Qed.

(** the rows below y = 6 *)
Lemma so_even_low m : (2 <= m)%nat -> let s := so_add_qubits (2 * Z.of_nat m) in
  In (6 * Z.of_nat m - 5, 3) (so_oct s) /\
  forall x y, y < 6 -> (In (x, y) (so_data s) <->
    (y = 1 /\ exists j, (j < 2 * m)%nat /\ x = dpos j) \/ (y = 2 /\ exists j, (j < 2 * m - 1)%nat /\ x = 3 + dpos j) \/
    (y = 4 /\ exists j, (j < 2 * m - 1)%nat /\ x = 3 + dpos j) \/ (y = 5 /\ exists j, (j < 2 * m - 3)%nat /\ x = 6 + dpos j)).
Proof. intros Hm s. subst s. unfold so_add_qubits.
  set (ym := 2 * Z.of_nat m + 2 * Z.of_nat m / 2). assert (Hym : ym = 3 * Z.of_nat m) by (subst ym; Z.div_mod_to_equations; lia). clearbody ym.
  set (s0 := bottom_row_ancillas _ _). assert (I0 : so_inv s0) by apply so_inv_start.
  assert (D0 : so_data s0 = []) by (subst s0; rewrite bottom_eq; reflexivity). clearbody s0.
  replace (Z.to_nat ym) with (S (S (Z.to_nat ym - 2))) by lia. remember (S (Z.to_nat ym - 2)) as fu eqn:Ef. cbn [so_add_loop]. cbn [Z.add Pos.add Pos.succ Z.eqb Pos.eqb].
  change (1 + 1) with 2. change (2 + 1) with 3. change (3 + 1) with 4. change (3 mod 2 =? 0) with false.
  replace (1 <=? ym) with true by (symmetry; apply Z.leb_le; lia). replace (2 <=? ym) with true by (symmetry; apply Z.leb_le; lia). replace (3 <=? ym) with true by (symmetry; apply Z.leb_le; lia).
  cbv iota. subst fu. set (s1 := odd_ancilla_qubit_row _ _ _).
  assert (S1 : so_data s1 = sunion (drow (2 * m - 1) 3 2) (sunion (drow (2 * m) 0 1) []) /\ In (6 * Z.of_nat m - 5, 3) (so_oct s1) /\ so_inv s1).
  { subst s1. split; [|split].
    - unfold odd_ancilla_qubit_row. rewrite so_anc_loop_data. unfold odd_data_qubit_row, even_data_qubit_row. rewrite !so_data_row. cbn [so_data]. rewrite D0.
      replace (Z.to_nat (2 * Z.of_nat m - 1)) with (2 * m - 1)%nat by lia. replace (Z.to_nat (2 * Z.of_nat m)) with (2 * m)%nat by lia. reflexivity.
    - unfold odd_ancilla_qubit_row. replace (Z.to_nat (2 * Z.of_nat m - 1)) with (2 * (m - 1) + 1)%nat by lia.
      replace (6 * Z.of_nat m - 5) with (3 - 2 + 6 * Z.of_nat (m - 1)) by lia. apply odd_row_oct.
    - apply odd_anc_inv. apply so_data_loop_inv. apply so_data_loop_inv. exact I0. }
  clearbody s1. destruct S1 as (D1 & O1 & I1).
  set (f := (Z.to_nat ym - 2)%nat). clearbody f. cbn [so_add_loop]. cbn [Z.add Pos.add Pos.succ Z.eqb Pos.eqb].
  replace (4 <=? ym) with true by (symmetry; apply Z.leb_le; lia). replace (5 <=? ym) with true by (symmetry; apply Z.leb_le; lia). replace (6 <=? ym) with true by (symmetry; apply Z.leb_le; lia).
  change (6 mod 2 =? 0) with true. cbv iota.
  set (s2 := odd_data_qubit_row _ _ _). set (s3 := even_ancilla_qubit_row _ _ s2).
  assert (D2 : so_data s2 = sunion (drow (2 * m - 3) 6 5) (sunion (drow (2 * m - 1) 3 4) (so_data s1)) /\ so_oct s2 = so_oct s1).
  { subst s2. unfold odd_data_qubit_row, even_data_qubit_row. rewrite !so_data_row. cbn [so_data so_oct].
    replace (Z.to_nat (2 * Z.of_nat m - 1 - 2)) with (2 * m - 3)%nat by lia. replace (Z.to_nat (2 * Z.of_nat m - 1)) with (2 * m - 1)%nat by lia. split; reflexivity. }
  assert (I2 : so_inv s2) by (apply so_data_loop_inv; apply so_data_loop_inv; exact I1). clearbody s2. destruct D2 as [D2 O2].
  assert (L : so_later 6 s2 (so_add_loop f ym 7 (2 * Z.of_nat m - 1 - 2) s3)).
  { apply (so_later_trans 6 7 _ s3); [lia| |].
    - unfold s3. apply so_anc_later; auto.
    - apply so_add_loop_later. apply even_anc_inv. exact I2. }
  destruct L as [_ LD LO]. split.
  - apply LO. now rewrite O2.
  - intros x y Hy. rewrite LD by auto. rewrite D2, D1. rewrite !In_sunion, !In_drow. cbn [fst snd In]. intuition. Qed.

(** the corner count *)
Lemma dpos_even j : dpos (2 * j) = 6 * Z.of_nat j.
Proof. unfold dpos. rewrite Nat.mul_comm, Nat.mod_mul by lia. lia. Qed.
Lemma dpos_odd j : dpos (2 * j + 1) = 6 * Z.of_nat j + 2.
Proof. unfold dpos. replace (2 * j + 1)%nat with (1 + j * 2)%nat by lia. rewrite Nat.mod_add by lia. change (1 mod 2)%nat with 1%nat. lia. Qed.

Lemma so_even_corner data m : (1 <= m)%nat -> (forall p, In p data <-> In p (so_data (so_add_qubits (2 * Z.of_nat m)))) ->
  Nat.odd (length (overlap data (oct_nb (6 * Z.of_nat m - 5, 3)) (oct_nb (6 * Z.of_nat m - 5, 3)))) = true.
Proof. intros Hm HD.
  assert (EQ : overlap data (oct_nb (6 * Z.of_nat m - 5, 3)) (oct_nb (6 * Z.of_nat m - 5, 3)) = filter (fun p => cmem p data) (oct_nb (6 * Z.of_nat m - 5, 3))).
  { unfold overlap. apply filter_ext_in. intros p Hp. apply cmem_In in Hp. now rewrite Hp, andb_true_r. }
  rewrite EQ. clear EQ. destruct (Nat.eq_dec m 1) as [->|Hm1].
  - rewrite (filter_ext _ (fun p => cmem p (so_data (so_add_qubits 2)))); [vm_compute; reflexivity|].
    intros p. apply eq_true_iff_eq. rewrite !cmem_In. apply HD.
  - destruct (so_even_low m ltac:(lia)) as [_ LD]. cbv zeta in LD.
    assert (Y : forall x y, y < 6 -> ((y = 1 /\ exists j, (j < 2 * m)%nat /\ x = dpos j) \/ (y = 2 /\ exists j, (j < 2 * m - 1)%nat /\ x = 3 + dpos j) \/
      (y = 4 /\ exists j, (j < 2 * m - 1)%nat /\ x = 3 + dpos j) \/ (y = 5 /\ exists j, (j < 2 * m - 3)%nat /\ x = 6 + dpos j)) -> cmem (x, y) data = true)
      by (intros x y Hy H; apply cmem_In, HD, LD; auto).
    assert (N : cmem (6 * Z.of_nat m - 5 + 1, 3 + 2) data = false).
    { apply not_true_iff_false. rewrite cmem_In, HD, LD by lia. intros [[? _]|[[? _]|[[? _]|[_ (j & Hj & Ej)]]]]; try lia.
      assert (j = (2 * (m - 2) + 1)%nat) by (apply dpos_inj; rewrite dpos_odd; lia). lia. }
    cbn [oct_nb filter]. rewrite N.
    rewrite (Y (6 * Z.of_nat m - 5 - 2) (3 - 1)), (Y (6 * Z.of_nat m - 5 - 1) (3 - 2)), (Y (6 * Z.of_nat m - 5 + 1) (3 - 2)), (Y (6 * Z.of_nat m - 5 + 2) (3 - 1)),
      (Y (6 * Z.of_nat m - 5 + 2) (3 + 1)), (Y (6 * Z.of_nat m - 5 - 1) (3 + 2)), (Y (6 * Z.of_nat m - 5 - 2) (3 + 1)); try lia; [reflexivity| | | | | | |].
    + right. right. left. split; [lia|]. exists (2 * (m - 2) + 1)%nat. rewrite dpos_odd. lia.
    + right. right. right. split; [lia|]. exists (2 * (m - 2))%nat. rewrite dpos_even. lia.
    + right. right. left. split; [lia|]. exists (2 * (m - 1))%nat. rewrite dpos_even. lia.
    + right. left. split; [lia|]. exists (2 * (m - 1))%nat. rewrite dpos_even. lia.
    + left. split; [lia|]. exists (2 * (m - 1) + 1)%nat. rewrite dpos_odd. lia.
    + left. split; [lia|]. exists (2 * (m - 1))%nat. rewrite dpos_even. lia.
    + right. left. split; [lia|]. exists (2 * (m - 2) + 1)%nat. rewrite dpos_odd. lia. Qed.

Lemma so_even_raises L d data sq oct : 2 <= d -> d mod 2 = 0 -> so_enum d data sq oct -> exists e, SquareOctagonColorCode L d data sq oct = Raise e.
Proof. intros Hd He [E1 E2 E3]. unfold enumerates in *. pose proof (so_inv_all d) as [A B C D F].
  assert (Em : exists m, (1 <= m)%nat /\ d = 2 * Z.of_nat m) by (exists (Z.to_nat (d / 2)); Z.div_mod_to_equations; lia). destruct Em as (m & Hm & ->).
  assert (ND : NoDup data) by (apply (Permutation_NoDup (Permutation_sym E1)); auto).
  assert (NO : NoDup oct) by (apply (Permutation_NoDup (Permutation_sym E3)); auto).
  assert (HO : In (6 * Z.of_nat m - 5, 3) oct).
  { apply (Permutation_in _ (Permutation_sym E3)). destruct (Nat.eq_dec m 1) as [->|]; [vm_compute; tauto|]. apply so_even_low. lia. }
  assert (CNT : length (fold_left (fun l p => sadd p l) oct sq) = (length sq + length oct)%nat).
  { change (fold_left (fun l p => sadd p l) oct sq) with (sunion oct sq). rewrite sunion_new; auto; [apply app_length|].
    intros [x y] H1 H2. apply (Permutation_in _ E3) in H1. apply (Permutation_in _ E2) in H2. apply D in H2. apply F in H1. Z.div_mod_to_equations; lia. }
  unfold SquareOctagonColorCode, ColorCode. rewrite so_layout_eq by exact CNT. rewrite flayout_H by auto.
  set (Fs := map sq_nb sq ++ map oct_nb oct). set (H := mkNd (length data) (map (frow data) Fs)).
  assert (OK : opt_ok (Some H)) by (cbn; unfold nd_ok; cbn; apply frows_wf).
  destruct (CSSCode L (2 * Z.of_nat m) (Some H) (Some H) None None) as [c|e] eqn:EC; [|eexists; reflexivity]. exfalso.
  destruct (proj1 (CSSCode_iff L (2 * Z.of_nat m) (Some H) (Some H) None None OK OK) (ex_intro _ c EC)) as (_ & _ & O & _).
  cbn [hx_of hz_of H nd_rows] in O. set (f := oct_nb (6 * Z.of_nat m - 5, 3)).
  assert (InF : In (frow data f) (map (frow data) Fs)) by (apply in_map; unfold Fs; apply in_or_app; right; now apply in_map).
  specialize (O (frow data f) (frow data f) InF InF). rewrite frow_dot in O; [|auto|apply oct_nb_NoDup]. unfold f in O. rewrite so_even_corner in O; [discriminate|auto|].
  intros p. split; apply Permutation_in; [auto|now apply Permutation_sym]. Qed.
