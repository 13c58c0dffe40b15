(** * FlagProofs3: the gadgets the code builds, as event sequences; which weights are supported *)
From Verif Require Export FlagProofs2.
Local Open Scope nat_scope.

(** the measurements of a circuit: measured qubit and classical bit *)
Definition meas_bits (l : list ins) : list (nat * nat) := flat_map (fun i => match i with IM q b => [(q, b)] | _ => [] end) l.
Lemma meas_bits_app l m : meas_bits (l ++ m) = meas_bits l ++ meas_bits m.
Proof. apply flat_map_app. Qed.
Definition close_bits (evs : list ev) : list (nat * nat) := flat_map (fun e => match e with EC f m => [(f, m)] | _ => [] end) evs.
Lemma comp_bits z a evs : meas_bits (flat_map (comp z a) evs) = close_bits evs.
Proof. induction evs as [|e evs IH]; auto. cbn [flat_map close_bits]. rewrite meas_bits_app, IH. fold (close_bits evs). f_equal. now destruct e, z. Qed.
Lemma gadget_bits z a b evs : meas_bits (gadget z a b evs) = close_bits evs ++ [(a, b)].
Proof. unfold gadget. rewrite !meas_bits_app, comp_bits. now destruct z. Qed.

(** the gadget with k flags appended to circuit qc yields qc' *)
Record builds (qc : qcirc) (stab : list nat) (a b : nat) (z : bool) (qc' : qcirc) (k : nat) (evs : list ev) : Prop := {
  bd_ins : qc_ins qc' = qc_ins qc ++ gadget z a b evs;
  bd_nq : qc_nq qc' = qc_nq qc + k;
  bd_nc : qc_nc qc' = qc_nc qc + k;
  bd_ok : ev_ok (seq (qc_nq qc) k) [] evs;
  bd_datas : datas evs = stab;
  bd_bits : Permutation.Permutation (close_bits evs) (combine (seq (qc_nq qc) k) (seq (qc_nc qc) k)) }.

Lemma comp_datas z a l : flat_map (comp z a) (map ED l) = map (fun q => ancilla_cnot z q a) l.
Proof. induction l as [|q l IH]; auto. cbn [map flat_map comp app]. now rewrite IH. Qed.
Lemma datas_map l : datas (map ED l) = l.
Proof. induction l as [|q l IH]; auto. cbn. fold (datas (map ED l)). now rewrite IH. Qed.
Lemma close_map l : close_bits (map ED l) = [].
Proof. induction l as [|q l IH]; auto. Qed.
Lemma close_app e1 e2 : close_bits (e1 ++ e2) = close_bits e1 ++ close_bits e2.
Proof. apply flat_map_app. Qed.
Lemma ok_datas l fresh opn evs : ev_ok fresh opn evs -> ev_ok fresh opn (map ED l ++ evs).
Proof. intros H. induction l; auto. cbn. now constructor. Qed.
Lemma ok_close_hd f m fresh o2 evs : ev_ok fresh o2 evs -> ev_ok fresh (f :: o2) (EC f m :: evs).
Proof. intros H. apply (ok_close f m fresh [] o2 evs H). Qed.
Lemma ok_close_snd f m fresh g o2 evs : ev_ok fresh (g :: o2) evs -> ev_ok fresh (g :: f :: o2) (EC f m :: evs).
Proof. intros H. apply (ok_close f m fresh [g] o2 evs H). Qed.
Lemma ok_close_trd f m fresh g h o2 evs : ev_ok fresh (g :: h :: o2) evs -> ev_ok fresh (g :: h :: f :: o2) (EC f m :: evs).
Proof. intros H. apply (ok_close f m fresh [g; h] o2 evs H). Qed.

Lemma unflagged_builds qc stab a b z : stab <> [] -> exists qc', measure_stab_unflagged qc stab a b z = Ret qc' /\ builds qc stab a b z qc' 0 (map ED stab).
Proof. intros N. destruct stab as [|s0 rest]; [contradiction|]. eexists. split; [reflexivity|]. split; cbn [qc_ins qc_nq qc_nc emit].
  - unfold gadget. rewrite comp_datas. f_equal. destruct z; cbn [app ancilla_cnot]; auto. cbn [map]. rewrite <- app_assoc. reflexivity.
  - lia.
  - lia.
  - rewrite <- (app_nil_r (map ED _)). apply ok_datas. constructor.
  - apply datas_map.
  - rewrite close_map. constructor. Qed.
Definition one_flag_evs (stab : list nat) (f m : nat) : list ev := [ED (hd 0 stab); EO f] ++ map ED (removelast (tl stab)) ++ [EC f m; ED (last stab 0)].
Lemma one_ok qc stab : ev_ok (seq (qc_nq qc) 1) [] (one_flag_evs stab (qc_nq qc) (qc_nc qc)).
Proof. cbn [seq one_flag_evs app]. constructor. constructor. apply ok_datas. apply ok_close_hd. constructor. constructor. Qed.
Lemma one_ins qc stab a b z : stab <> [] -> exists qc', measure_stab_one_flagged qc stab a b z = Ret qc' /\ qc_nq qc' = qc_nq qc + 1 /\ qc_nc qc' = qc_nc qc + 1 /\ qc_ins qc' = qc_ins qc ++ gadget z a b (one_flag_evs stab (qc_nq qc) (qc_nc qc)).
Proof. intros N. destruct stab as [|s0 rest]; [contradiction|]. eexists. split; [reflexivity|]. cbn [qc_ins qc_nq qc_nc emit add_regs]. split; [lia|]. split; [lia|]. f_equal. unfold gadget. f_equal.
  unfold one_flag_evs. cbn [hd tl]. rewrite !flat_map_app, comp_datas. cbn [flat_map comp]. rewrite <- !app_assoc. destruct z; reflexivity. Qed.
Lemma removelast_last_eq {A} (l : list A) d : l <> [] -> removelast l ++ [last l d] = l.
Proof. intros N. symmetry. now apply app_removelast_last. Qed.
Lemma one_datas stab f m : 2 <= length stab -> datas (one_flag_evs stab f m) = stab.
Proof. intros L. destruct stab as [|s0 [|s1 rest]]; cbn [length] in L; try lia. unfold one_flag_evs. rewrite !datas_app, datas_map. cbn [hd tl datas flat_map app]. f_equal. change (last (s0 :: s1 :: rest) 0) with (last (s1 :: rest) 0). now apply removelast_last_eq. Qed.
Lemma one_builds qc stab a b z : 2 <= length stab -> exists qc', measure_stab_one_flagged qc stab a b z = Ret qc' /\ builds qc stab a b z qc' 1 (one_flag_evs stab (qc_nq qc) (qc_nc qc)).
Proof. intros L. destruct (one_ins qc stab a b z) as (qc' & E & Q & C & I); [intros ->; cbn in L; lia|]. exists qc'. split; auto. split; auto.
  - apply one_ok.
  - now apply one_datas.
  - unfold one_flag_evs. rewrite !close_app, close_map. cbn. apply Permutation.Permutation_refl. Qed.

Ltac fin_ok := repeat first [apply ok_nil | apply ok_data | apply ok_open | apply ok_close_hd | apply ok_close_snd | apply ok_close_trd].
Ltac destr_len stab H := repeat (destruct stab as [|? stab]; cbn [length] in H; try discriminate H; try lia).
Definition evs4 (s : list nat) f m := let q i := nth i s 0 in [ED (q 0); EO f; ED (q 1); ED (q 2); EC f m; ED (q 3)].
Definition evs6 (s : list nat) f m := let q i := nth i s 0 in [ED (q 0); EO (f + 0); ED (q 1); EO (f + 1); ED (q 2); ED (q 3); EC (f + 0) (m + 0); ED (q 4); EC (f + 1) (m + 1); ED (q 5)].
Definition evs8 (s : list nat) f m := let q i := nth i s 0 in [ED (q 0); EO (f + 0); ED (q 1); EO (f + 1); ED (q 2); ED (q 3); EO (f + 2); ED (q 4); ED (q 5); EC (f + 0) (m + 0); ED (q 6); EC (f + 2) (m + 2); EC (f + 1) (m + 1); ED (q 7)].
Definition evs5 (s : list nat) f m := let q i := nth i s 0 in [ED (q 0); EO (f + 0); ED (q 1); EO (f + 1); ED (q 2); EC (f + 0) m; ED (q 3); EC (f + 1) (m + 1); ED (q 4)].
Definition evs6' (s : list nat) f m := let q i := nth i s 0 in [ED (q 0); EO (f + 0); ED (q 1); EO (f + 1); ED (q 2); ED (q 3); EC (f + 0) m; ED (q 4); EC (f + 1) (m + 1); ED (q 5)].
Lemma seq2 f : seq f 2 = [f + 0; f + 1].
Proof. cbn. rewrite Nat.add_0_r, Nat.add_1_r. reflexivity. Qed.
Lemma seq3 f : seq f 3 = [f + 0; f + 1; f + 2].
Proof. cbn. rewrite Nat.add_0_r, Nat.add_1_r. repeat f_equal. lia. Qed.

Lemma four_builds qc stab a b z : length stab = 4 -> exists qc', measure_flagged_4 qc stab a b z = Ret qc' /\ builds qc stab a b z qc' 1 (evs4 stab (qc_nq qc) (qc_nc qc)).
Proof. intros L. destr_len stab L. eexists. split; [reflexivity|]. split; cbn [qc_ins qc_nq qc_nc emit add_regs].
  - f_equal. now destruct z.
  - lia.
  - lia.
  - cbn [seq evs4]. fin_ok.
  - reflexivity.
  - apply Permutation.Permutation_refl. Qed.
Lemma six_builds qc stab a b z : length stab = 6 -> exists qc', measure_flagged_6 qc stab a b z = Ret qc' /\ builds qc stab a b z qc' 2 (evs6 stab (qc_nq qc) (qc_nc qc)).
Proof. intros L. destr_len stab L. eexists. split; [reflexivity|]. split; cbn [qc_ins qc_nq qc_nc emit add_regs].
  - f_equal. now destruct z.
  - lia.
  - lia.
  - rewrite seq2. cbn [evs6]. fin_ok.
  - reflexivity.
  - rewrite !seq2. apply Permutation.Permutation_refl. Qed.
Lemma eight_builds qc stab a b z : length stab = 8 -> exists qc', measure_flagged_8 qc stab a b z = Ret qc' /\ builds qc stab a b z qc' 3 (evs8 stab (qc_nq qc) (qc_nc qc)).
Proof. intros L. destr_len stab L. eexists. split; [reflexivity|]. split; cbn [qc_ins qc_nq qc_nc emit add_regs].
  - f_equal. now destruct z.
  - lia.
  - lia.
  - rewrite seq3. cbn [evs8]. fin_ok.
  - reflexivity.
  - rewrite !seq3. cbn. apply Permutation.perm_skip. apply Permutation.perm_swap. Qed.
Lemma two5_builds qc stab a b z : length stab = 5 -> exists qc', measure_stab_two_flagged qc stab a b z = Ret qc' /\ builds qc stab a b z qc' 2 (evs5 stab (qc_nq qc) (qc_nc qc)).
Proof. intros L. destr_len stab L. eexists. split; [reflexivity|]. split; cbn [qc_ins qc_nq qc_nc emit add_regs].
  - f_equal. now destruct z.
  - reflexivity.
  - reflexivity.
  - rewrite seq2. cbn [evs5]. fin_ok.
  - reflexivity.
  - rewrite !seq2. cbn. rewrite !Nat.add_0_r. apply Permutation.Permutation_refl. Qed.
Lemma two6_builds qc stab a b z : length stab = 6 -> exists qc', measure_stab_two_flagged qc stab a b z = Ret qc' /\ builds qc stab a b z qc' 2 (evs6' stab (qc_nq qc) (qc_nc qc)).
Proof. intros L. destr_len stab L. eexists. split; [reflexivity|]. split; cbn [qc_ins qc_nq qc_nc emit add_regs].
  - f_equal. now destruct z.
  - reflexivity.
  - reflexivity.
  - rewrite seq2. cbn [evs6']. fin_ok.
  - reflexivity.
  - rewrite !seq2. cbn. rewrite !Nat.add_0_r. apply Permutation.Permutation_refl. Qed.

(** *** the general two-flag gadget runs out of flags *)
Lemma close_outcome z a f0 m0 k cnots flags : two_flag_close z a f0 m0 k cnots flags = Raise IndexError \/ exists l, two_flag_close z a f0 m0 k cnots flags = Ret l.
Proof. unfold two_flag_close, flag_at. destruct ((7 <=? cnots) && Nat.odd cnots); [|right; eexists; reflexivity]. destruct (flags - 1 <? k); [right; eexists; reflexivity|now left]. Qed.
Lemma loop_outcome z a f0 m0 k w qs : forall cnots flags, two_flag_loop z a f0 m0 k w qs cnots flags = Raise IndexError \/
  ((exists r, two_flag_loop z a f0 m0 k w qs cnots flags = Ret r) /\ forall i, i < length qs -> Nat.even (S cnots + i) = true -> S cnots + i < w - 2 -> flags + i < k).
Proof. induction qs as [|q qs IH]; intros cnots flags; cbn [two_flag_loop].
  - right. split; [eexists; reflexivity|]. cbn. lia.
  - assert (G : forall c, pbind (flag_at f0 k flags) (fun f => Ret (flag_init z f ++ [ancilla_cnot z f a])) = c -> c = Raise IndexError \/ ((exists l, c = Ret l) /\ flags < k)).
    { intros c <-. unfold flag_at. destruct (Nat.ltb_spec flags k); cbn; [right; split; eauto|left; auto]. }
    destruct (Nat.even (S cnots) && (S cnots <? w - 2)) eqn:E1.
    + destruct (G _ eq_refl) as [->|[(l1 & ->) Hk]]; [left; reflexivity|]. cbn [pbind].
      change (if (7 <=? S cnots) && Nat.odd (S cnots) then _ else _) with (two_flag_close z a f0 m0 k (S cnots) flags). destruct (close_outcome z a f0 m0 k (S cnots) flags) as [->|(l2 & ->)]; [left; reflexivity|].
      cbn [pbind]. destruct (IH (S cnots) (S flags)) as [->|[(r & ->) P]]; [left; reflexivity|]. right. split; [eexists; reflexivity|].
      intros [|i] Hi Ev Lt; [lia|]. cbn [length] in Hi. specialize (P i ltac:(lia)). replace (S (S cnots) + i) with (S cnots + S i) in P by lia. specialize (P Ev Lt). lia.
    + cbn [pbind]. change (if (7 <=? S cnots) && Nat.odd (S cnots) then _ else _) with (two_flag_close z a f0 m0 k (S cnots) flags). destruct (close_outcome z a f0 m0 k (S cnots) flags) as [->|(l2 & ->)]; [left; reflexivity|].
      cbn [pbind]. destruct (IH (S cnots) (S flags)) as [->|[(r & ->) P]]; [left; reflexivity|]. right. split; [eexists; reflexivity|].
      intros [|i] Hi Ev Lt.
      * rewrite Nat.add_0_r in *. rewrite Ev in E1. cbn [andb] in E1. apply Nat.ltb_ge in E1. lia.
      * cbn [length] in Hi. specialize (P i ltac:(lia)). replace (S (S cnots) + i) with (S cnots + S i) in P by lia. specialize (P Ev Lt). lia. Qed.
Lemma two_large qc stab a b z : 7 <= length stab -> measure_stab_two_flagged qc stab a b z = Raise IndexError.
Proof. intros L. unfold measure_stab_two_flagged. destruct (Nat.leb_spec (length stab) 4) as [H|_]; [lia|].
  remember (length stab) as w eqn:Ew. assert (K : (w = 7 -> (w + 1) / 2 - 1 = 3) /\ 2 < (w + 1) / 2 /\ (8 <= w -> (w + 1) / 2 <= w - 4)).
  { split; [intros ->; reflexivity|split].
    - apply (Nat.lt_le_trans _ ((7 + 1) / 2)); [apply Nat.ltb_lt; reflexivity|]. apply Nat.div_le_mono; lia.
    - intros W. destruct (Nat.le_gt_cases 9 w); [apply Nat.div_le_upper_bound; lia|]. assert (w = 8) as -> by lia. apply Nat.leb_le. reflexivity. }
  destruct K as (K1 & K2 & K3). unfold flag_at at 1 2. destruct (Nat.ltb_spec 0 ((w + 1) / 2 - 1)); [|lia]. destruct (Nat.ltb_spec 1 ((w + 1) / 2 - 1)); [|lia]. cbn [pbind].
  destruct (loop_outcome z a (qc_nq qc) (qc_nc qc) ((w + 1) / 2 - 1) w (firstn (w - 4) (skipn 2 stab)) 2 2) as [->|[_ P]]; [reflexivity|]. exfalso.
  assert (LQ : length (firstn (w - 4) (skipn 2 stab)) = w - 4) by (rewrite firstn_length, skipn_length, <- Ew; lia). rewrite LQ in P.
  destruct (Nat.even w) eqn:E.
  - (* c = w - 4 *) specialize (P (w - 7) ltac:(lia)). replace (3 + (w - 7)) with (w - 4) in P by lia. rewrite Nat.even_sub in P by lia. rewrite E in P. specialize (P eq_refl ltac:(lia)).
    destruct (Nat.eq_dec w 7) as [E7|N7]; [rewrite E7 in E; discriminate|]. lia.
  - specialize (P (w - 6) ltac:(lia)). replace (3 + (w - 6)) with (w - 3) in P by lia. rewrite Nat.even_sub in P by lia. rewrite E in P. specialize (P eq_refl ltac:(lia)). destruct (Nat.eq_dec w 7) as [E7|N7]; lia. Qed.
