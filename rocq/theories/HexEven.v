(** * HexEven: the hexagonal construction at an even distance d = 2m: 3m^2+m qubits, half as many independent checks, so nothing is encoded. *)
From Verif Require Export ColorProofs2.
Local Open Scope Z_scope.

Lemma rows_len0 f m y : (length (hexl f (S (S (S (3 * m)))) y) =
  ((m + 1) * (b3 (f y) 0 + b3 (f y) 1 + b3 (f y) 2)) +
  (m * (b3 (f (S y)) 0 + b3 (f (S y)) 1 + b3 (f (S y)) 2) + (b3 (f (S y)) 0 + b3 (f (S y)) 1)) +
  (m * (b3 (f (S (S y))) 0 + b3 (f (S (S y))) 1 + b3 (f (S (S y))) 2) + b3 (f (S (S y))) 0) +
  length (hexl f (3 * m) (S (S (S y)))))%nat.
Proof. remember (3 * m)%nat as k eqn:Ek. cbn [hexl]. rewrite !app_length.
  replace (S (S (S k))) with (3 * (m + 1))%nat by lia. rewrite rowl_len3.
  replace (S (S k)) with (3 * m + 2)%nat by lia. rewrite rowl_len2.
  replace (S k) with (3 * m + 1)%nat by lia. rewrite rowl_len1. lia. Qed.
Lemma hexl_data_len0 m : forall y, (y mod 3 = 0)%nat -> length (hexl isd (3 * m) y) = (3 * m * m + m)%nat.
Proof. induction m as [|m IH]; intros y Hy; [reflexivity|].
  replace (3 * S m)%nat with (S (S (S (3 * m)))) by lia. rewrite rows_len0.
  pose proof (mod3_next y _ Hy) as Hy1. pose proof (mod3_next _ _ Hy1) as Hy2. pose proof (mod3_next _ _ Hy2) as Hy3. cbn in Hy1, Hy2, Hy3.
  rewrite (IH _ Hy3).
  destruct (b3_isd y 0 Hy ltac:(lia)) as [B _]. destruct (b3_isd (S y) 1 Hy1 ltac:(lia)) as [C _]. destruct (b3_isd (S (S y)) 2 Hy2 ltac:(lia)) as [D _].
  cbn [map] in B, C, D. injection B as -> -> ->. injection C as -> -> ->. injection D as -> -> ->. lia. Qed.
Lemma hexl_anc_len0 m : forall y, (y mod 3 = 0)%nat -> (2 * length (hexl (fun y r => negb (isd y r)) (3 * m) y) = 3 * m * m + m)%nat.
Proof. induction m as [|m IH]; intros y Hy; [reflexivity|].
  replace (3 * S m)%nat with (S (S (S (3 * m)))) by lia. rewrite rows_len0.
  pose proof (mod3_next y _ Hy) as Hy1. pose proof (mod3_next _ _ Hy1) as Hy2. pose proof (mod3_next _ _ Hy2) as Hy3. cbn in Hy1, Hy2, Hy3.
  specialize (IH _ Hy3).
  destruct (b3_isd y 0 Hy ltac:(lia)) as [_ B]. destruct (b3_isd (S y) 1 Hy1 ltac:(lia)) as [_ C]. destruct (b3_isd (S (S y)) 2 Hy2 ltac:(lia)) as [_ D].
  cbn [map] in B, C, D. injection B as -> -> ->. injection C as -> -> ->. injection D as -> -> ->. lia. Qed.

(** a corner of a face that only faces nearer to the left corner of the triangle share *)
Definition lpiv (f : coord) : coord := let (x, y) := f in if x =? y then (x - 1, y - 1) else (x - 2, y).
Lemma lpiv_in f : In (lpiv f) (hex_nb f).
Proof. destruct f as [x y]. unfold lpiv. destruct (x =? y); cbn [hex_nb In]; tauto. Qed.
Lemma lpiv_data M f : hexa M f -> hexd M (lpiv f).
Proof. destruct f as [x y]. intros [(A1 & A2 & A3 & A4) A5]. cbn [fst snd] in *. unfold lpiv, hexd, hexpt. destruct (Z.eqb_spec x y); cbn [fst snd]; zmod. Qed.
Lemma lpiv_up M f g : hexa M f -> hexa M g -> f <> g -> In (lpiv f) (hex_nb g) -> - (fst f + snd f) < - (fst g + snd g).
Proof. destruct f as [x y], g as [x' y']. intros [(A1 & A2 & A3 & A4) A5] [(B1 & B2 & B3 & B4) B5] Hne. cbn [fst snd] in *. unfold lpiv.
  destruct (Z.eqb_spec x y) as [->|Hx]; cbn [hex_nb In]; intros H; repeat (destruct H as [H|H]; [injection H; clear H; intros; try lia; try zmod|]); try contradiction H.
  all: elim Hne; apply f_equal2; lia. Qed.

Section HexEven.
  Variables (d : Z) (data anc : list coord).
  Hypothesis E : hex_enum d data anc.
  Hypothesis Hev : d mod 2 = 0.
  Hypothesis Hpos : 0 < d.
  Let m := Z.to_nat (d / 2).
  Lemma hex_even_n : length data = (3 * m * m + m)%nat.
  Proof. destruct E as [E1 E2]. rewrite (Permutation_length E1), hex_add_qubits_eq. cbn [fst]. unfold hex_data.
    replace (Z.to_nat (d + d / 2)) with (3 * m)%nat by (subst m; Z.div_mod_to_equations; lia). apply hexl_data_len0. reflexivity. Qed.
  Lemma hex_even_nanc : (2 * length anc = 3 * m * m + m)%nat.
  Proof. destruct E as [E1 E2]. rewrite (Permutation_length E2), hex_add_qubits_eq. cbn [snd]. unfold hex_anc.
    replace (Z.to_nat (d + d / 2)) with (3 * m)%nat by (subst m; Z.div_mod_to_equations; lia). apply hexl_anc_len0. reflexivity. Qed.
  Lemma hex_any_rows_indep : indep (length data) (map (frow data) (map hex_nb anc)).
  Proof. rewrite map_map. pose proof (hex_data_nodup d data anc E) as ND.
    apply (indep_pivot _ _ (fun i => match coords_to_idx data (lpiv (nth i anc (0,0)%Z)) with Some q => q | None => 0%nat end) (fun i => - (fst (nth i anc (0,0)%Z) + snd (nth i anc (0,0)%Z)))).
    - rewrite <- map_map. apply frows_wf.
    - intros i Hi. rewrite map_length in Hi. assert (Hf : In (nth i anc (0,0)%Z) anc) by now apply nth_In. set (f := nth i anc (0,0)%Z) in *.
      pose proof (proj1 (hex_anc_iff d data anc E f) Hf) as Af.
      assert (Hp : In (lpiv f) data) by (apply (hex_data_iff d data anc E), lpiv_data; auto).
      destruct (coords_to_idx data (lpiv f)) as [q|] eqn:Eq; [|apply index_from_none in Eq; contradiction].
      apply (cti_spec data _ q ND) in Eq. destruct Eq as [Hq Eq].
      assert (R : forall j, (j < length anc)%nat -> nth q (nth j (map (fun x => frow data (hex_nb x)) anc) []) false = cmem (lpiv f) (hex_nb (nth j anc (0,0)%Z))).
      { intros j Hj. rewrite (nth_indep _ [] (frow data (hex_nb (0,0)%Z))) by now rewrite map_length. rewrite (map_nth (fun x => frow data (hex_nb x))).
        unfold frow. rewrite (nth_indep _ false (cmem (0,0)%Z (hex_nb (nth j anc (0,0)%Z)))) by now rewrite map_length.
        rewrite (map_nth (fun p => cmem p (hex_nb (nth j anc (0,0)%Z)))). now rewrite Eq. }
      split; auto. split.
      + rewrite R by auto. fold f. apply cmem_In, lpiv_in.
      + intros j Hj Hne Ht. rewrite map_length in Hj. rewrite R in Ht by auto. apply cmem_In in Ht.
        apply (lpiv_up (hexM d) f (nth j anc (0,0)%Z)); auto.
        * apply (hex_anc_iff d data anc E). now apply nth_In.
        * intros EE. apply Hne. symmetry. apply (proj1 (NoDup_nth anc (0,0)%Z) (hex_anc_nodup d data anc E)); auto. Qed.
  Lemma hex_even_code L : exists c, HexagonalColorCode L d data anc = Ret c /\ nd_cols (cc_H c) = length data /\
    4 * Z.of_nat (length data) = 3 * d * d + 2 * d /\ (2 * length (nd_rows (cc_H c)) = length data)%nat /\
    sc_n (css_stab (cc_css c)) = length data /\ sc_k (css_stab (cc_css c)) = 0 /\ css_distance (cc_css c) = d /\
    (forall v, in_kernel (length data) (nd_rows (cc_H c)) v -> span (length data) (nd_rows (cc_H c)) v).
  Proof. pose proof (hex_data_nodup d data anc E) as ND. pose proof (hex_faces_nodup anc) as NF. pose proof (hex_faces_even d data anc E) as FE.
    pose proof hex_even_n as Hn. pose proof hex_even_nanc as Ha.
    assert (Em : d = 2 * Z.of_nat m) by (subst m; Z.div_mod_to_equations; lia). assert (Hm : (1 <= m)%nat) by lia. clearbody m.
    assert (NE : map hex_nb anc <> []) by (destruct anc; [cbn in Ha; nia|discriminate]).
    destruct (color_from_faces L d data (map hex_nb anc) ND NF NE Hpos FE) as (c & EC & EH & EL & ED & HX & HZ & CD & CL & Cn & Ck & ECSS).
    pose proof hex_any_rows_indep as I. pose proof (frows_wf data (map hex_nb anc)) as W.
    pose proof (rk_unique (length data) _ (length (map (frow data) (map hex_nb anc))) W (has_rank_indep _ _ W I)) as R.
    exists c. unfold HexagonalColorCode. rewrite hex_layout_eq. split; [exact EC|]. rewrite EH. cbn [nd_cols nd_rows].
    split; [reflexivity|]. split; [rewrite Hn, Em; nia|]. split; [rewrite !map_length; lia|]. split; [exact Cn|].
    split; [rewrite Ck, <- R, !map_length; lia|]. split; [exact CD|].
    intros v Hv. pose proof (rank_nullity _ _ W) as RN. set (K := kernel (length data) (map (frow data) (map hex_nb anc))) in *.
    assert (WK : wf (length data) K) by (apply kernel_wf; auto). assert (IK : indep (length data) K) by (apply kernel_indep; auto).
    assert (LK : length (map (frow data) (map hex_nb anc)) = length K) by (rewrite <- R in RN; rewrite !map_length in *; lia).
    assert (S1 : forall r, In r (map (frow data) (map hex_nb anc)) -> span (length data) K r).
    { intros r Hr. apply kernel_span; auto. split; [unfold wf in W; exact (proj1 (Forall_forall _ _) W r Hr)|]. intros s Hs.
      apply in_map_iff in Hr, Hs. destruct Hr as (F & <- & HF). destruct Hs as (G & <- & HG). rewrite frow_dot; auto. rewrite Forall_forall in NF. auto. }
    apply (indep_full_span (length data) K (length K) _ WK (has_rank_indep _ _ WK IK) W I LK S1). apply kernel_span; auto. Qed.
End HexEven.
