(** * ColorProofs2: codes built from faces; the hexagonal family. *)
From Verif Require Export HexProofs.

Lemma color_from_faces L d data Fs : NoDup data -> Forall (@NoDup coord) Fs -> Fs <> [] -> (0 < d)%Z ->
  (forall F G, In F Fs -> In G Fs -> Nat.odd (length (overlap data F G)) = false) ->
  exists c, ColorCode L d (length data) (flayout data Fs) = Ret c /\
    cc_H c = mkNd (length data) (map (frow data) Fs) /\ cc_lay c = flayout data Fs /\ cc_distance c = d /\
    css_Hx (cc_css c) = cc_H c /\ css_Hz (cc_css c) = cc_H c /\ css_distance (cc_css c) = d /\
    cc_L c = css_Lz (cc_css c) /\ sc_n (css_stab (cc_css c)) = length data /\
    sc_k (css_stab (cc_css c)) = (Z.of_nat (length data) - 2 * Z.of_nat (rk (length data) (map (frow data) Fs)))%Z /\
    CSSCode L d (Some (cc_H c)) (Some (cc_H c)) None None = Ret (cc_css c).
Proof. intros ND HF HN Hd HO. unfold ColorCode. rewrite flayout_H by auto.
  set (H := mkNd (length data) (map (frow data) Fs)).
  assert (OK : opt_ok (Some H)) by (cbn; unfold nd_ok; cbn; apply frows_wf).
  destruct (proj2 (CSSCode_iff L d (Some H) (Some H) None None OK OK)) as (c & E).
  { unfold css_input. cbn [hx_of hz_of]. split; [left; discriminate|]. split; auto. split.
    - intros a b Ha Hb. cbn in Ha, Hb. apply in_map_iff in Ha, Hb. destruct Ha as (F & <- & InF). destruct Hb as (G & <- & InG).
      rewrite frow_dot; auto. rewrite Forall_forall in HF. auto.
    - split; [left; cbn; destruct Fs; cbn; congruence|]. split; auto. split; discriminate. }
  rewrite E. cbn [pbind]. eexists. split; [reflexivity|]. cbn [cc_H cc_lay cc_distance cc_css cc_L].
  destruct (CSSCode_inv L d (Some H) (Some H) None None c OK OK E) as ((EX & EZ & WX & WZ & O & _ & _ & En & _ & EK) & ED & _).
  cbn [hx_of hz_of] in *. split; [reflexivity|]. split; [reflexivity|]. split; [reflexivity|]. split; [exact EX|]. split; [exact EZ|]. split; [exact ED|]. split; [reflexivity|]. split; [exact En|]. split; [|exact E].
  rewrite EK. cbn [H nd_cols nd_rows]. lia. Qed.

Lemma overlap_ovl data F G : overlap data F G = ovl (fun p => cmem p data) F G.
Proof. reflexivity. Qed.

(** ** hexagonal *)
Record hex_enum (d : Z) (data anc : list coord) : Prop := {
  he_data : enumerates data (fst (hex_add_qubits d)); he_anc : enumerates anc (snd (hex_add_qubits d)) }.

Lemma Z2Nat_id_max z : Z.of_nat (Z.to_nat z) = Z.max 0 z.
Proof. lia. Qed.
Definition hexM (d : Z) : Z := Z.max 0 (d + d / 2).
Section HexCode.
  Variables (d : Z) (data anc : list coord).
  Hypothesis E : hex_enum d data anc.

  Lemma hex_data_iff p : In p data <-> hexd (hexM d) p.
  Proof. destruct E as [E1 E2]. rewrite hex_add_qubits_eq in E1. cbn in E1. unfold enumerates in E1.
    rewrite (Permutation_in' (eq_refl p) E1), In_hex_data. unfold hexd, hexM. rewrite Z2Nat_id_max. reflexivity. Qed.
  Lemma hex_anc_iff p : In p anc <-> hexa (hexM d) p.
  Proof. destruct E as [E1 E2]. rewrite hex_add_qubits_eq in E2. cbn in E2. unfold enumerates in E2.
    rewrite (Permutation_in' (eq_refl p) E2), In_hex_anc. unfold hexa, hexM. rewrite Z2Nat_id_max. reflexivity. Qed.
  Lemma hex_data_nodup : NoDup data.
  Proof. destruct E as [E1 E2]. rewrite hex_add_qubits_eq in E1. apply (Permutation_NoDup (Permutation_sym E1)). apply NoDup_hexl. Qed.
  Lemma hex_anc_nodup : NoDup anc.
  Proof. destruct E as [E1 E2]. rewrite hex_add_qubits_eq in E2. apply (Permutation_NoDup (Permutation_sym E2)). apply NoDup_hexl. Qed.
  Lemma hex_hb p : cmem p data = true <-> hexd (hexM d) p.
  Proof. rewrite cmem_In. apply hex_data_iff. Qed.
  Lemma hex_faces_nodup : Forall (@NoDup coord) (map hex_nb anc).
  Proof. apply Forall_forall. intros F HF. apply in_map_iff in HF. destruct HF as (f & <- & _). apply hex_nb_NoDup. Qed.
  Lemma hex_nb_inj f g : hex_nb f = hex_nb g -> f = g.
  Proof. destruct f as [x y], g as [x' y']. cbn. intros H. injection H; intros. apply f_equal2; lia. Qed.

  Lemma hexM_mod : (d mod 2 = 1 -> 0 < d -> hexM d mod 3 = 1 /\ hexM d = 3 * ((d - 1) / 2) + 1)%Z /\ (d mod 2 = 0 -> hexM d mod 3 = 0)%Z.
  Proof. unfold hexM. split; intros; Z.div_mod_to_equations; lia. Qed.

  Lemma hex_overlap_even f g : In f anc -> In g anc -> Nat.odd (length (overlap data (hex_nb f) (hex_nb g))) = false.
  Proof. intros Hf Hg. rewrite overlap_ovl. apply hex_anc_iff in Hf, Hg. destruct (coord_dec f g) as [<-|Hne].
    - assert (EQ : ovl (fun p => cmem p data) (hex_nb f) (hex_nb f) = filter (fun p => cmem p data) (hex_nb f)).
      { unfold ovl. apply filter_ext_in. intros p Hp. apply cmem_In in Hp. now rewrite Hp, andb_true_r. }
      rewrite EQ. destruct (Z.eq_dec (d mod 2) 1) as [Ho|Ho].
      + destruct (Z_lt_le_dec 0 d) as [Hd|Hd].
        * destruct (hex_size (hexM d) _ hex_hb f (proj1 (proj1 hexM_mod Ho Hd)) Hf) as [-> | ->]; reflexivity.
        * exfalso. destruct Hf as [(A & B & C & _) _]. unfold hexM in C. assert (d + d / 2 <= 0)%Z by (Z.div_mod_to_equations; lia). lia.
      + assert (Hm : (d mod 2 = 0)%Z) by (pose proof (Z.mod_pos_bound d 2); lia).
        destruct (hex_size_even (hexM d) _ hex_hb f (proj2 hexM_mod Hm) Hf) as [-> | [-> | ->]]; reflexivity.
    - destruct (hex_two (hexM d) _ hex_hb f g Hf Hg Hne) as [->| ->]; reflexivity. Qed.
  Lemma hex_faces_even F G : In F (map hex_nb anc) -> In G (map hex_nb anc) -> Nat.odd (length (overlap data F G)) = false.
  Proof. intros HF HG. apply in_map_iff in HF, HG. destruct HF as (f & <- & Hf). destruct HG as (g & <- & Hg). now apply hex_overlap_even. Qed.

  Section Odd.
    Hypothesis Hodd : (d mod 2 = 1)%Z.
    Hypothesis Hpos : (0 < d)%Z.
    Let m := Z.to_nat ((d - 1) / 2).
    Lemma hex_n : length data = 3 * m * m + 3 * m + 1.
    Proof. destruct E as [E1 E2]. rewrite (Permutation_length E1), hex_add_qubits_eq. cbn [fst]. unfold hex_data.
      replace (Z.to_nat (d + d / 2)) with (3 * m + 1) by (subst m; Z.div_mod_to_equations; lia). apply hexl_data_len. reflexivity. Qed.
    Lemma hex_nanc : 2 * length anc = 3 * m * m + 3 * m.
    Proof. destruct E as [E1 E2]. rewrite (Permutation_length E2), hex_add_qubits_eq. cbn [snd]. unfold hex_anc.
      replace (Z.to_nat (d + d / 2)) with (3 * m + 1) by (subst m; Z.div_mod_to_equations; lia). apply hexl_anc_len. reflexivity. Qed.
    Lemma hex_face_size f : In f anc -> length (filter (fun p => cmem p data) (hex_nb f)) = 4 \/ length (filter (fun p => cmem p data) (hex_nb f)) = 6.
    Proof. intros Hf. apply hex_anc_iff in Hf. apply (hex_size (hexM d) _ hex_hb f); auto. now apply hexM_mod. Qed.

    Lemma hex_rows_indep : indep (length data) (map (frow data) (map hex_nb anc)).
    Proof. rewrite map_map.
      apply (indep_pivot _ _ (fun i => match coords_to_idx data (hex_piv (nth i anc (0,0)%Z)) with Some q => q | None => 0 end) (fun i => snd (nth i anc (0,0)%Z))).
      - rewrite <- map_map. apply frows_wf.
      - intros i Hi. rewrite map_length in Hi. assert (Hf : In (nth i anc (0,0)%Z) anc) by now apply nth_In. set (f := nth i anc (0,0)%Z) in *.
        pose proof (proj1 (hex_anc_iff f) Hf) as Af.
        assert (Hp : In (hex_piv f) data) by (apply hex_data_iff, hex_piv_data; auto; now apply hexM_mod).
        destruct (coords_to_idx data (hex_piv f)) as [q|] eqn:Eq; [|apply index_from_none in Eq; contradiction].
        apply (cti_spec data _ q hex_data_nodup) in Eq. destruct Eq as [Hq Eq].
        assert (R : forall j, j < length anc -> nth q (nth j (map (fun x => frow data (hex_nb x)) anc) []) false = cmem (hex_piv f) (hex_nb (nth j anc (0,0)%Z))).
        { intros j Hj. rewrite (nth_indep _ [] (frow data (hex_nb (0,0)%Z))) by now rewrite map_length. rewrite (map_nth (fun x => frow data (hex_nb x))).
          unfold frow. rewrite (nth_indep _ false (cmem (0,0)%Z (hex_nb (nth j anc (0,0)%Z)))) by now rewrite map_length.
          rewrite (map_nth (fun p => cmem p (hex_nb (nth j anc (0,0)%Z)))). now rewrite Eq. }
        split; auto. split.
        + rewrite R by auto. fold f. apply cmem_In, hex_piv_in.
        + intros j Hj Hne Ht. rewrite map_length in Hj. rewrite R in Ht by auto. apply cmem_In in Ht.
          apply (hex_piv_up (hexM d) f (nth j anc (0,0)%Z)); auto.
          * apply hex_anc_iff. now apply nth_In.
          * intros EE. apply Hne. symmetry. apply (proj1 (NoDup_nth anc (0,0)%Z) hex_anc_nodup); auto. Qed.

    (** the boundary operator *)
    Definition bdry : vec := map (fun p => Z.eqb (snd p) 0) data.
    Lemma bdry_kernel : in_kernel (length data) (map (frow data) (map hex_nb anc)) bdry.
    Proof. split; [apply map_length|]. intros r Hr. apply in_map_iff in Hr. destruct Hr as (F & <- & HF). apply in_map_iff in HF. destruct HF as (f & <- & Hf).
      apply hex_anc_iff in Hf. unfold frow, bdry. rewrite dot_map_odd.
      rewrite <- (hex_bdry (hexM d) _ hex_hb f (proj1 (proj1 hexM_mod Hodd Hpos)) Hf). f_equal.
      apply Permutation_length. apply NoDup_Permutation; [apply NoDup_filter, hex_data_nodup|apply NoDup_filter, hex_nb_NoDup|].
      intros p. rewrite !filter_In, !andb_true_iff, !cmem_In. tauto. Qed.
    Lemma bdry_weight : weight bdry = Z.to_nat d.
    Proof. unfold bdry. rewrite weight_map. destruct E as [E1 E2].
      assert (P : Permutation (filter (fun p => Z.eqb (snd p) 0) data) (filter (fun p => Z.eqb (snd p) 0) (hex_data (3 * m + 1)))).
      { rewrite hex_add_qubits_eq in E1. cbn [fst] in E1. replace (Z.to_nat (d + d / 2)) with (3 * m + 1) in E1 by (subst m; Z.div_mod_to_equations; lia).
        unfold enumerates in E1. revert E1. generalize (hex_data (3 * m + 1)). generalize data. clear. intros a b H. induction H; cbn.
        - constructor.
        - destruct (Z.eqb (snd x) 0); auto.
        - destruct (Z.eqb (snd x) 0), (Z.eqb (snd y) 0); auto using Permutation_refl. constructor.
        - eapply Permutation_trans; eauto. }
      rewrite (Permutation_length P). unfold hex_data. rewrite Nat.add_1_r. cbn [hexl]. rewrite filter_app.
      rewrite (filter_none _ (hexl isd (3 * m) 1)).
      2: { intros p Hp. apply In_hexl in Hp. destruct Hp as (y & j & Hy & _ & _ & ->). cbn [snd]. apply Z.eqb_neq. lia. }
      rewrite app_nil_r. rewrite <- Nat.add_1_r.
      assert (FA : forall l : list coord, (forall p, In p l -> snd p = 0%Z) -> filter (fun p => Z.eqb (snd p) 0) l = l).
      { induction l as [|a l IH]; cbn; auto. intros H. rewrite (H a) by now left. cbn. rewrite IH; auto. }
      rewrite FA by (intros p Hp; now apply rowl_before in Hp). rewrite rowl_len1.
      change (b3 (isd 0) 0) with 1. change (b3 (isd 0) 1) with 0. change (b3 (isd 0) 2) with 1. subst m. Z.div_mod_to_equations. lia. Qed.
    Lemma bdry_not_stab : ~ span (length data) (map (frow data) (map hex_nb anc)) bdry.
    Proof. intros S. pose proof (dot_span_zero (length data) _ (map (fun _ => true) data) (frows_wf data (map hex_nb anc))) as D.
      assert (Z0 : dot (map (fun _ => true) data) bdry = false).
      { apply D; auto. intros r Hr. apply in_map_iff in Hr. destruct Hr as (F & <- & HF). apply in_map_iff in HF. destruct HF as (f & <- & Hf).
        unfold frow. rewrite dot_map_odd. cbn [andb]. rewrite <- weight_map. fold (frow data (hex_nb f)). rewrite frow_weight by (auto using hex_data_nodup, hex_nb_NoDup).
        destruct (hex_face_size f Hf) as [->| ->]; reflexivity. }
      unfold bdry in Z0. rewrite dot_map_odd in Z0. cbn [andb] in Z0. rewrite <- weight_map in Z0. change (Nat.odd (weight bdry) = false) in Z0. rewrite bdry_weight in Z0.
      assert (Nat.odd (Z.to_nat d) = true). { rewrite <- (Z2Nat.id d) in Hodd by lia. destruct (Nat.odd (Z.to_nat d)) eqn:Ev; auto. rewrite <- Nat.negb_even in Ev. apply negb_false_iff, Nat.even_spec in Ev. destruct Ev as [k Ek]. rewrite Ek in Hodd. Z.div_mod_to_equations. lia. }
      congruence. Qed.
  End Odd.
End HexCode.
