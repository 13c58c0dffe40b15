(** * SoCode: the square-octagon family assembled. *)
From Verif Require Export SoGeom ColorProofs2.

Record so_enum (d : Z) (data sq oct : list coord) : Prop := {
  so_e_data : enumerates data (so_data (so_add_qubits d)); so_e_sq : enumerates sq (so_sq (so_add_qubits d)); so_e_oct : enumerates oct (so_oct (so_add_qubits d)) }.
Definition sofaces (sq oct : list coord) : list (bool * coord) := map (pair true) sq ++ map (pair false) oct.

Lemma sofaces_map sq oct : map sonb (sofaces sq oct) = map sq_nb sq ++ map oct_nb oct.
Proof. unfold sofaces. rewrite map_app, !map_map. reflexivity. Qed.
Lemma sofaces_len sq oct : length (sofaces sq oct) = length sq + length oct.
Proof. unfold sofaces. now rewrite app_length, !map_length. Qed.

Section SoCode.
  Variables (d : Z) (data sq oct : list coord).
  Hypothesis E : so_enum d data sq oct.
  Hypothesis Hodd : (d mod 2 = 1)%Z.
  Hypothesis Hd : (3 <= d)%Z.
  Let m := Z.to_nat ((d - 1) / 2).
  Lemma so_d_m : d = (2 * Z.of_nat m + 1)%Z /\ 1 <= m.
  Proof. subst m. Z.div_mod_to_equations. lia. Qed.
  Lemma so_m1 : (1 <= Z.of_nat m)%Z.
  Proof. destruct so_d_m as [_ H]. clearbody m. lia. Qed.
  Lemma so_lists : Permutation data (Dl (2 * m + 1) m 0) /\ Permutation sq (Sl m 0) /\ Permutation oct (Bl m ++ Ol m 0).
  Proof. destruct E as [E1 E2 E3]. destruct so_d_m as [Ed Hm]. unfold enumerates in *. rewrite Ed, so_add_qubits_lists in E1, E2, E3 by auto. cbn [so_data so_sq so_oct] in *. auto. Qed.
  Lemma so_data_iff p : In p data <-> sod (Z.of_nat m) p.
  Proof. destruct so_lists as (P & _ & _). rewrite (Permutation_in' (eq_refl p) P). apply In_so_data, so_d_m. Qed.
  Lemma so_sq_iff p : In p sq <-> soq (Z.of_nat m) p.
  Proof. destruct so_lists as (_ & P & _). rewrite (Permutation_in' (eq_refl p) P). apply In_so_sq. Qed.
  Lemma so_oct_iff p : In p oct <-> soo (Z.of_nat m) p.
  Proof. destruct so_lists as (_ & _ & P). rewrite (Permutation_in' (eq_refl p) P). apply In_so_oct. Qed.
  Lemma so_data_nodup : NoDup data.
  Proof. destruct so_lists as (P & _ & _). apply (Permutation_NoDup (Permutation_sym P)), NoDup_Dl. Qed.
  Lemma so_sq_nodup : NoDup sq.
  Proof. destruct so_lists as (_ & P & _). apply (Permutation_NoDup (Permutation_sym P)), NoDup_Sl. Qed.
  Lemma so_oct_nodup : NoDup oct.
  Proof. destruct so_lists as (_ & _ & P). apply (Permutation_NoDup (Permutation_sym P)), NoDup_BOl. Qed.
  Lemma so_n : length data = 2 * m * m + 4 * m + 1.
  Proof. destruct so_lists as (P & _ & _). rewrite (Permutation_length P), Dl_len. lia. Qed.
  Lemma so_nsq : 2 * length sq = m * m + m.
  Proof. destruct so_lists as (_ & P & _). rewrite (Permutation_length P). apply Sl_len. Qed.
  Lemma so_noct : 2 * length oct = m * m + 3 * m.
  Proof. destruct so_lists as (_ & _ & P). rewrite (Permutation_length P), app_length. unfold Bl, arow at 1. rewrite map_length, seq_length. pose proof (Ol_len m 0). lia. Qed.
  Lemma so_hb p : cmem p data = true <-> sod (Z.of_nat m) p.
  Proof. rewrite cmem_In. apply so_data_iff. Qed.
  Let fs := sofaces sq oct.
  Lemma so_face_ok f : In f fs -> soa (Z.of_nat m) f.
  Proof. unfold fs, sofaces. rewrite in_app_iff, !in_map_iff. intros [(c & <- & H)|(c & <- & H)]; unfold soa; cbn [fst snd]; [now apply so_sq_iff|now apply so_oct_iff]. Qed.
  Lemma so_fs_nodup : NoDup fs.
  Proof. apply NoDup_app_i.
    - apply NoDup_map_inj; [congruence|apply so_sq_nodup].
    - apply NoDup_map_inj; [congruence|apply so_oct_nodup].
    - intros x H1 H2. apply in_map_iff in H1, H2. destruct H1 as (a & <- & _). destruct H2 as (b & E2 & _). discriminate. Qed.
  (** the number of ancillas is the number of faces: no square and octagon share their centre *)
  Lemma so_anc_count : length (fold_left (fun l p => sadd p l) oct sq) = length sq + length oct.
  Proof. change (fold_left (fun l p => sadd p l) oct sq) with (sunion oct sq). rewrite sunion_new; [apply app_length|apply so_oct_nodup|].
    intros [x y] H1 H2. apply so_oct_iff in H1. apply so_sq_iff in H2. apply soo_lat in H1. apply soq_lat in H2. destruct H1 as (a & b & ? & ?). destruct H2 as (a' & b' & ? & ?). lia. Qed.
  Lemma so_layout_faces : so_layout (length (fold_left (fun l p => sadd p l) oct sq)) data sq oct = flayout data (map sonb fs).
  Proof. rewrite so_layout_eq by apply so_anc_count. unfold fs. now rewrite sofaces_map. Qed.
  Lemma so_faces_nodup : Forall (@NoDup coord) (map sonb fs).
  Proof. apply Forall_forall. intros F HF. apply in_map_iff in HF. destruct HF as (f & <- & _). apply sonb_NoDup. Qed.
  Lemma so_face_size f : In f fs -> length (filter (fun p => cmem p data) (sonb f)) = 4 \/ (fst f = false /\ length (filter (fun p => cmem p data) (sonb f)) = 8).
  Proof. intros Hf. apply (so_size (Z.of_nat m) _ so_hb). now apply so_face_ok. Qed.
  Lemma so_face_two f g : In f fs -> In g fs -> f <> g -> length (overlap data (sonb f) (sonb g)) = 0 \/ length (overlap data (sonb f) (sonb g)) = 2.
  Proof. intros Hf Hg Hne. rewrite overlap_ovl. apply (so_two (Z.of_nat m) _ so_hb); auto using so_face_ok. Qed.
  Lemma fdec (f g : bool * coord) : {f = g} + {f <> g}.
  Proof. destruct f as [k c], g as [k' c']. destruct (Bool.bool_dec k k') as [<-|]; [|right; congruence]. destruct (coord_dec c c') as [<-|]; [now left|right; congruence]. Qed.
  Lemma so_overlap_even f g : In f fs -> In g fs -> Nat.odd (length (overlap data (sonb f) (sonb g))) = false.
  Proof. intros Hf Hg. destruct (fdec f g) as [<-|Hne].
    - assert (EQ : overlap data (sonb f) (sonb f) = filter (fun p => cmem p data) (sonb f)).
      { unfold overlap. apply filter_ext_in. intros p Hp. apply cmem_In in Hp. now rewrite Hp, andb_true_r. }
      rewrite EQ. destruct (so_face_size f Hf) as [-> | [_ ->]]; reflexivity.
    - destruct (so_face_two f g Hf Hg Hne) as [-> | ->]; reflexivity. Qed.
  Lemma so_faces_even F G : In F (map sonb fs) -> In G (map sonb fs) -> Nat.odd (length (overlap data F G)) = false.
  Proof. intros HF HG. apply in_map_iff in HF, HG. destruct HF as (f & <- & Hf). destruct HG as (g & <- & Hg). now apply so_overlap_even. Qed.

  Let df : bool * coord := (false, (0,0)%Z).
  Lemma so_rows_nth j i : i < length data -> j < length fs ->
    nth i (nth j (map (frow data) (map sonb fs)) []) false = cmem (nth i data (0,0)%Z) (sonb (nth j fs df)).
  Proof. intros Hi Hj. rewrite map_map. rewrite (nth_indep _ [] (frow data (sonb df))) by now rewrite map_length.
    rewrite (map_nth (fun x => frow data (sonb x))). now apply frow_nth. Qed.
  Lemma so_rows_indep : indep (length data) (map (frow data) (map sonb fs)).
  Proof. pose proof so_d_m as [_ Hm1]. set (piv := so_piv (Z.of_nat m)).
    apply (indep_pivot _ _ (fun i => match coords_to_idx data (piv (nth i fs df)) with Some q => q | None => 0 end) (fun i => so_mu (Z.of_nat m) (nth i fs df))).
    - apply frows_wf.
    - intros i Hi. rewrite !map_length in Hi. assert (Hf : In (nth i fs df) fs) by now apply nth_In. set (f := nth i fs df) in *.
      pose proof (so_face_ok f Hf) as Af.
      assert (Hp : In (piv f) data) by (apply so_data_iff, so_piv_data; auto using so_m1).
      destruct (coords_to_idx data (piv f)) as [q|] eqn:Eq; [|apply index_from_none in Eq; contradiction].
      apply (cti_spec data _ q so_data_nodup) in Eq. destruct Eq as [Hq Eq]. split; auto. split.
      + rewrite so_rows_nth by auto. fold f. rewrite Eq. apply cmem_In, so_piv_in.
      + intros j Hj Hne Ht. rewrite !map_length in Hj. rewrite so_rows_nth in Ht by auto. rewrite Eq in Ht. apply cmem_In in Ht.
        apply (so_piv_up (Z.of_nat m) f (nth j fs df)); auto.
        * apply so_face_ok. now apply nth_In.
        * intros EE. apply Hne. symmetry. apply (proj1 (NoDup_nth fs df) so_fs_nodup); auto. Qed.

  Definition so_bd : vec := map (fun p => Z.eqb (snd p) 1) data.
  Lemma so_bd_kernel : in_kernel (length data) (map (frow data) (map sonb fs)) so_bd.
  Proof. split; [apply map_length|]. intros r Hr. apply in_map_iff in Hr. destruct Hr as (F & <- & HF). apply in_map_iff in HF. destruct HF as (f & <- & Hf).
    unfold frow, so_bd. rewrite dot_map_odd.
    rewrite <- (so_bdry (Z.of_nat m) _ so_hb f (so_face_ok f Hf)). f_equal.
    apply Permutation_length. apply NoDup_Permutation; [apply NoDup_filter, so_data_nodup|apply NoDup_filter, sonb_NoDup|].
    intros p. rewrite !filter_In, !andb_true_iff, !cmem_In. tauto. Qed.
  Lemma so_bd_weight : weight so_bd = Z.to_nat d.
  Proof. unfold so_bd. rewrite weight_map. destruct so_d_m as [Ed Hm].
    assert (P : Permutation (filter (fun p => Z.eqb (snd p) 1) data) (drow (2 * m + 1) 0 1)).
    { apply NoDup_Permutation; [apply NoDup_filter, so_data_nodup|apply NoDup_drow|]. intros [x y]. rewrite filter_In, so_data_iff, drow1_iff, Z.eqb_eq. cbn [fst snd sod].
      split.
      - intros [H ->]. split; auto. destruct H as [H|H]; [|exfalso; Z.div_mod_to_equations; lia]. replace (x - 0)%Z with (x - 1 + 1)%Z by lia. split; [tauto|lia].
      - intros (-> & H & H1 & H2). split; auto. left. replace (x - 1 + 1)%Z with (x - 0)%Z by lia. repeat split; auto; lia. }
    rewrite (Permutation_length P). unfold drow. rewrite map_length, seq_length. lia. Qed.
  Lemma so_bd_not_stab : ~ span (length data) (map (frow data) (map sonb fs)) so_bd.
  Proof. intros S. pose proof (dot_span_zero (length data) _ (map (fun _ => true) data) (frows_wf data (map sonb fs))) as D.
    assert (Z0 : dot (map (fun _ => true) data) so_bd = false).
    { apply D; auto. intros r Hr. apply in_map_iff in Hr. destruct Hr as (F & <- & HF). apply in_map_iff in HF. destruct HF as (f & <- & Hf).
      unfold frow. rewrite dot_map_odd. cbn [andb]. rewrite <- weight_map. fold (frow data (sonb f)). rewrite frow_weight by (auto using so_data_nodup, sonb_NoDup).
      destruct (so_face_size f Hf) as [-> | [_ ->]]; reflexivity. }
    unfold so_bd in Z0. rewrite dot_map_odd in Z0. cbn [andb] in Z0. rewrite <- weight_map in Z0. change (Nat.odd (weight so_bd) = false) in Z0. rewrite so_bd_weight in Z0.
    destruct so_d_m as [Ed _]. assert (Et : Z.to_nat d = Datatypes.S (2 * m)) by lia. rewrite Et, Nat.odd_succ, Nat.even_mul in Z0. discriminate. Qed.
End SoCode.
