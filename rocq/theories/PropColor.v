(** * PropColor: properties C17, C18 (color codes) *)
From Verif Require Import ColorProofs2 SoCode ColorDecode CssProofs NamedProofs LightsProofs HexDist2 SoDist2 SoEven HexEven.
Open Scope Z_scope.

(** [L] is the external linear-algebra library, subject to the contract [ldpc_ok] where its answers matter
    (C12); a successful construction does not depend on it.  [hex_enum d data anc]: [data] and [anc] enumerate,
    in any order, the qubit and face sets computed by [add_qubits]. *)

(** adjacency in the honeycomb picture: the six corners of a face *)
Definition hex_corner (f q : coord) : Prop :=
  let dx := fst q - fst f in let dy := snd q - snd f in (Z.abs dx = 1 /\ Z.abs dy = 1) \/ (Z.abs dx = 2 /\ dy = 0).
Lemma hex_corner_iff f q : cmem q (hex_nb f) = true <-> hex_corner f q.
Proof. rewrite cmem_In. destruct f as [x y], q as [u v]. unfold hex_corner. cbn [hex_nb In fst snd]. split.
  - intros H. repeat (destruct H as [H|H]; [injection H as <- <-; lia|]). contradiction H.
  - intros H. assert (C : (u = x - 1 /\ v = y + 1) \/ (u = x - 2 /\ v = y) \/ (u = x - 1 /\ v = y - 1) \/ (u = x + 1 /\ v = y - 1) \/ (u = x + 2 /\ v = y) \/ (u = x + 1 /\ v = y + 1)) by lia.
    destruct C as [[-> ->]|[[-> ->]|[[-> ->]|[[-> ->]|[[-> ->]|[-> ->]]]]]]; tauto. Qed.

(** ** C17: the hexagonal family *)
Theorem C17_code : forall L d data anc, (3 <= d)%Z -> (d mod 2 = 1)%Z -> hex_enum d data anc ->
  exists c, HexagonalColorCode L d data anc = Ret c /\
    (let H := nd_rows (cc_H c) in let n := length data in
     css_Hx (cc_css c) = cc_H c /\ css_Hz (cc_css c) = cc_H c /\ nd_cols (cc_H c) = n /\ wf n H /\ length H = length anc /\
     (4 * Z.of_nat n = 3 * d * d + 1)%Z /\ (2 * length anc + 1 = n)%nat /\
     sc_n (css_stab (cc_css c)) = n /\ sc_k (css_stab (cc_css c)) = 1%Z /\ css_distance (cc_css c) = d /\
     indep n H /\
     (forall r, In r H -> weight r = 4%nat \/ weight r = 6%nat) /\
     (forall i j, (i < length H)%nat -> (j < length H)%nat -> dot (nth i H []) (nth j H []) = false) /\
     (forall i j, (i < length H)%nat -> (j < length H)%nat -> i <> j ->
        let common := length (filter (fun q => nth q (nth i H []) false && nth q (nth j H []) false) (seq 0 n)) in
        common = 0%nat \/ common = 2%nat) /\
     (forall i j, (i < n)%nat -> (j < length anc)%nat ->
        (nth i (nth j H []) false = true <-> hex_corner (nth j anc (0,0)) (nth i data (0,0))))).
Proof. intros L d data anc Hd Ho E.
  pose proof (hex_data_nodup d data anc E) as ND. pose proof (hex_faces_nodup anc) as NF. pose proof (hex_faces_even d data anc E) as FE.
  pose proof (hex_n d data anc E Ho ltac:(lia)) as Hn. pose proof (hex_nanc d data anc E Ho ltac:(lia)) as Ha. cbv zeta in Hn, Ha.
  set (m := Z.to_nat ((d - 1) / 2)) in *.
  assert (Em : d = 2 * Z.of_nat m + 1) by (subst m; Z.div_mod_to_equations; lia).
  assert (Hm : (1 <= m)%nat) by lia.
  assert (NE : map hex_nb anc <> []) by (destruct anc; [cbn in Ha; nia|discriminate]).
  destruct (color_from_faces L d data (map hex_nb anc) ND NF NE ltac:(lia) FE) as (c & EC & EH & EL & ED & HX & HZ & CD & CL & Cn & Ck & ECSS).
  exists c. unfold HexagonalColorCode. rewrite hex_layout_eq. split; [exact EC|]. cbv zeta. rewrite EH. cbn [nd_rows nd_cols].
  pose proof (hex_rows_indep d data anc E Ho ltac:(lia)) as I. pose proof (frows_wf data (map hex_nb anc)) as W.
  split; [rewrite HX; exact EH|]. split; [rewrite HZ; exact EH|]. split; [reflexivity|]. split; [exact W|].
  split; [now rewrite !map_length|]. split; [rewrite Hn, Em; nia|]. split; [lia|]. split; [exact Cn|].
  split; [|split; [exact CD|split; [exact I|split; [|split; [|split]]]]].
  - rewrite Ck. pose proof (rk_unique (length data) _ (length (map (frow data) (map hex_nb anc))) W (has_rank_indep _ _ W I)) as R.
    rewrite <- R, !map_length. lia.
  - intros r Hr. apply in_map_iff in Hr. destruct Hr as (F & <- & HF). apply in_map_iff in HF. destruct HF as (f & <- & Hf).
    rewrite frow_weight by (auto using hex_nb_NoDup). apply (hex_face_size d data anc E Ho ltac:(lia) f Hf).
  - intros i j Hi Hj. rewrite map_length in Hi, Hj.
    rewrite !(nth_indep (map (frow data) (map hex_nb anc)) [] (frow data [])) by now rewrite map_length. rewrite !(map_nth (frow data)).
    rewrite frow_dot; auto; [apply FE; now apply nth_In|]. rewrite Forall_forall in NF. apply NF. now apply nth_In.
  - intros i j Hi Hj Hne. match goal with |- ?c = _ \/ _ => set (common := c) end. rewrite !map_length in Hi, Hj.
    assert (EO : common = length (ovl (fun p => cmem p data) (hex_nb (nth i anc (0,0))) (hex_nb (nth j anc (0,0))))).
    { subst common. rewrite <- overlap_ovl. rewrite <- overlap_len by (auto using hex_nb_NoDup).
      rewrite (filter_ext_in _ (fun q => (fun p => cmem p (hex_nb (nth i anc (0,0))) && cmem p (hex_nb (nth j anc (0,0)))) (nth q data (0,0)))).
      2: { intros q Hq. apply in_seq in Hq. now rewrite !frows_nth by lia. }
      exact (filter_nth_len (fun p => cmem p (hex_nb (nth i anc (0,0))) && cmem p (hex_nb (nth j anc (0,0)))) data). }
    rewrite EO. apply (hex_two (hexM d) _ (hex_hb d data anc E)); try (apply (hex_anc_iff d data anc E); now apply nth_In).
    intros EE. apply Hne. apply (proj1 (NoDup_nth anc (0,0)) (hex_anc_nodup d data anc E)); auto.
  - intros i j Hi Hj. rewrite frows_nth by auto. apply hex_corner_iff. Qed.
Print Assumptions C17_code.

(** the two adjacency dictionaries used by the decoder agree with the matrix and with each other *)
Theorem C17_adjacency : forall L d data anc c, (3 <= d)%Z -> (d mod 2 = 1)%Z -> hex_enum d data anc ->
  HexagonalColorCode L d data anc = Ret c ->
  let q2f := lay_q2f (cc_lay c) in let f2q := lay_f2q (cc_lay c) in let H := nd_rows (cc_H c) in
  map fst q2f = seq 0 (length data) /\ map fst f2q = seq 0 (length anc) /\ graph_ok f2q q2f /\
  (forall j qs, In (j, qs) f2q -> NoDup qs /\ forall i, In i qs <-> (i < length data)%nat /\ nth i (nth j H []) false = true) /\
  (forall i fs, In (i, fs) q2f -> NoDup fs /\ forall j, In j fs <-> (j < length anc)%nat /\ nth i (nth j H []) false = true).
Proof. intros L d data anc c Hd Ho E EC. cbv zeta.
  pose proof (hex_data_nodup d data anc E) as ND. pose proof (hex_faces_nodup anc) as NF. pose proof (hex_faces_even d data anc E) as FE.
  destruct (C17_code L d data anc Hd Ho E) as (c' & EC' & P). rewrite EC in EC'. injection EC' as <-.
  assert (LH : nd_rows (cc_H c) = map (frow data) (map hex_nb anc) /\ cc_lay c = flayout data (map hex_nb anc)).
  { unfold HexagonalColorCode, ColorCode in EC. rewrite hex_layout_eq in EC. destruct (CSSCode _ _ _ _ _ _) in EC; [|discriminate].
    injection EC as <-. cbn [cc_H cc_lay nd_rows]. split; [now apply flayout_H|reflexivity]. }
  destruct LH as [EH ->]. rewrite EH.
  split; [rewrite flayout_q2f by auto; unfold q2f_of; rewrite map_map; cbn; apply map_id|].
  split; [rewrite keys_f2q; now rewrite map_length|]. split; [apply flayout_graph; auto|].
  { intros F HF. apply in_map_iff in HF. destruct HF as (f & <- & Hf). destruct (hex_face_size d data anc E Ho ltac:(lia) f Hf) as [-> | ->]; lia. }
  split.
  - intros j qs Hq. apply In_f2q in Hq. destruct Hq as [Hj ->]. rewrite map_length in Hj. split.
    + apply NoDup_qbs; auto. rewrite Forall_forall in NF. apply NF. apply nth_In. now rewrite map_length.
    + intros i. rewrite (In_qbs data _ i ND). rewrite (nth_indep _ [] (hex_nb (0,0))) by now rewrite map_length. rewrite (map_nth hex_nb).
      split; intros [Hi HH]; split; auto; [rewrite frows_nth by auto; now apply cmem_In|rewrite frows_nth in HH by auto; now apply cmem_In].
  - intros i fs Hf. rewrite flayout_q2f in Hf by auto. unfold q2f_of in Hf. apply in_map_iff in Hf. destruct Hf as (q & Eq & Hq). injection Eq as -> <-. apply in_seq in Hq.
    split; [apply NoDup_filter, seq_NoDup|]. intros j. rewrite filter_In, in_seq, map_length.
    split; intros [Hj HH]; (split; [lia|]).
    + rewrite frows_nth by lia. rewrite (nth_indep _ [] (hex_nb (0,0))) in HH by (rewrite map_length; lia). now rewrite (map_nth hex_nb) in HH.
    + rewrite frows_nth in HH by lia. rewrite (nth_indep _ [] (hex_nb (0,0))) by (rewrite map_length; lia). now rewrite (map_nth hex_nb). Qed.
Print Assumptions C17_adjacency.

(** a different enumeration of the sets gives the same code up to renaming qubits and faces *)
Theorem C17_enumeration_independent : forall L d data anc data' anc' c c', (3 <= d)%Z -> (d mod 2 = 1)%Z ->
  hex_enum d data anc -> hex_enum d data' anc' ->
  HexagonalColorCode L d data anc = Ret c -> HexagonalColorCode L d data' anc' = Ret c' ->
  exists pi rho, perm_fun (length data) pi /\ perm_fun (length anc) rho /\ length data' = length data /\ length anc' = length anc /\
    forall i j, (i < length data)%nat -> (j < length anc)%nat ->
      nth i (nth j (nd_rows (cc_H c')) []) false = nth (pi i) (nth (rho j) (nd_rows (cc_H c)) []) false.
Proof. intros L d data anc data' anc' c c' Hd Ho E E' EC EC'.
  destruct (C17_code L d data anc Hd Ho E) as (c1 & E1 & P). rewrite EC in E1. injection E1 as <-.
  destruct (C17_code L d data' anc' Hd Ho E') as (c2 & E2 & P'). rewrite EC' in E2. injection E2 as <-.
  cbv zeta in P, P'. destruct P as (_&_&_&_&_&_&_&_&_&_&_&_&_&_&P). destruct P' as (_&_&_&_&_&_&_&_&_&_&_&_&_&_&P').
  assert (PD : Permutation data data') by (eapply Permutation_trans; [apply E|apply Permutation_sym, E']).
  assert (PA : Permutation anc anc') by (eapply Permutation_trans; [apply E|apply Permutation_sym, E']).
  destruct (perm_renames data data' (0,0) PD) as (pi & F1 & F2). destruct (perm_renames anc anc' (0,0) PA) as (rho & G1 & G2).
  exists pi, rho. pose proof (Permutation_length PD). pose proof (Permutation_length PA). repeat (split; [auto|]).
  intros i j Hi Hj. apply eq_true_iff_eq. rewrite P' by lia. rewrite F2, G2 by auto. symmetry. apply P; [apply F1|apply G1]; auto. Qed.
Print Assumptions C17_enumeration_independent.

(** The recorded distance is an upper bound of the true one: the bottom row is a nontrivial logical of weight d. *)
Theorem C17_distance_upper_bound : forall L d data anc c, (3 <= d)%Z -> (d mod 2 = 1)%Z -> hex_enum d data anc ->
  HexagonalColorCode L d data anc = Ret c ->
  exists v, Z.of_nat (weight v) = d /\ nontrivial_logical (length data) (nd_rows (cc_H c)) (nd_rows (cc_H c)) v.
Proof. intros L d data anc c Hd Ho E EC. exists (bdry data).
  assert (EH : nd_rows (cc_H c) = map (frow data) (map hex_nb anc)).
  { unfold HexagonalColorCode, ColorCode in EC. rewrite hex_layout_eq in EC. destruct (CSSCode _ _ _ _ _ _) in EC; [|discriminate].
    injection EC as <-. cbn [cc_H nd_rows]. apply flayout_H. apply (hex_data_nodup d data anc E). }
  rewrite EH. split; [rewrite (bdry_weight d data anc E Ho) by lia; lia|]. split.
  - apply (bdry_kernel d data anc E Ho); lia.
  - apply (bdry_not_stab d data anc E Ho); lia. Qed.
Print Assumptions C17_distance_upper_bound.

(** The recorded distance is the true one for every odd distance: no nontrivial logical operator is lighter. *)
Theorem C17_distance : forall L d data anc c, (3 <= d)%Z -> (d mod 2 = 1)%Z -> hex_enum d data anc ->
  HexagonalColorCode L d data anc = Ret c ->
  min_weight (nontrivial_logical (length data) (nd_rows (cc_H c)) (nd_rows (cc_H c))) (Z.to_nat d).
Proof. intros L d data anc c Hd Ho E EC. split.
  - destruct (C17_distance_upper_bound L d data anc c Hd Ho E EC) as (v & W & N). exists v. split; auto. lia.
  - intros v [K N].
    assert (EH : nd_rows (cc_H c) = map (frow data) (map hex_nb anc)).
    { unfold HexagonalColorCode, ColorCode in EC. rewrite hex_layout_eq in EC. destruct (CSSCode _ _ _ _ _ _) in EC; [|discriminate].
      injection EC as <-. cbn [cc_H nd_rows]. apply flayout_H. apply (hex_data_nodup d data anc E). }
    rewrite EH in K, N. pose proof (hex_distance d data anc v E Ho ltac:(lia) K N). lia. Qed.
Print Assumptions C17_distance.

(** a least-weight correction with the right syndrome corrects every error lighter than half the distance *)
Lemma least_corrects n (H : mat) (err est : vec) k dist : wf n H -> length err = n -> length est = n -> mulMV H (vxor err est) = vzero k ->
  (weight est <= weight err)%nat -> (forall v, nontrivial_logical n H H v -> (dist <= weight v)%nat) ->
  (2 * weight err < dist)%nat -> span n H (vxor err est).
Proof. intros W L1 L2 B4 B5 Hdist Hw. assert (LX : length (vxor err est) = n) by (rewrite vxor_length; unfold vec in *; lia).
  apply in_spanb_spec; auto. destruct (in_spanb n H (vxor err est)) eqn:EI; auto. exfalso.
  assert (NT : nontrivial_logical n H H (vxor err est)).
  { split.
    - split; [exact LX|]. intros r Hr. assert (G : forall (M : mat) k, mulMV M (vxor err est) = vzero k -> In r M -> dot r (vxor err est) = false).
      { induction M as [|a M IH]; intros k' HM [].
        - subst a. destruct k'; [discriminate|]. cbn in HM. injection HM as HM _. exact HM.
        - destruct k'; [discriminate|]. cbn in HM. injection HM as _ HM. eauto. }
      eauto.
    - intros S. apply in_spanb_spec in S; auto. congruence. }
  specialize (Hdist _ NT). pose proof (weight_vxor_le err est). lia. Qed.

(** the commutation part also holds for every even distance *)
Theorem C17_even_distance_commutes : forall d data anc, hex_enum d data anc ->
  forall r s, In r (lay_H (hex_layout data anc)) -> In s (lay_H (hex_layout data anc)) -> dot r s = false.
Proof. intros d data anc E r s. rewrite hex_layout_eq, flayout_H by (apply (hex_data_nodup d data anc E)). intros Hr Hs.
  apply in_map_iff in Hr, Hs. destruct Hr as (F & <- & HF). destruct Hs as (G & <- & HG). rewrite frow_dot.
  - now apply (hex_faces_even d data anc E).
  - apply (hex_data_nodup d data anc E).
  - pose proof (hex_faces_nodup anc) as NF. rewrite Forall_forall in NF. auto. Qed.
Print Assumptions C17_even_distance_commutes.
(** At an even distance the constructor answers with a code that encodes nothing: every operator that commutes with the
    checks is a product of checks, although the recorded distance is d. *)
Theorem C17_even_distance_no_logical : forall L d data anc, (2 <= d)%Z -> (d mod 2 = 0)%Z -> hex_enum d data anc ->
  exists c, HexagonalColorCode L d data anc = Ret c /\ nd_cols (cc_H c) = length data /\
    (4 * Z.of_nat (length data) = 3 * d * d + 2 * d)%Z /\ (2 * length (nd_rows (cc_H c)) = length data)%nat /\
    sc_n (css_stab (cc_css c)) = length data /\ sc_k (css_stab (cc_css c)) = 0%Z /\ css_distance (cc_css c) = d /\
    forall v, ~ nontrivial_logical (length data) (nd_rows (cc_H c)) (nd_rows (cc_H c)) v.
Proof. intros L d data anc Hd He E. destruct (hex_even_code d data anc E He ltac:(lia) L) as (c & A & B & C & D & F & G & H & I).
  exists c. repeat (split; [assumption|]). intros v [K N]. exact (N (I v K)). Qed.
Print Assumptions C17_even_distance_no_logical.
Example C17_even_ex : hex_enum 4 (rev (fst (hex_add_qubits 4))) (snd (hex_add_qubits 4)) /\ length (fst (hex_add_qubits 4)) = 14%nat.
Proof. split; [split|reflexivity]; [apply Permutation_sym, Permutation_rev|apply Permutation_refl]. Qed.

(** The LightsOut decoder on any hexagonal code: every error's syndrome gets a correction that reproduces the syndrome,
    weighs no more than any other error with that syndrome, and so every error on fewer than d/2 qubits is corrected
    (the residual operator is a stabilizer). *)
Theorem C17_lightsout_decodes : forall sv L d data anc c err, solver_ok sv -> (3 <= d)%Z -> (d mod 2 = 1)%Z -> hex_enum d data anc ->
  HexagonalColorCode L d data anc = Ret c -> length err = length data ->
  exists syn st est lights', cc_get_syndrome c err = Ret syn /\
    preconstruct_z3_instance (LightsOut (lay_f2q (cc_lay c)) (lay_q2f (cc_lay c))) = (st, Ret tt) /\
    solve sv syn st = (st, Ret (map b2n est, lights')) /\ length est = length data /\
    cc_get_syndrome c (vxor err est) = Ret (vzero (length anc)) /\
    (forall e', length e' = length data -> cc_get_syndrome c e' = Ret syn -> (weight est <= weight e')%nat) /\
    ((2 * Z.of_nat (weight err) < d)%Z -> span (length data) (nd_rows (cc_H c)) (vxor err est)).
Proof. intros sv L d data anc c err Hsv Hd Ho E EC He.
  destruct (C17_code L d data anc Hd Ho E) as (c' & EC' & P). rewrite EC in EC'. injection EC' as <-. cbv zeta in P.
  destruct P as (P1 & P2 & P3 & P4 & P5 & _).
  destruct (C17_adjacency L d data anc c Hd Ho E EC) as (A1 & A2 & A3 & A4 & _).
  destruct (lights_decode sv (length data) (length anc) (nd_rows (cc_H c)) _ _ err Hsv P4 P5 A1 A2 A3 A4 He) as (st & est & l' & B1 & B2 & B3 & B4 & B5).
  assert (SY : forall e, length e = length data -> cc_get_syndrome c e = Ret (mulMV (nd_rows (cc_H c)) e)).
  { intros e Hl. unfold cc_get_syndrome, matvec. rewrite P3, Hl, Nat.eqb_refl. reflexivity. }
  assert (LX : length (vxor err est) = length data) by (rewrite vxor_length; unfold vec in *; lia).
  exists (mulMV (nd_rows (cc_H c)) err), st, est, l'. split; [now apply SY|]. split; [exact B1|]. split; [exact B2|]. split; [exact B3|].
  split; [rewrite SY by exact LX; now rewrite B4|]. split.
  - intros e' He' Es. rewrite SY in Es by auto. injection Es as Es. auto.
  - intros Hw. apply (least_corrects _ _ err est (length anc) (Z.to_nat d) P4 He B3 B4 (B5 err He eq_refl)); [|lia].
    apply (C17_distance L d data anc c Hd Ho E EC). Qed.
Print Assumptions C17_lightsout_decodes.

(** ColorCode.check_if_logical_error never reports an error: the test [np.bool_ is True] is always false. *)
Theorem C17_check_if_logical_error_refuted :
  (forall c r b, cc_check_if_logical_error c r = Ret b -> b = false) /\
  exists c v, HexagonalColorCode ldpc_ref 3 (fst (hex_add_qubits 3)) (snd (hex_add_qubits 3)) = Ret c /\
    nontrivial_logical 7 (nd_rows (cc_H c)) (nd_rows (cc_H c)) v /\ cc_check_if_logical_error c v = Ret false.
Proof. split.
  - intros c r b. unfold cc_check_if_logical_error. destruct (matvec _ _); cbn [pbind]; intros H; [now injection H|discriminate].
  - destruct (HexagonalColorCode ldpc_ref 3 (fst (hex_add_qubits 3)) (snd (hex_add_qubits 3))) as [c|] eqn:E; [|vm_compute in E; discriminate].
    assert (EN : hex_enum 3 (fst (hex_add_qubits 3)) (snd (hex_add_qubits 3))) by (split; apply Permutation_refl).
    exists c, (bdry (fst (hex_add_qubits 3))). split; [reflexivity|].
    assert (EH : nd_rows (cc_H c) = map (frow (fst (hex_add_qubits 3))) (map hex_nb (snd (hex_add_qubits 3)))).
    { unfold HexagonalColorCode, ColorCode in E. rewrite hex_layout_eq in E. destruct (CSSCode _ _ _ _ _ _) in E; [|discriminate].
      injection E as <-. cbn [cc_H nd_rows]. vm_compute; reflexivity. }
    split; [rewrite EH; split; [exact (bdry_kernel 3 _ _ EN eq_refl ltac:(lia))|exact (bdry_not_stab 3 _ _ EN eq_refl ltac:(lia))]|].
    clear EH. vm_compute in E. injection E as <-. vm_compute. reflexivity. Qed.
Print Assumptions C17_check_if_logical_error_refuted.

(** non-vacuity: the distance-5 code, in the insertion order and reversed *)
Example C17_enum5 : hex_enum 5 (rev (fst (hex_add_qubits 5))) (snd (hex_add_qubits 5)) /\ length (fst (hex_add_qubits 5)) = 19%nat /\ length (snd (hex_add_qubits 5)) = 9%nat.
Proof. split; [split|split; reflexivity]; [apply Permutation_sym, Permutation_rev|apply Permutation_refl]. Qed.

(** ** C18: the square-octagon family *)
(** corners of a face: of a square the four diagonal neighbours, of an octagon the eight points a knight's move away *)
Definition sq_corner (f q : coord) : Prop := Z.abs (fst q - fst f) = 1 /\ Z.abs (snd q - snd f) = 1.
Definition oct_corner (f q : coord) : Prop :=
  let dx := Z.abs (fst q - fst f) in let dy := Z.abs (snd q - snd f) in (dx = 1 /\ dy = 2) \/ (dx = 2 /\ dy = 1).
Lemma sq_corner_iff f q : cmem q (sq_nb f) = true <-> sq_corner f q.
Proof. rewrite cmem_In. destruct f as [x y], q as [u v]. unfold sq_corner. cbn [sq_nb In fst snd]. split.
  - intros H. repeat (destruct H as [H|H]; [injection H as <- <-; lia|]). contradiction H.
  - intros H. assert (C : (u = x - 1 /\ v = y - 1) \/ (u = x + 1 /\ v = y - 1) \/ (u = x + 1 /\ v = y + 1) \/ (u = x - 1 /\ v = y + 1)) by lia.
    destruct C as [[-> ->]|[[-> ->]|[[-> ->]|[-> ->]]]]; tauto. Qed.
Lemma oct_corner_iff f q : cmem q (oct_nb f) = true <-> oct_corner f q.
Proof. rewrite cmem_In. destruct f as [x y], q as [u v]. unfold oct_corner. cbn [oct_nb In fst snd]. split.
  - intros H. repeat (destruct H as [H|H]; [injection H as <- <-; lia|]). contradiction H.
  - intros H. assert (C : (u = x - 2 /\ v = y - 1) \/ (u = x - 1 /\ v = y - 2) \/ (u = x + 1 /\ v = y - 2) \/ (u = x + 2 /\ v = y - 1) \/ (u = x + 2 /\ v = y + 1) \/ (u = x + 1 /\ v = y + 2) \/ (u = x - 1 /\ v = y + 2) \/ (u = x - 2 /\ v = y + 1)) by lia.
    destruct C as [[-> ->]|[[-> ->]|[[-> ->]|[[-> ->]|[[-> ->]|[[-> ->]|[[-> ->]|[-> ->]]]]]]]]; tauto. Qed.

Lemma so_H L d data sq oct c : (3 <= d)%Z -> (d mod 2 = 1)%Z -> so_enum d data sq oct -> SquareOctagonColorCode L d data sq oct = Ret c ->
  cc_lay c = flayout data (map sonb (sofaces sq oct)) /\ cc_H c = mkNd (length data) (map (frow data) (map sonb (sofaces sq oct))).
Proof. intros Hd Ho E EC. unfold SquareOctagonColorCode, ColorCode in EC. rewrite (so_layout_faces d data sq oct E Ho Hd) in EC.
  destruct (CSSCode _ _ _ _ _ _) in EC; [|discriminate]. injection EC as <-. cbn [cc_lay cc_H]. split; auto. now rewrite flayout_H by (apply (so_data_nodup d data sq oct E Ho Hd)). Qed.

Theorem C18_code : forall L d data sq oct, (3 <= d)%Z -> (d mod 2 = 1)%Z -> so_enum d data sq oct ->
  exists c, SquareOctagonColorCode L d data sq oct = Ret c /\
    (let H := nd_rows (cc_H c) in let n := length data in let anc := sq ++ oct in
     css_Hx (cc_css c) = cc_H c /\ css_Hz (cc_css c) = cc_H c /\ nd_cols (cc_H c) = n /\ wf n H /\ length H = length anc /\
     (2 * Z.of_nat n = d * d + 2 * d - 1)%Z /\ (2 * length anc + 1 = n)%nat /\
     (8 * Z.of_nat (length sq) = d * d - 1)%Z /\ (8 * Z.of_nat (length oct) = d * d + 4 * d - 5)%Z /\
     sc_n (css_stab (cc_css c)) = n /\ sc_k (css_stab (cc_css c)) = 1%Z /\ css_distance (cc_css c) = d /\
     indep n H /\
     (forall j, (j < length sq)%nat -> weight (nth j H []) = 4%nat) /\
     (forall j, (length sq <= j < length anc)%nat -> weight (nth j H []) = 4%nat \/ weight (nth j H []) = 8%nat) /\
     (forall i j, (i < length H)%nat -> (j < length H)%nat -> dot (nth i H []) (nth j H []) = false) /\
     (forall i j, (i < length H)%nat -> (j < length H)%nat -> i <> j ->
        let common := length (filter (fun q => nth q (nth i H []) false && nth q (nth j H []) false) (seq 0 n)) in
        common = 0%nat \/ common = 2%nat) /\
     (forall i j, (i < n)%nat -> (j < length anc)%nat ->
        (nth i (nth j H []) false = true <->
         if (j <? length sq)%nat then sq_corner (nth j anc (0,0)) (nth i data (0,0)) else oct_corner (nth j anc (0,0)) (nth i data (0,0))))).
Proof. intros L d data sq oct Hd Ho E.
  pose proof (so_data_nodup d data sq oct E Ho Hd) as ND. pose proof (so_faces_nodup sq oct) as NF. pose proof (so_faces_even d data sq oct E Ho Hd) as FE.
  pose proof (so_n d data sq oct E Ho Hd) as Hn. pose proof (so_nsq d data sq oct E Ho Hd) as Hs. pose proof (so_noct d data sq oct E Ho Hd) as Hc. cbv zeta in Hn, Hs, Hc.
  destruct (so_d_m d Ho Hd) as [Em Hm]. set (m := Z.to_nat ((d - 1) / 2)) in *. clearbody m.
  set (fs := sofaces sq oct) in *. assert (Lf : length fs = (length sq + length oct)%nat) by apply sofaces_len.
  assert (NE : map sonb fs <> []) by (destruct fs; [cbn in Lf; nia|discriminate]).
  destruct (color_from_faces L d data (map sonb fs) ND NF NE ltac:(lia) FE) as (c & EC & EH & EL & ED & HX & HZ & CD & CL & Cn & Ck & ECSS).
  exists c. unfold SquareOctagonColorCode. rewrite (so_layout_faces d data sq oct E Ho Hd). split; [exact EC|]. cbv zeta. rewrite EH. cbn [nd_rows nd_cols].
  pose proof (so_rows_indep d data sq oct E Ho Hd) as I. pose proof (frows_wf data (map sonb fs)) as W.
  assert (NW : forall j, (j < length fs)%nat -> nth j (map (frow data) (map sonb fs)) [] = frow data (sonb (nth j fs (false, (0,0))))).
  { intros j Hj. rewrite map_map. rewrite (nth_indep _ [] (frow data (sonb (false, (0,0))))) by now rewrite map_length. now rewrite (map_nth (fun x => frow data (sonb x))). }
  assert (NFa : forall j, (j < length fs)%nat -> nth j fs (false, (0,0)) = ((j <? length sq)%nat, nth j (sq ++ oct) (0,0))).
  { intros j Hj. unfold fs, sofaces. destruct (Nat.ltb_spec j (length sq)).
    - rewrite !app_nth1 by (rewrite ?map_length; auto). rewrite (nth_indep _ _ (true, (0,0))) by now rewrite map_length. apply (map_nth (pair true)).
    - rewrite !app_nth2 by (rewrite ?map_length; auto). rewrite map_length. apply (map_nth (pair false)). }
  assert (WS : forall j, (j < length fs)%nat -> weight (nth j (map (frow data) (map sonb fs)) []) = 4%nat \/ ((length sq <= j)%nat /\ weight (nth j (map (frow data) (map sonb fs)) []) = 8%nat)).
  { intros j Hj. rewrite NW by auto. rewrite frow_weight by (auto using sonb_NoDup).
    destruct (so_face_size d data sq oct E Ho Hd (nth j fs (false,(0,0))) (nth_In _ _ Hj)) as [H|[H1 H2]]; [now left|right]. split; auto.
    rewrite NFa in H1 by auto. cbn [fst] in H1. now apply Nat.ltb_ge. }
  rewrite !map_length, app_length.
  split; [rewrite HX; exact EH|]. split; [rewrite HZ; exact EH|]. split; [reflexivity|]. split; [exact W|].
  split; [lia|]. split; [rewrite Hn, Em; nia|]. split; [lia|]. split; [nia|]. split; [nia|]. split; [exact Cn|].
  split; [|split; [exact CD|split; [exact I|split; [|split; [|split; [|split]]]]]].
  - rewrite Ck. pose proof (rk_unique (length data) _ (length (map (frow data) (map sonb fs))) W (has_rank_indep _ _ W I)) as R.
    rewrite <- R, !map_length. lia.
  - intros j Hj. destruct (WS j ltac:(lia)) as [|[]]; [auto|lia].
  - intros j Hj. destruct (WS j ltac:(lia)) as [|[]]; auto.
  - intros i j Hi Hj. rewrite !NW by auto. rewrite frow_dot; auto using sonb_NoDup. apply FE; apply in_map, nth_In; auto.
  - intros i j Hi Hj Hne. match goal with |- ?c = _ \/ _ => set (common := c) end.
    assert (EO : common = length (overlap data (sonb (nth i fs (false,(0,0)))) (sonb (nth j fs (false,(0,0)))))).
    { subst common. rewrite <- overlap_len by (auto using sonb_NoDup).
      rewrite (filter_ext_in _ (fun q => (fun p => cmem p (sonb (nth i fs (false,(0,0)))) && cmem p (sonb (nth j fs (false,(0,0))))) (nth q data (0,0)))).
      2: { intros q Hq. apply in_seq in Hq. rewrite !NW by auto. now rewrite !frow_nth by lia. }
      exact (filter_nth_len (fun p => cmem p (sonb (nth i fs (false,(0,0)))) && cmem p (sonb (nth j fs (false,(0,0))))) data). }
    rewrite EO. apply (so_face_two d data sq oct E Ho Hd); try now apply nth_In.
    intros EE. apply Hne. apply (proj1 (NoDup_nth fs (false,(0,0))) (so_fs_nodup d data sq oct E Ho Hd)); auto.
  - intros i j Hi Hj. rewrite NW by lia. rewrite frow_nth by auto. rewrite NFa by lia. unfold sonb. cbn [fst snd].
    destruct (j <? length sq)%nat; [apply sq_corner_iff|apply oct_corner_iff]. Qed.
Print Assumptions C18_code.

Theorem C18_adjacency : forall L d data sq oct c, (3 <= d)%Z -> (d mod 2 = 1)%Z -> so_enum d data sq oct ->
  SquareOctagonColorCode L d data sq oct = Ret c ->
  let q2f := lay_q2f (cc_lay c) in let f2q := lay_f2q (cc_lay c) in let H := nd_rows (cc_H c) in let na := length (sq ++ oct) in
  map fst q2f = seq 0 (length data) /\ map fst f2q = seq 0 na /\ graph_ok f2q q2f /\
  (forall j qs, In (j, qs) f2q -> NoDup qs /\ forall i, In i qs <-> (i < length data)%nat /\ nth i (nth j H []) false = true) /\
  (forall i fs, In (i, fs) q2f -> NoDup fs /\ forall j, In j fs <-> (j < na)%nat /\ nth i (nth j H []) false = true).
Proof. intros L d data sq oct c Hd Ho E EC. cbv zeta.
  pose proof (so_data_nodup d data sq oct E Ho Hd) as ND. pose proof (so_faces_nodup sq oct) as NF.
  destruct (so_H L d data sq oct c Hd Ho E EC) as [-> ->]. cbn [nd_rows]. set (fs := sofaces sq oct) in *.
  assert (Lf : length fs = length (sq ++ oct)) by (rewrite app_length; apply sofaces_len).
  assert (NW : forall j, (j < length fs)%nat -> nth j (map (frow data) (map sonb fs)) [] = frow data (nth j (map sonb fs) [])).
  { intros j Hj. rewrite (nth_indep _ [] (frow data [])) by now rewrite !map_length. apply (map_nth (frow data)). }
  split; [rewrite flayout_q2f by auto; unfold q2f_of; rewrite map_map; cbn; apply map_id|].
  split; [rewrite keys_f2q; now rewrite map_length, Lf|]. split; [apply flayout_graph; auto|].
  { intros F HF. apply in_map_iff in HF. destruct HF as (f & <- & Hf). destruct (so_face_size d data sq oct E Ho Hd f Hf) as [-> | [_ ->]]; lia. }
  split.
  - intros j qs Hq. apply In_f2q in Hq. destruct Hq as [Hj ->]. rewrite map_length in Hj. split.
    + apply NoDup_qbs; auto. rewrite Forall_forall in NF. apply NF. apply nth_In. now rewrite map_length.
    + intros i. rewrite (In_qbs data _ i ND), NW by auto.
      split; intros [Hi HH]; split; auto; [rewrite frow_nth by auto; now apply cmem_In|rewrite frow_nth in HH by auto; now apply cmem_In].
  - intros i gs Hf. rewrite flayout_q2f in Hf by auto. unfold q2f_of in Hf. apply in_map_iff in Hf. destruct Hf as (q & Eq & Hq). injection Eq as -> <-. apply in_seq in Hq.
    split; [apply NoDup_filter, seq_NoDup|]. intros j. rewrite filter_In, in_seq, map_length, <- Lf.
    split; intros [Hj HH]; (split; [lia|]).
    + rewrite NW, frow_nth by lia. exact HH.
    + rewrite NW, frow_nth in HH by lia. exact HH. Qed.
Print Assumptions C18_adjacency.

Theorem C18_enumeration_independent : forall L d data sq oct data' sq' oct' c c', (3 <= d)%Z -> (d mod 2 = 1)%Z ->
  so_enum d data sq oct -> so_enum d data' sq' oct' ->
  SquareOctagonColorCode L d data sq oct = Ret c -> SquareOctagonColorCode L d data' sq' oct' = Ret c' ->
  exists pi rho, perm_fun (length data) pi /\ perm_fun (length (sq ++ oct)) rho /\ length data' = length data /\ length (sq' ++ oct') = length (sq ++ oct) /\
    forall i j, (i < length data)%nat -> (j < length (sq ++ oct))%nat ->
      nth i (nth j (nd_rows (cc_H c')) []) false = nth (pi i) (nth (rho j) (nd_rows (cc_H c)) []) false.
Proof. intros L d data sq oct data' sq' oct' c c' Hd Ho E E' EC EC'.
  destruct (so_H L d data sq oct c Hd Ho E EC) as [_ ->]. destruct (so_H L d data' sq' oct' c' Hd Ho E' EC') as [_ ->]. cbn [nd_rows].
  assert (PD : Permutation data data') by (eapply Permutation_trans; [apply E|apply Permutation_sym, E']).
  assert (PF : Permutation (sofaces sq oct) (sofaces sq' oct')).
  { apply Permutation_app; apply Permutation_map; (eapply Permutation_trans; [apply E|apply Permutation_sym, E']). }
  destruct (perm_renames data data' (0,0) PD) as (pi & F1 & F2). destruct (perm_renames _ _ (false,(0,0)) PF) as (rho & G1 & G2).
  pose proof (Permutation_length PD) as LD. pose proof (Permutation_length PF) as LF. rewrite !sofaces_len in *. rewrite !app_length.
  exists pi, rho. split; auto. split; auto. split; auto. split; auto.
  intros i j Hi Hj. rewrite !so_rows_nth; rewrite ?sofaces_len; try lia.
  - rewrite F2, G2 by auto. reflexivity.
  - now apply F1.
  - now apply G1. Qed.
Print Assumptions C18_enumeration_independent.

Theorem C18_distance_upper_bound : forall L d data sq oct c, (3 <= d)%Z -> (d mod 2 = 1)%Z -> so_enum d data sq oct ->
  SquareOctagonColorCode L d data sq oct = Ret c ->
  exists v, Z.of_nat (weight v) = d /\ nontrivial_logical (length data) (nd_rows (cc_H c)) (nd_rows (cc_H c)) v.
Proof. intros L d data sq oct c Hd Ho E EC. exists (so_bd data). destruct (so_H L d data sq oct c Hd Ho E EC) as [_ ->]. cbn [nd_rows].
  split; [rewrite (so_bd_weight d data sq oct E Ho Hd); lia|]. split; [exact (so_bd_kernel d data sq oct E Ho Hd)|exact (so_bd_not_stab d data sq oct E Ho Hd)]. Qed.
Print Assumptions C18_distance_upper_bound.

Theorem C18_distance : forall L d data sq oct c, (3 <= d)%Z -> (d mod 2 = 1)%Z -> so_enum d data sq oct ->
  SquareOctagonColorCode L d data sq oct = Ret c ->
  min_weight (nontrivial_logical (length data) (nd_rows (cc_H c)) (nd_rows (cc_H c))) (Z.to_nat d).
Proof. intros L d data sq oct c Hd Ho E EC. split.
  - destruct (C18_distance_upper_bound L d data sq oct c Hd Ho E EC) as (v & W & N). exists v. split; auto. lia.
  - intros v [K N]. destruct (so_H L d data sq oct c Hd Ho E EC) as [_ EH]. rewrite EH in K, N. cbn [nd_rows] in K, N.
    pose proof (so_distance d data sq oct v E Ho Hd K N). lia. Qed.
Print Assumptions C18_distance.

Theorem C18_lightsout_decodes : forall sv L d data sq oct c err, solver_ok sv -> (3 <= d)%Z -> (d mod 2 = 1)%Z -> so_enum d data sq oct ->
  SquareOctagonColorCode L d data sq oct = Ret c -> length err = length data ->
  exists syn st est lights', cc_get_syndrome c err = Ret syn /\
    preconstruct_z3_instance (LightsOut (lay_f2q (cc_lay c)) (lay_q2f (cc_lay c))) = (st, Ret tt) /\
    solve sv syn st = (st, Ret (map b2n est, lights')) /\ length est = length data /\
    cc_get_syndrome c (vxor err est) = Ret (vzero (length (sq ++ oct))) /\
    (forall e', length e' = length data -> cc_get_syndrome c e' = Ret syn -> (weight est <= weight e')%nat) /\
    ((2 * Z.of_nat (weight err) < d)%Z -> span (length data) (nd_rows (cc_H c)) (vxor err est)).
Proof. intros sv L d data sq oct c err Hsv Hd Ho E EC He.
  destruct (C18_adjacency L d data sq oct c Hd Ho E EC) as (A1 & A2 & A3 & A4 & _). destruct (so_H L d data sq oct c Hd Ho E EC) as [_ EH].
  assert (P4 : wf (length data) (nd_rows (cc_H c))) by (rewrite EH; apply frows_wf).
  assert (P5 : length (nd_rows (cc_H c)) = length (sq ++ oct)) by (rewrite EH; cbn [nd_rows]; rewrite !map_length, app_length; apply sofaces_len).
  destruct (lights_decode sv (length data) (length (sq ++ oct)) (nd_rows (cc_H c)) _ _ err Hsv P4 P5 A1 A2 A3 A4 He) as (st & est & l' & B1 & B2 & B3 & B4 & B5).
  assert (SY : forall e, length e = length data -> cc_get_syndrome c e = Ret (mulMV (nd_rows (cc_H c)) e)).
  { intros e Hl. unfold cc_get_syndrome, matvec. rewrite EH. cbn [nd_cols]. rewrite Hl, Nat.eqb_refl. reflexivity. }
  exists (mulMV (nd_rows (cc_H c)) err), st, est, l'. split; [now apply SY|]. split; [exact B1|]. split; [exact B2|]. split; [exact B3|].
  split; [rewrite SY by (rewrite vxor_length; unfold vec in *; lia); now rewrite B4|].
  split; [intros e' He' Es; rewrite SY in Es by auto; injection Es as Es; auto|].
  intros Hw. apply (least_corrects _ _ err est (length (sq ++ oct)) (Z.to_nat d) P4 He B3 B4 (B5 err He eq_refl)); [|lia].
  apply (C18_distance L d data sq oct c Hd Ho E EC). Qed.
Print Assumptions C18_lightsout_decodes.

(** Every even distance is refused: an octagon at the border keeps an odd number of its corners. *)
Theorem C18_even_distance_raises : forall L d data sq oct, (2 <= d)%Z -> (d mod 2 = 0)%Z -> so_enum d data sq oct ->
  exists e, SquareOctagonColorCode L d data sq oct = Raise e.
Proof. exact so_even_raises. Qed.
Print Assumptions C18_even_distance_raises.
Example C18_even_ex : so_enum 4 (rev (so_data (so_add_qubits 4))) (so_sq (so_add_qubits 4)) (so_oct (so_add_qubits 4)) /\ length (so_data (so_add_qubits 4)) = 11%nat /\
  SquareOctagonColorCode ldpc_ref 2 (so_data (so_add_qubits 2)) (so_sq (so_add_qubits 2)) (so_oct (so_add_qubits 2)) = Raise InvalidCSSCodeError.
Proof. split; [split|split; [reflexivity|vm_compute; reflexivity]]; try apply Permutation_refl. apply Permutation_sym, Permutation_rev. Qed.

Example C18_enum7 : so_enum 7 (so_data (so_add_qubits 7)) (rev (so_sq (so_add_qubits 7))) (so_oct (so_add_qubits 7)) /\ length (so_data (so_add_qubits 7)) = 31%nat.
Proof. split; [split|reflexivity]; try apply Permutation_refl. apply Permutation_sym, Permutation_rev. Qed.
