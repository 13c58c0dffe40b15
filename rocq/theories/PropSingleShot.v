(* Property C59: the single-shot simulator (SingleShotModel).  Specification vocabulary: vectors and spans over GF(2)
   (Lin); [explains P w f]: the decoder f answers every syndrome P e of an error e of w bits with w bits of the same
   syndrome; [logicals_ok n S C L]: L decides, among the vectors that commute with the checks C, which ones are products of
   the stabilizers S. *)
From Coq Require Import List Arith Bool Lia ZArith QArith Lqa.
From Verif Require Import Lin Lin2 AnalogModel AnalogModel2 AnalogProofs AnalogProofs4 PropAnalog SingleShotModel.
Import ListNotations.
Local Open Scope nat_scope.

Definition explains (P : mat) (w : nat) (f : list Q -> vec) : Prop :=
  forall e, length e = w -> length (f (bits (mulMV P e))) = w /\ mulMV P (f (bits (mulMV P e))) = mulMV P e.
Definition logicals_ok (n : nat) (S C L : mat) : Prop :=
  (forall v, length v = n -> (forall h, In h C -> dot h v = false) -> (forall l, In l L -> dot l v = false) -> span n S v) /\
  (forall s l, In s S -> In l L -> dot l s = false).
(* X errors are seen by the checks Hz, Z errors by the checks Hx; meta checks count if they are given and switched on *)
Definition checks (c : sscfg) (s : side) : mat := match s with SX => ss_hz c | SZ => ss_hx c end.
Definition metas (c : sscfg) (s : side) : option mat :=
  match s with SX => if ss_z_meta c then ss_mz c else None | SZ => if ss_x_meta c then ss_mx c else None end.
(* a decoder that works: it is made with a matrix P and answers every syndrome of an error with an error of that syndrome;
   a decoder for analog syndromes does so for every analog syndrome that thresholds (at 0, -: violated) to the syndrome *)
Definition works (c : sscfg) (d : dname) (w : nat) (f : list Q -> list Q -> vec) : Prop :=
  exists P, pcm_of c d = Some P /\ forall ch, explains P w (f ch).
Definition threshold (q : list Q) : vec := map (fun x => Qle_bool x 0) q.
Definition works_analog (c : sscfg) (d : dname) (w : nat) (f : list Q -> list Q -> vec) : Prop :=
  exists P, pcm_of c d = Some P /\ forall ch q e, length e = w -> threshold q = mulMV P e -> length (f ch q) = w /\ mulMV P (f ch q) = mulMV P e.
Definition commute (A B : mat) : Prop := forall a b, In a A -> In b B -> dot a b = false.

(* ------------------------------------------------------------------ helpers *)
Lemma generate_err_fresh us chan rx rz ex ez n : generate_err us chan (rx, rz) = Some (ex, ez) -> length rx = n -> length rz = n ->
  exists fx fz, generate_err us chan (vzero n, vzero n) = Some (fx, fz) /\ length fx = n /\ length fz = n /\ ex = vxor rx fx /\ ez = vxor rz fz.
Proof.
  destruct chan as [[pxs pys] pzs]. unfold generate_err. cbn [fst snd].
  revert pxs pys pzs rx rz ex ez n. induction us as [|u us IH]; intros pxs pys pzs rx rz ex ez n E Lx Lz.
  - cbn in *. injection E as <- <-. exists (vzero n), (vzero n). rewrite !vzero_length.
    split; auto. split; auto. split; auto.
    rewrite !(vxor_comm _ (vzero n)), !(vxor_zero_l n) by auto. auto.
  - cbn [generate_err_loop] in *. destruct pxs as [|px pxs], pys as [|py pys], pzs as [|pz pzs], rx as [|x rx], rz as [|z rz]; try discriminate.
    destruct n as [|n]; [discriminate|]. cbn [vzero repeat] in *. cbn [length] in Lx, Lz.
    destruct (generate_err_loop us pxs pys pzs rx rz) as [[xs zs]|] eqn:G; [|discriminate].
    destruct (IH _ _ _ _ _ _ _ n G) as [fx [fz [F [A [B [C D]]]]]]; try lia.
    unfold vzero in F. rewrite F. destruct (draw px py pz u) as [bx bz]. injection E as <- <-.
    exists ((if bx then negb false else false) :: fx), ((if bz then negb false else false) :: fz). split; [reflexivity|].
    cbn [length]. split; [lia|]. split; [lia|]. rewrite C, D. split; [destruct bx, x|destruct bz, z]; reflexivity.
Qed.

Lemma logical_flag n S C L v : wf n S -> wf n C -> wf n L -> commute C S -> logicals_ok n S C L -> length v = n ->
  mulMV C v = vzero (length C) -> (is_logical_err L v = false <-> span n S v).
Proof.
  intros WS WC WL CO [LO1 LO2] LV Z. split.
  - intros F. apply LO1; auto.
    + intros h I. apply (In_nth _ _ []) in I as [i [Li <-]].
      apply (f_equal (fun r => nth i r false)) in Z. unfold mulMV in Z.
      rewrite (nth_indep _ false (dot [] v)) in Z by (rewrite map_length; auto). rewrite (map_nth (fun r => dot r v)) in Z. etransitivity; [exact Z|].
      unfold vzero. apply nth_repeat.
    + intros l I. destruct (dot l v) eqn:D; auto. assert (is_logical_err L v = true) by (apply is_logical_err_spec; eauto). congruence.
  - intros SP. destruct (is_logical_err L v) eqn:F; auto. apply is_logical_err_spec in F as [l [I D]].
    assert (dot l v = false) by (apply (dot_span_zero n S l WS); auto). congruence.
Qed.

Lemma same_syndrome_zero C n a b : length a = n -> length b = n -> mulMV C b = mulMV C a -> mulMV C (vxor a b) = vzero (length C).
Proof. intros A B E. rewrite (mulMV_vxor C n) by auto. rewrite E. apply vxor_self'. apply mulMV_length. Qed.

(* ------------------------------------------------------------------ the result of a sample *)
(* With a final decoder that explains its syndrome, and logical operators of a CSS code, the two flags of a sample say
   exactly whether the residual X and Z errors are outside the stabilizer group: for every history of draws and every
   behaviour of the decoders in the noisy rounds. *)
Theorem C59_flags virt sig dec c ds u ex ez xd zd lx lz :
  wf (ss_n c) (ss_hx c) -> wf (ss_n c) (ss_hz c) -> wf (ss_n c) lx -> wf (ss_n c) lz ->
  commute (ss_hz c) (ss_hx c) -> commute (ss_hx c) (ss_hz c) ->
  ss_lx c = Some lx -> ss_lz c = Some lz ->
  logicals_ok (ss_n c) (ss_hx c) (ss_hz c) lz -> logicals_ok (ss_n c) (ss_hz c) (ss_hx c) lx ->
  works c (Bpd SX) (ss_n c) (dec (length ds) (Bpd SX)) -> works c (Bpd SZ) (ss_n c) (dec (length ds) (Bpd SZ)) ->
  ss_final virt sig dec c ds u = SRet ((ex, ez), (xd, zd)) -> length ex = ss_n c -> length ez = ss_n c ->
  exists fx fz, ss_sample virt sig dec c ds u = SRet (fx, fz) /\
    (fx = false <-> span (ss_n c) (ss_hx c) (vxor ex xd)) /\ (fz = false <-> span (ss_n c) (ss_hz c) (vxor ez zd)).
Proof.
  intros Wx Wz Wlx Wlz C1 C2 Elx Elz LZ LX EX0 EZ0 F Lx Lz.
  destruct EX0 as [PX [EPX EX0]]. injection EPX as <-. specialize (EX0 (err_channel c SX)). rename EX0 into EX.
  destruct EZ0 as [PZ [EPZ EZ0]]. injection EPZ as <-. specialize (EZ0 (err_channel c SZ)). rename EZ0 into EZ. unfold ss_sample. rewrite F. cbn [sbind]. rewrite Elx, Elz.
  exists (is_logical_err lz (vxor ex xd)), (is_logical_err lx (vxor ez zd)). split; [reflexivity|].
  unfold ss_final in F. destruct (ss_rounds virt sig dec c 0 ds (vzero (ss_n c), vzero (ss_n c))) as [r|]; [|discriminate]. cbn [sbind] in F.
  destruct (generate_err u (data_channel c) r) as [[ax az]|]; [|discriminate]. injection F as -> -> <- <-.
  destruct (EX ex Lx) as [A1 A2]. destruct (EZ ez Lz) as [B1 B2].
  split.
  - apply (logical_flag (ss_n c) _ (ss_hz c)); auto; [apply vxor_length'; auto|]. now apply (same_syndrome_zero _ (ss_n c)).
  - apply (logical_flag (ss_n c) _ (ss_hx c)); auto; [apply vxor_length'; auto|]. now apply (same_syndrome_zero _ (ss_n c)).
Qed.
Print Assumptions C59_flags.

(* One noisy round: fresh errors that depend on the draws only are added to the residual error, and what is decoded is a
   function of the noisy syndrome. *)
Theorem C59_round virt sig dec c rnd d rx rz r' : length rx = ss_n c -> length rz = ss_n c ->
  ss_round virt sig dec c rnd d (rx, rz) = SRet r' ->
  exists fx fz xd zd, generate_err (dr_u d) (data_channel c) (vzero (ss_n c), vzero (ss_n c)) = Some (fx, fz) /\ length fx = ss_n c /\ length fz = ss_n c /\
    decode_side virt sig dec c rnd SX (get_noisy_syndrome c SX d (mulMV (ss_hz c) (vxor rx fx))) = SRet xd /\
    decode_side virt sig dec c rnd SZ (get_noisy_syndrome c SZ d (mulMV (ss_hx c) (vxor rz fz))) = SRet zd /\
    r' = (vxor (vxor rx fx) xd, vxor (vxor rz fz) zd).
Proof.
  intros Lx Lz E. unfold ss_round in E. destruct (generate_err (dr_u d) (data_channel c) (rx, rz)) as [[ex ez]|] eqn:G; [|discriminate].
  destruct (generate_err_fresh _ _ _ _ _ _ (ss_n c) G Lx Lz) as [fx [fz [F [A [B [-> ->]]]]]].
  destruct (decode_side virt sig dec c rnd SX _) as [xd|] eqn:DX; [|discriminate]. cbn [sbind] in E.
  destruct (decode_side virt sig dec c rnd SZ _) as [zd|] eqn:DZ; [|discriminate]. cbn [sbind] in E.
  injection E as <-. exists fx, fz, xd, zd. auto 10.
Qed.
Print Assumptions C59_round.

(* The rounds are chained: every round starts from the residual error of the one before, the first from no error, and the
   errors of the perfect round are added to the residual error of the last noisy round. *)
Theorem C59_history virt sig dec c ds u ex ez xd zd : ss_final virt sig dec c ds u = SRet ((ex, ez), (xd, zd)) ->
  exists hist : list (vec * vec), length hist = S (length ds) /\ nth 0 hist ([], []) = (vzero (ss_n c), vzero (ss_n c)) /\
    (forall i, i < length ds -> ss_round virt sig dec c i (nth i ds (mkDraws [] [] [] [] [])) (nth i hist ([], [])) = SRet (nth (S i) hist ([], []))) /\
    generate_err u (data_channel c) (nth (length ds) hist ([], [])) = Some (ex, ez).
Proof.
  unfold ss_final. destruct (ss_rounds virt sig dec c 0 ds (vzero (ss_n c), vzero (ss_n c))) as [r|] eqn:R; [|discriminate]. cbn [sbind].
  destruct (generate_err u (data_channel c) r) as [[ax az]|] eqn:G; [|discriminate]. intros F. injection F as -> -> _ _.
  assert (K : forall ds rnd r0, ss_rounds virt sig dec c rnd ds r0 = SRet r ->
    exists hist : list (vec * vec), length hist = S (length ds) /\ nth 0 hist ([], []) = r0 /\
      (forall i, i < length ds -> ss_round virt sig dec c (rnd + i) (nth i ds (mkDraws [] [] [] [] [])) (nth i hist ([], [])) = SRet (nth (S i) hist ([], []))) /\
      nth (length ds) hist ([], []) = r).
  { clear. induction ds as [|d ds IH]; intros rnd r0 E; cbn [ss_rounds] in E.
    - injection E as <-. exists [r0]. cbn. repeat split; auto. intros; lia.
    - destruct (ss_round virt sig dec c rnd d r0) as [r1|] eqn:E1; [|discriminate]. cbn [sbind] in E.
      destruct (IH _ _ E) as [h [L [H0 [HS HL]]]]. exists (r0 :: h). cbn [length nth]. split; [lia|]. split; [reflexivity|]. split; [|exact HL].
      intros [|i] Li; [rewrite Nat.add_0_r, H0; exact E1|]. cbn [nth]. replace (rnd + S i) with (S rnd + i) by lia. apply HS. lia. }
  destruct (K ds 0 _ R) as [h [L [H0 [HS HL]]]]. exists h. rewrite HL. auto.
Qed.
Print Assumptions C59_history.

(* ------------------------------------------------------------------ what a round leaves behind *)
Lemma from_bits_bits s : from_bits (bits s) = s.
Proof. unfold from_bits, bits. rewrite map_map. transitivity (map (fun b : bool => b) s); [|apply map_id]. apply map_ext. intros []; reflexivity. Qed.
Lemma trunc_bits s : map (fun q => inject_Z (qtrunc q)) (bits s) = bits s.
Proof. unfold bits. rewrite map_map. apply map_ext. intros []; reflexivity. Qed.

(* the measured syndrome of hard decoding, and the flips in it *)
Definition flips (c : sscfg) (s : side) (d : draws) : vec := generate_syndr_err (dr_s d s) (syndr_channel c s).

(* Two-stage hard decoding with meta checks: the repaired syndrome satisfies every meta check, and the residual error's
   syndrome is the difference between the flips that happened and the flips that were repaired, which the meta checks
   cannot see. *)
Theorem C59_two_stage_meta virt sig dec c rnd s d M e y :
  ss_single_stage c = false -> ss_analog_tg c = false -> ss_analog_info c = false -> (~ ss_ser c == 0)%Q ->
  wf (ss_n c) (checks c s) -> metas c s = Some M -> wf (length (checks c s)) M ->
  (forall x, length x = ss_n c -> mulMV M (mulMV (checks c s) x) = vzero (length M)) ->
  works c (Mbp s) (length (checks c s)) (dec rnd (Mbp s)) ->
  length e = ss_n c -> length (flips c s d) = length (checks c s) ->
  decode_side virt sig dec c rnd s (get_noisy_syndrome c s d (mulMV (checks c s) e)) = SRet y ->
  exists w, length w = length (checks c s) /\ mulMV M (vxor w (flips c s d)) = vzero (length M) /\
    y = dec rnd (Bpd s) (err_channel c s) (bits (vxor (mulMV (checks c s) e) (vxor (flips c s d) w))) /\
    (length y = ss_n c -> mulMV (checks c s) y = vxor (mulMV (checks c s) e) (vxor (flips c s d) w) ->
     mulMV (checks c s) (vxor e y) = vxor (flips c s d) w).
Proof.
  intros E1 E2 E3 NZ WH EM WM MH EX0 Le Lf D. change (checks c s) with (side_H c s) in *. change (metas c s) with (side_M c s) in *. 
  destruct EX0 as [M' [EM' EX0]]. unfold pcm_of in EM'. rewrite E1, EM in EM'. injection EM' as <-. specialize (EX0 (syndr_channel c s)). rename EX0 into EX. unfold decode_side in D. rewrite E1 in D. unfold two_stage_side in D. rewrite E2 in D.
  unfold get_noisy_syndrome in D. rewrite E2, E3 in D. cbn [orb] in D.
  destruct (Qeq_bool (ss_ser c) 0) eqn:Z; [apply Qeq_bool_iff in Z; contradiction|]. cbn [negb] in D.
  unfold repaired in D. rewrite EM in D. unfold meta_code_decoding in D. rewrite E2, E3 in D. cbn [orb] in D. rewrite from_bits_bits in D.
  fold (flips c s d) in D. set (H := side_H c s) in *. set (f := flips c s d) in *. set (m := length H) in *.
  assert (LHe : length (mulMV H e) = m) by apply mulMV_length.
  assert (Lb : length (vxor (mulMV H e) f) = m) by (apply vxor_length'; auto).
  destruct (EX (vxor (mulMV H e) f) Lb) as [W1 W2].
  set (w := dec rnd (Mbp s) (syndr_channel c s) (bits (mulMV M (vxor (mulMV H e) f)))) in *.
  exists w. split; [exact W1|]. split.
  - rewrite (mulMV_vxor M m) by auto. rewrite W2, (mulMV_vxor M m) by auto. rewrite (MH e Le).
    rewrite (vxor_zero_l (length M)) by apply mulMV_length. apply vxor_self'. apply mulMV_length.
  - injection D as <-. rewrite <- (vxor_assoc (mulMV H e) f w). split; [reflexivity|].
    intros Ly Ey. rewrite (mulMV_vxor H (ss_n c)) by auto. rewrite Ey, vxor_assoc, (vxor_self' m) by auto.
    apply vxor_zero_l. apply vxor_length'; auto.
Qed.
Print Assumptions C59_two_stage_meta.

(* without meta checks the flips stay *)
Theorem C59_two_stage_plain virt sig dec c rnd s d e y :
  ss_single_stage c = false -> ss_analog_tg c = false -> ss_analog_info c = false -> (~ ss_ser c == 0)%Q ->
  metas c s = None -> length e = ss_n c -> length (flips c s d) = length (checks c s) ->
  decode_side virt sig dec c rnd s (get_noisy_syndrome c s d (mulMV (checks c s) e)) = SRet y ->
  y = dec rnd (Bpd s) (err_channel c s) (bits (vxor (mulMV (checks c s) e) (flips c s d))) /\
  (length y = ss_n c -> mulMV (checks c s) y = vxor (mulMV (checks c s) e) (flips c s d) -> mulMV (checks c s) (vxor e y) = flips c s d).
Proof.
  intros E1 E2 E3 NZ EM Le Lf D. change (checks c s) with (side_H c s) in *. change (metas c s) with (side_M c s) in *. 
  unfold decode_side in D. rewrite E1 in D. unfold two_stage_side in D. rewrite E2 in D.
  unfold get_noisy_syndrome in D. rewrite E2, E3 in D. cbn [orb] in D.
  destruct (Qeq_bool (ss_ser c) 0) eqn:Z; [apply Qeq_bool_iff in Z; contradiction|]. cbn [negb] in D.
  unfold repaired in D. rewrite EM, trunc_bits in D. injection D as <-. split; [reflexivity|]. intros Ly Ey.
  rewrite (mulMV_vxor _ (ss_n c)) by auto. rewrite Ey, vxor_assoc, (vxor_self' (length (side_H c s))) by apply mulMV_length.
  apply vxor_zero_l. exact Lf.
Qed.
Print Assumptions C59_two_stage_plain.

(* Single-stage analog decoding with meta checks: with a decoder that explains its syndrome on [[H, I], [0, M]], the residual
   error's syndrome is the difference between the misread checks and the checks the decoder blames, which the meta checks cannot tell apart. *)
Theorem C59_single_stage_meta virt sig dec c rnd s d M e y :
  ss_single_stage c = true -> ss_analog_tg c = true -> (~ ss_ser c == 0)%Q ->
  wf (ss_n c) (checks c s) -> metas c s = Some M -> wf (length (checks c s)) M ->
  (forall x, length x = ss_n c -> mulMV M (mulMV (checks c s) x) = vzero (length M)) ->
  works c (Ssd s) (ss_n c + length (checks c s)) (dec rnd (Ssd s)) ->
  length e = ss_n c -> length (dr_g d s) = length (checks c s) ->
  decode_side virt sig dec c rnd s (get_noisy_syndrome c s d (mulMV (checks c s) e)) = SRet y ->
  exists v, length y = ss_n c /\ length v = length (checks c s) /\
    let misread := vxor (mulMV (checks c s) e) (threshold (get_noisy_analog_syndrome (mulMV (checks c s) e) (dr_g d s))) in
    mulMV (checks c s) (vxor e y) = vxor misread v /\ mulMV M v = mulMV M misread.
Proof.
  intros E1 E2 NZ WH EM WM MH EX0 Le Lg D. change (checks c s) with (side_H c s) in *. change (metas c s) with (side_M c s) in *. change threshold with get_binary_from_analog.
  destruct EX0 as [P' [EP' EX]]. unfold pcm_of in EP'. rewrite E1, EM in EP'. injection EP' as <-.
  unfold decode_side in D. rewrite E1 in D. unfold single_stage_side in D.
  destruct (side_sigma sig c s) as [sigma|]; [|discriminate]. cbn [sbind] in D. rewrite EM in D.
  unfold get_noisy_syndrome in D. rewrite E2, orb_true_r in D.
  destruct (Qeq_bool (ss_ser c) 0) eqn:Z; [apply Qeq_bool_iff in Z; contradiction|]. cbn [negb] in D.
  unfold decode_ss_with_meta in D. rewrite E2 in D. unfold ss_analog_tg_decoding in D.
  set (H := side_H c s) in *. set (m := length H) in *.
  set (a := get_noisy_analog_syndrome (mulMV H e) (dr_g d s)) in *. set (b := get_binary_from_analog a) in *.
  assert (LHe : length (mulMV H e) = m) by apply mulMV_length.
  assert (Lb : length b = m) by (unfold b, a; rewrite binary_of_noisy_length; [exact LHe|congruence]).
  set (P := build_single_stage_pcm (ss_n c) m H M) in *.
  assert (EP : mulMV P (vzero (ss_n c) ++ b) = b ++ mulMV M b).
  { apply C53_single_stage; auto.
    - apply vzero_length.
    - apply mulMV_length.
    - split; auto. rewrite mulMV_zero. rewrite vxor_comm. symmetry. apply vxor_zero_l. exact Lb. }
  destruct (EX (err_channel c s ++ virt a sigma) (vzero (ss_n c) ++ b)) as [X1 X2]. { rewrite app_length, vzero_length. lia. }
  rewrite EP in X1, X2. unfold bits in X1, X2. rewrite map_app in X1, X2. fold (bits b) in X1, X2. fold (bits (mulMV M b)) in X1, X2.
  set (ans := dec rnd (Ssd s) (err_channel c s ++ virt a sigma) (bits b ++ bits (mulMV M b))) in *.
  injection D as <-. exists (skipn (ss_n c) ans).
  assert (Ly : length (firstn (ss_n c) ans) = ss_n c) by (rewrite firstn_length; lia).
  assert (Lv : length (skipn (ss_n c) ans) = m) by (rewrite skipn_length; lia).
  split; [exact Ly|]. split; [exact Lv|].
  rewrite <- (firstn_skipn (ss_n c) ans) in X2. apply C53_single_stage in X2; auto; [|apply mulMV_length]. destruct X2 as [X2 X3].
  assert (Q : mulMV H (vxor e (firstn (ss_n c) ans)) = vxor (vxor (mulMV H e) b) (skipn (ss_n c) ans)).
  { rewrite (mulMV_vxor H (ss_n c)) by auto. rewrite X2. rewrite <- (vxor_assoc (mulMV H e) b), (vxor_assoc b b), (vxor_self' m b) by auto.
    rewrite (vxor_zero_l m) by apply mulMV_length. reflexivity. }
  cbn zeta. fold a. fold b. split; [exact Q|]. rewrite X3, (mulMV_vxor M m) by auto. rewrite (MH e Le). symmetry. apply vxor_zero_l. apply mulMV_length.
Qed.
Print Assumptions C59_single_stage_meta.

(* The same for the analog-information decoder, which is given the analog syndrome itself and the meta syndrome as +1s and
   -1s. *)
Theorem C59_single_stage_info virt sig dec c rnd s d M e y :
  ss_single_stage c = true -> ss_analog_tg c = false -> ss_analog_info c = true -> (~ ss_ser c == 0)%Q ->
  wf (ss_n c) (checks c s) -> metas c s = Some M -> wf (length (checks c s)) M ->
  (forall x, length x = ss_n c -> mulMV M (mulMV (checks c s) x) = vzero (length M)) ->
  works_analog c (Ssd s) (ss_n c + length (checks c s)) (dec rnd (Ssd s)) ->
  length e = ss_n c -> length (dr_g d s) = length (checks c s) ->
  decode_side virt sig dec c rnd s (get_noisy_syndrome c s d (mulMV (checks c s) e)) = SRet y ->
  exists v, length y = ss_n c /\ length v = length (checks c s) /\
    let misread := vxor (mulMV (checks c s) e) (threshold (get_noisy_analog_syndrome (mulMV (checks c s) e) (dr_g d s))) in
    mulMV (checks c s) (vxor e y) = vxor misread v /\ mulMV M v = mulMV M misread.
Proof.
  intros E1 E2 E3 NZ WH EM WM MH EX0 Le Lg D. change (checks c s) with (side_H c s) in *. change (metas c s) with (side_M c s) in *.
  destruct EX0 as [P' [EP' EX]]. unfold pcm_of in EP'. rewrite E1, EM in EP'. injection EP' as <-.
  unfold decode_side in D. rewrite E1 in D. unfold single_stage_side in D.
  destruct (side_sigma sig c s) as [sigma|]; [|discriminate]. cbn [sbind] in D. rewrite EM in D.
  unfold get_noisy_syndrome in D. rewrite E2, E3 in D. cbn [orb] in D.
  destruct (Qeq_bool (ss_ser c) 0) eqn:Z; [apply Qeq_bool_iff in Z; contradiction|]. cbn [negb] in D.
  unfold decode_ss_with_meta in D. rewrite E2, E3 in D. change threshold with get_binary_from_analog in *.
  set (H := side_H c s) in *. set (m := length H) in *.
  set (a := get_noisy_analog_syndrome (mulMV H e) (dr_g d s)) in *. set (b := get_binary_from_analog a) in *.
  assert (LHe : length (mulMV H e) = m) by apply mulMV_length.
  assert (Lb : length b = m) by (unfold b, a; rewrite binary_of_noisy_length; [exact LHe|congruence]).
  set (P := build_single_stage_pcm (ss_n c) m H M) in *.
  assert (EP : mulMV P (vzero (ss_n c) ++ b) = b ++ mulMV M b).
  { apply C53_single_stage; auto.
    - apply vzero_length.
    - apply mulMV_length.
    - split; auto. rewrite mulMV_zero. rewrite vxor_comm. symmetry. apply vxor_zero_l. exact Lb. }
  set (q := a ++ get_signed_from_binary (mulMV M b)) in *.
  assert (Tq : get_binary_from_analog q = mulMV P (vzero (ss_n c) ++ b)).
  { rewrite EP. unfold q, get_binary_from_analog. rewrite map_app. fold (get_binary_from_analog a). fold b. f_equal.
    unfold get_signed_from_binary. rewrite map_map. transitivity (map (fun x : bool => x) (mulMV M b)); [|apply map_id]. apply map_ext. intros []; reflexivity. }
  destruct (EX (err_channel c s ++ syndr_channel c s) q (vzero (ss_n c) ++ b)) as [X1 X2]; [rewrite app_length, vzero_length; lia|exact Tq|].
  rewrite EP in X2. set (ans := dec rnd (Ssd s) (err_channel c s ++ syndr_channel c s) q) in *.
  injection D as <-. exists (skipn (ss_n c) ans).
  assert (Ly : length (firstn (ss_n c) ans) = ss_n c) by (rewrite firstn_length; lia).
  assert (Lv : length (skipn (ss_n c) ans) = m) by (rewrite skipn_length; lia).
  split; [exact Ly|]. split; [exact Lv|].
  rewrite <- (firstn_skipn (ss_n c) ans) in X2. apply C53_single_stage in X2; auto; [|apply mulMV_length]. destruct X2 as [X2 X3].
  assert (Q : mulMV H (vxor e (firstn (ss_n c) ans)) = vxor (vxor (mulMV H e) b) (skipn (ss_n c) ans)).
  { rewrite (mulMV_vxor H (ss_n c)) by auto. rewrite X2. rewrite <- (vxor_assoc (mulMV H e) b), (vxor_assoc b b), (vxor_self' m b) by auto.
    rewrite (vxor_zero_l m) by apply mulMV_length. reflexivity. }
  cbn zeta. fold a. fold b. split; [exact Q|]. rewrite X3, (mulMV_vxor M m) by auto. rewrite (MH e Le). symmetry. apply vxor_zero_l. apply mulMV_length.
Qed.
Print Assumptions C59_single_stage_info.

(* ------------------------------------------------------------------ what goes wrong in the code *)
(* run never returns: the results are written to a file that was opened for reading *)
Theorem C59_run_refuted : forall exists_ rates conv save_interval outs, exists e, ss_run exists_ rates conv save_interval outs = SRaise e.
Proof.
  intros. unfold ss_run. destruct outs as [|o rest]; [eauto|]. 
  destruct (ss_run_loop exists_ rates conv save_interval (o :: rest) 0 0 0) as [[[xs zs] runs]|e]; cbn [sbind]; [|eauto].
  unfold save_results. destruct (rates xs zs runs); cbn [sbind]; [|eauto]. destruct exists_; cbn [sbind]; eauto.
Qed.
Print Assumptions C59_run_refuted.
(* and if every sample succeeds and the rates can be computed, the exception is that of the file *)
Theorem C59_run_exception : forall rates conv save_interval outs exists_, outs <> [] -> save_interval <> 0 ->
  (forall o, In o outs -> exists f, o = SRet f) -> (forall x z r, 0 < r -> rates x z r = SRet tt) ->
  ss_run exists_ rates conv save_interval outs = SRaise (if exists_ then UnsupportedOperation else FileNotFoundError).
Proof.
  intros rates conv si outs ex NE NS OK R. unfold ss_run. destruct outs as [|o0 rest0]; [congruence|]. clear NE.
  assert (G : forall outs xs zs runs, (forall o, In o outs -> exists f, o = SRet f) ->
    ss_run_loop ex rates conv si outs xs zs runs = SRaise (if ex then UnsupportedOperation else FileNotFoundError) \/
    exists x z, ss_run_loop ex rates conv si outs xs zs runs = SRet (x, z, runs + length outs)).
  { induction outs as [|o outs IH]; intros xs zs runs A.
    - right. exists xs, zs. cbn. rewrite Nat.add_0_r. reflexivity.
    - destruct (A o (or_introl eq_refl)) as [[fx fz] ->]. cbn [ss_run_loop sbind].
      destruct (Nat.eqb_spec si 0); [congruence|]. destruct (S runs mod si =? 0).
      + left. unfold save_results. rewrite R by lia. cbn [sbind]. destruct ex; reflexivity.
      + destruct (IH (xs + (if fx then 0 else 1)) (zs + (if fz then 0 else 1)) (S runs)) as [I|[x [z I]]]; [intros; apply A; right; auto|left; exact I|].
        right. exists x, z. rewrite I. cbn [length]. replace (S runs + length outs) with (runs + S (length outs)) by lia. reflexivity. }
  destruct (G (o0 :: rest0) 0 0 0 OK) as [I|[x [z I]]]; rewrite I; cbn [sbind]; [reflexivity|].
  unfold save_results. rewrite R by (cbn [length]; lia). cbn [sbind]. destruct ex; reflexivity.
Qed.
Print Assumptions C59_run_exception.

(* single-stage decoding of hard syndromes: every sample with at least one noisy round fails, because self.sigma_x and
   self.sigma_z are only set for analog decoding *)
Theorem C59_single_stage_hard_refuted virt sig dec c ds u : ss_single_stage c = true -> ss_analog_tg c = false -> ss_analog_info c = false ->
  ds <> [] -> exists e, ss_sample virt sig dec c ds u = SRaise e /\ (length (dr_u (hd (mkDraws [] [] [] [] []) ds)) = ss_n c -> e = AttributeError).
Proof.
  intros E1 E2 E3 NE. destruct ds as [|d ds]; [congruence|]. unfold ss_sample, ss_final. cbn [ss_rounds hd]. unfold ss_round.
  destruct (generate_err (dr_u d) (data_channel c) (vzero (ss_n c), vzero (ss_n c))) as [[ex ez]|] eqn:G.
  - unfold decode_side. rewrite E1. unfold single_stage_side, side_sigma. rewrite E2, E3. cbn [orb sbind]. eauto.
  - cbn [sbind]. eexists. split; [reflexivity|]. intros L. exfalso.
    unfold data_channel, error_channel_setup in G.
    assert (K : forall px py pz, generate_err (dr_u d) (repeat px (ss_n c), repeat py (ss_n c), repeat pz (ss_n c)) (vzero (ss_n c), vzero (ss_n c)) <> None).
    { intros px py pz Q. unfold generate_err in Q. cbn [fst snd] in Q.
      destruct (generate_err_loop_some (dr_u d) (repeat px (ss_n c)) (repeat py (ss_n c)) (repeat pz (ss_n c)) (vzero (ss_n c)) (vzero (ss_n c))) as [a [b AB]];
        rewrite ?repeat_length, ?vzero_length; try lia. congruence. }
    destruct (ss_bias c) as [[[bx|] [by_|]] [bz|]]; (eapply K; exact G).
Qed.
Print Assumptions C59_single_stage_hard_refuted.

(* analog decoding without syndrome noise: the syndrome is left as 0s and 1s but thresholded as if it were +1s and -1s, so
   that the decoder is given the complement of the syndrome *)
Theorem C59_noiseless_analog_refuted virt sig dec c rnd s d e y : (ss_ser c == 0)%Q -> ss_single_stage c = true -> ss_analog_tg c = true ->
  metas c s = None -> decode_side virt sig dec c rnd s (get_noisy_syndrome c s d (mulMV (checks c s) e)) = SRet y ->
  exists ch, y = firstn (ss_n c) (dec rnd (Abpd s) ch (bits (map negb (mulMV (checks c s) e)))).
Proof.
  intros Z E1 E2 EM D. change (checks c s) with (side_H c s) in *. change (metas c s) with (side_M c s) in *. unfold decode_side in D. rewrite E1 in D. unfold single_stage_side in D.
  destruct (side_sigma sig c s) as [sigma|]; [|discriminate]. cbn [sbind] in D. rewrite EM in D.
  unfold get_noisy_syndrome in D. apply Qeq_bool_iff in Z. rewrite Z in D. cbn [negb] in D.
  unfold decode_ss_no_meta in D. rewrite E2 in D. unfold analog_tg_decoding in D. injection D as <-.
  eexists. f_equal. f_equal. unfold get_binary_from_analog, bits. rewrite !map_map. apply map_ext. intros []; reflexivity.
Qed.
Print Assumptions C59_noiseless_analog_refuted.

Lemma qtrunc_1 q : (1 <= q)%Q -> (q < 2)%Q -> qtrunc q = 1%Z.
Proof.
  destruct q as [a b]. unfold Qle, Qlt, qtrunc. cbn [Qnum Qden]. intros A B.
  rewrite Z.quot_div_nonneg by lia. symmetry. apply (Z.div_unique a (Z.pos b) 1 (a - Z.pos b)); lia.
Qed.
Lemma qtrunc_not_1 q : (q < 1)%Q -> qtrunc q <> 1%Z.
Proof.
  destruct q as [a b]. unfold Qlt, qtrunc. cbn [Qnum Qden]. intros A B. destruct (Z.neg_nonneg_cases a) as [N|N].
  - assert (Z.quot a (Z.pos b) <= 0)%Z; [|lia]. replace a with (- - a)%Z by lia. rewrite Z.quot_opp_l by lia.
    assert (0 <= Z.quot (- a) (Z.pos b))%Z by (apply Z.quot_pos; lia). lia.
  - rewrite Z.quot_small in B by lia. discriminate.
Qed.
(* two-stage analog decoding without meta checks: the analog values are truncated to integers instead of being thresholded.
   A satisfied check with a deviation in [0, 1) is handed over as 1, a violated one never is *)
Theorem C59_two_stage_analog_refuted virt sig dec c rnd s d e y i : (~ ss_ser c == 0)%Q -> ss_single_stage c = false -> ss_analog_tg c = true ->
  metas c s = None -> length (dr_g d s) = length (checks c s) -> i < length (checks c s) ->
  decode_side virt sig dec c rnd s (get_noisy_syndrome c s d (mulMV (checks c s) e)) = SRet y ->
  exists ch given, y = firstn (ss_n c) (dec rnd (Abpd s) ch given) /\ length given = length (checks c s) /\
    (nth i (mulMV (checks c s) e) false = false -> (0 <= nth i (dr_g d s) 0 < 1)%Q -> nth i given 0%Q = 1%Q) /\
    (nth i (mulMV (checks c s) e) false = true -> (nth i (dr_g d s) 0 < 2)%Q -> nth i given 0%Q <> 1%Q).
Proof.
  intros Z E1 E2 EM Lg Li D. change (checks c s) with (side_H c s) in *. change (metas c s) with (side_M c s) in *. unfold decode_side in D. rewrite E1 in D. unfold two_stage_side in D. rewrite E2 in D.
  destruct (side_sigma sig c s) as [sigma|]; [|discriminate]. cbn [sbind] in D. unfold repaired in D. rewrite EM in D.
  unfold get_noisy_syndrome in D. rewrite E2, orb_true_r in D.
  destruct (Qeq_bool (ss_ser c) 0) eqn:Q0; [apply Qeq_bool_iff in Q0; contradiction|]. cbn [negb] in D.
  unfold analog_tg_decoding in D. injection D as <-. do 2 eexists. split; [reflexivity|].
  set (S := mulMV (side_H c s) e) in *. set (g := dr_g d s) in *.
  assert (LS : length S = length (side_H c s)) by apply mulMV_length.
  assert (LA : length (get_noisy_analog_syndrome S g) = length (side_H c s)).
  { unfold get_noisy_analog_syndrome, get_signed_from_binary. rewrite map_length, combine_length, map_length. lia. }
  split; [rewrite map_length; exact LA|].
  assert (N : nth i (map (fun q => inject_Z (qtrunc q)) (get_noisy_analog_syndrome S g)) 0%Q =
              inject_Z (qtrunc ((if nth i S false then (-(1))%Q else 1%Q) + nth i g 0%Q)%Q)).
  { rewrite (nth_indep _ 0%Q (inject_Z (qtrunc 0%Q))) by (rewrite map_length; lia). rewrite (map_nth (fun q => inject_Z (qtrunc q))). f_equal. f_equal.
    unfold get_noisy_analog_syndrome, get_signed_from_binary.
    rewrite (nth_indep _ 0%Q ((fun p : Q * Q => (fst p + snd p)%Q) ((if false then (-(1))%Q else 1%Q), 0%Q))) by (rewrite map_length, combine_length, map_length; lia).
    rewrite (map_nth (fun p : Q * Q => (fst p + snd p)%Q)). rewrite combine_nth by (rewrite map_length; lia). cbn [fst snd].
    rewrite <- (map_nth (fun b : bool => if b then (-(1))%Q else 1%Q)). reflexivity. }
  rewrite N. split; intros B G; rewrite B.
  - rewrite qtrunc_1; [reflexivity|lra|lra].
  - intros X. assert (Y : qtrunc (- (1) + nth i g 0)%Q = 1%Z) by (injection X; auto). revert Y. apply qtrunc_not_1. lra.
Qed.
Print Assumptions C59_two_stage_analog_refuted.

(* two-stage analog decoding initialises the X decoder with the probabilities of Z errors and vice versa *)
Theorem C59_two_stage_channels_refuted virt sig dec c rnd s synd y : ss_single_stage c = false -> ss_analog_tg c = true ->
  decode_side virt sig dec c rnd s synd = SRet y ->
  exists rest given, y = firstn (ss_n c) (dec rnd (Abpd s) (err_channel c (match s with SX => SZ | SZ => SX end) ++ rest) given).
Proof.
  intros E1 E2 D. unfold decode_side in D. rewrite E1 in D. unfold two_stage_side in D. rewrite E2 in D.
  destruct (side_sigma sig c s) as [sigma|]; [|discriminate]. cbn [sbind] in D. injection D as <-. unfold analog_tg_decoding.
  do 2 eexists. destruct s; reflexivity.
Qed.
Print Assumptions C59_two_stage_channels_refuted.
Example C59_channels_differ : err_channel (mkSS 1 [] [] None None None None false false false false true (1#10) (1#10) (Some 0%Q, Some 0%Q, Some 1%Q)) SX <>
  err_channel (mkSS 1 [] [] None None None None false false false false true (1#10) (1#10) (Some 0%Q, Some 0%Q, Some 1%Q)) SZ.
Proof. vm_compute. discriminate. Qed.

(* without logical operators the flags do not depend on the residual error: they say whether the last correction lies
   outside the row space of the checks it was decoded with *)
Theorem C59_flags_without_logicals virt sig dec c ds u ex ez xd zd : (ss_lx c = None \/ ss_lz c = None) ->
  wf (ss_n c) (ss_hx c) -> wf (ss_n c) (ss_hz c) ->
  ss_final virt sig dec c ds u = SRet ((ex, ez), (xd, zd)) -> length ex = ss_n c -> length ez = ss_n c -> length xd = ss_n c -> length zd = ss_n c ->
  exists fx fz, ss_sample virt sig dec c ds u = SRet (fx, fz) /\
    (fx = true <-> ~ span (ss_n c) (ss_hz c) xd) /\ (fz = true <-> ~ span (ss_n c) (ss_hx c) zd).
Proof.
  intros NL Wx Wz F L1 L2 L3 L4. unfold ss_sample. rewrite F. cbn [sbind].
  exists (check_logical_err_h (ss_n c) (ss_hz c) ex (vxor ex xd)), (check_logical_err_h (ss_n c) (ss_hx c) ez (vxor ez zd)).
  split. { destruct NL as [->| ->]; [reflexivity|destruct (ss_lx c); reflexivity]. }
  split; rewrite check_logical_err_h_spec by (auto; apply vxor_length'; auto); rewrite vxor_assoc, (vxor_self' (ss_n c)), (vxor_zero_l (ss_n c)) by auto; reflexivity.
Qed.
Print Assumptions C59_flags_without_logicals.

(* ------------------------------------------------------------------ witnesses: the [[4,2,2]] code *)
Definition h422 : mat := [[true; true; true; true]].
Definition l422 : mat := [[true; true; false; false]; [false; true; true; false]].
Definition d422 (rnd : nat) (d : dname) (ch synd : list Q) : vec :=
  match synd with q :: _ => [Qeq_bool q 1; false; false; false] | [] => [] end.
Definition c422 (lx lz : option mat) := mkSS 4 h422 h422 None None lx lz false false false false false (1 # 10) (1 # 10) (Some 1%Q, Some 1%Q, Some 1%Q).
Definition dr422 := mkDraws [1 # 2; 1 # 20; 1 # 100; 1 # 2] [1 # 100] [1 # 2] [0%Q] [0%Q].
Lemma vec4 (v : vec) : length v = 4 -> exists a b c d, v = [a; b; c; d].
Proof. destruct v as [|a [|b [|c [|d [|]]]]]; try discriminate. eauto 10. Qed.
Example C59_explains422 s ch : explains (side_H (c422 None None) s) 4 (d422 1 (Bpd s) ch).
Proof. intros e L. destruct (vec4 e L) as [a [b [c [d ->]]]]. destruct s, a, b, c, d; vm_compute; auto. Qed.
Example C59_logicals422 : logicals_ok 4 h422 h422 l422.
Proof.
  split.
  - intros v L H1 H2. destruct (vec4 v L) as [a [b [c [d ->]]]].
    specialize (H1 _ (or_introl eq_refl)). pose proof (H2 _ (or_introl eq_refl)) as H3. specialize (H2 _ (or_intror (or_introl eq_refl))).
    destruct a, b, c, d; try discriminate.
    + apply span_in; [repeat constructor|]. left; reflexivity.
    + apply (span_zero 4).
  - intros s l [<-|[]] [<-|[<-|[]]]; reflexivity.
Qed.
(* a noisy round with an X and a Z error and a flipped check, then the perfect round: the residual errors are logical
   operators, and both flags say so *)
Example C59_sample422 : exists r, ss_final (fun a _ => a) (fun q => q) d422 (c422 (Some l422) (Some l422)) [dr422] [1 # 2; 1 # 2; 1 # 2; 1 # 2] = SRet r /\
  ss_sample (fun a _ => a) (fun q => q) d422 (c422 (Some l422) (Some l422)) [dr422] [1 # 2; 1 # 2; 1 # 2; 1 # 2] = SRet (true, true) /\ length (fst (fst r)) = 4.
Proof. eexists. split; [vm_compute; reflexivity|]. split; vm_compute; reflexivity. Qed.
(* without logical operators the same code reports a logical error although the residual error is the identity *)
Example C59_flags_without_logicals_refuted :
  ss_final (fun a _ => a) (fun q => q) d422 (c422 None None) [] [1 # 20; 1 # 2; 1 # 2; 1 # 2] = SRet (([true; false; false; false], vzero 4), ([true; false; false; false], vzero 4)) /\
  ss_sample (fun a _ => a) (fun q => q) d422 (c422 None None) [] [1 # 20; 1 # 2; 1 # 2; 1 # 2] = SRet (true, false).
Proof. split; vm_compute; reflexivity. Qed.

(* the ring with a redundant check: meta check M = (1 1 1); decoders as demanded by the theorems on meta checks exist *)
Definition hring : mat := [[true; true; false]; [false; true; true]; [true; false; true]].
Definition mring : mat := [[true; true; true]].
Definition cring (single tg : bool) := mkSS 3 [] hring None (Some mring) None None false true single false tg (1 # 10) (1 # 10) (Some 1%Q, Some 1%Q, Some 1%Q).
Definition dring (rnd : nat) (d : dname) (ch synd : list Q) : vec :=
  match d with
  | Mbp _ => from_bits synd ++ [false; false]
  | Ssd _ => vzero 3 ++ firstn 3 (from_bits synd)
  | _ => match from_bits synd with a :: b :: _ => [a; false; b] | _ => [] end
  end.
Example C59_ring_hypotheses : side_M (cring false false) SX = Some mring /\ wf 3 hring /\ wf 3 mring /\
  (forall x, length x = 3 -> mulMV mring (mulMV hring x) = vzero 1) /\
  (forall ch, explains mring 3 (dring 0 (Mbp SX) ch)) /\
  (forall ch, explains (build_single_stage_pcm 3 3 hring mring) 6 (dring 0 (Ssd SX) ch)) /\
  (forall ch, explains hring 3 (dring 0 (Bpd SX) ch)).
Proof.
  split; [reflexivity|]. split; [repeat constructor|]. split; [repeat constructor|]. split.
  { intros x L. destruct x as [|a [|b [|c [|]]]]; try discriminate. destruct a, b, c; reflexivity. }
  split; [|split].
  - intros ch x L. destruct x as [|a [|b [|c [|]]]]; try discriminate. destruct a, b, c; vm_compute; auto.
  - intros ch x L. destruct x as [|a [|b [|c [|d [|e [|f [|]]]]]]]; try discriminate. destruct a, b, c, d, e, f; vm_compute; auto.
  - intros ch x L. destruct x as [|a [|b [|c [|]]]]; try discriminate. destruct a, b, c; vm_compute; auto.
Qed.
(* a flipped check is repaired: the error e = 100 with the first check misread leaves no residual syndrome, in either mode *)
Example C59_ring_two_stage :
  decode_side (fun a _ => a) (fun q => q) dring (cring false false) 0 SX
    (get_noisy_syndrome (cring false false) SX (mkDraws [] [1 # 100; 1 # 2; 1 # 2] [] [] []) (mulMV hring [true; false; false])) = SRet [true; false; false].
Proof. vm_compute. reflexivity. Qed.
Example C59_ring_single_stage :
  exists y, decode_side (fun a _ => a) (fun q => q) dring (cring true true) 0 SX
    (get_noisy_syndrome (cring true true) SX (mkDraws [] [] [] [-(3 # 2); 0%Q; 0%Q]%Q []) (mulMV hring [true; false; false])) = SRet y /\ length y = 3.
Proof. eexists. split; vm_compute; reflexivity. Qed.
(* analog information: hypotheses of C59_single_stage_info *)
Definition cinfo := mkSS 3 [] hring None (Some mring) None None false true true true false (1 # 10) (1 # 10) (Some 1%Q, Some 1%Q, Some 1%Q).
Definition dinfo (rnd : nat) (d : dname) (ch synd : list Q) : vec := vzero 3 ++ firstn 3 (threshold synd).
Example C59_info_hypotheses : works_analog cinfo (Ssd SX) 6 (dinfo 0 (Ssd SX)) /\ metas cinfo SX = Some mring /\
  exists y, decode_side (fun a _ => a) (fun q => q) dinfo cinfo 0 SX
    (get_noisy_syndrome cinfo SX (mkDraws [] [] [] [-(3 # 2); 0%Q; 0%Q]%Q []) (mulMV hring [true; false; false])) = SRet y /\ length y = 3.
Proof.
  split; [|split; [reflexivity|eexists; split; vm_compute; reflexivity]].
  eexists. split; [reflexivity|]. intros ch q x L T. unfold dinfo. rewrite T.
  destruct x as [|a [|b [|c [|d [|e [|f [|]]]]]]]; try discriminate. destruct a, b, c, d, e, f; vm_compute; auto.
Qed.
Example C59_ring_works : works (cring false false) (Mbp SX) 3 (dring 0 (Mbp SX)) /\ works (cring true true) (Ssd SX) 6 (dring 0 (Ssd SX)) /\
  works (c422 (Some l422) (Some l422)) (Bpd SX) 4 (d422 1 (Bpd SX)) /\ works (c422 (Some l422) (Some l422)) (Bpd SZ) 4 (d422 1 (Bpd SZ)).
Proof.
  destruct C59_ring_hypotheses as [_ [_ [_ [_ [A [B _]]]]]].
  split; [exists mring; split; [reflexivity|exact A]|]. split; [eexists; split; [reflexivity|exact B]|].
  split; (eexists; split; [reflexivity|]; intros ch); [exact (C59_explains422 SX ch)|exact (C59_explains422 SZ ch)].
Qed.
