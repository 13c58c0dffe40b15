(* Properties C51-C54: analog-information decoding.  Specification vocabulary: vectors over GF(2) (Lin), [vsum n l] the
   sum of a list of vectors, [record_of n H es ms] (AnalogProofs) the measurement record of a history: in round r the
   syndrome of everything that has gone wrong up to r, plus the flips of round r, i.e. H (e_0 + .. + e_r) + m_r. *)
From Coq Require Import List Arith Bool Lia QArith Lqa.
From Verif Require Import Lin Lin2 AnalogModel AnalogModel2 AnalogProofs AnalogProofs2 AnalogProofs3 AnalogProofs4.
Import ListNotations.
Local Open Scope nat_scope.

(* ------------------------------------------------------------------ C51 *)
(* the product with a history is, round after round, H e_r + m_r + m_(r-1) *)
Theorem C51_multiround_product n H R es ms :
  wf n H -> wf n es -> wf (length H) ms -> length es = R + 1 -> length ms = R + 1 ->
  mulMV (build_multiround_pcm n H R) (concat es ++ concat ms) =
  concat (map (fun r => vxor (mulMV H (nth r es []))
                             (match r with 0 => nth 0 ms [] | S q => vxor (nth (S q) ms []) (nth q ms []) end)) (seq 0 (R + 1))).
Proof.
  intros WH We Wm Le Lm. rewrite h3d_product; try (rewrite ?Le, ?Lm; lia); auto.
  replace (R + 1) with (S R) in * by lia. f_equal. apply map_ext_in. intros r I. apply in_seq in I. f_equal.
  destruct r; auto. cbn [prev]. apply vxor_zero_r. apply wf_nth; auto; lia.
Qed.

(* a history explains the difference syndrome of a record iff it leaves exactly this record *)
Theorem C51_explains_iff_record n H R es ms synd :
  wf n H -> wf n es -> wf (length H) ms -> wf (length H) synd ->
  length es = R + 1 -> length ms = R + 1 -> length synd = R + 1 ->
  (mulMV (build_multiround_pcm n H R) (concat es ++ concat ms) = concat (diff_syndrome synd) <->
   forall r, r < R + 1 -> nth r synd [] = vxor (mulMV H (vsum n (firstn (r + 1) es))) (nth r ms [])).
Proof.
  intros WH We Wm Ws Le Lm Ls. rewrite (explains_iff n H R) by (auto; lia). split.
  - intros -> r Lr. rewrite record_nth by lia. rewrite Nat.add_1_r. reflexivity.
  - intros A. apply nth_ext_vec; [rewrite record_length; lia|]. intros r Lr. rewrite record_nth by lia. rewrite A by lia.
    rewrite Nat.add_1_r. reflexivity.
Qed.

(* every record can be explained (all flips, no error), so the decoding problem is always solvable *)
Theorem C51_always_solvable n H R synd : wf n H -> wf (length H) synd -> length synd = R + 1 ->
  exists x, length x = n * (R + 1) + length H * (R + 1) /\ mulMV (build_multiround_pcm n H R) x = concat (diff_syndrome synd).
Proof.
  intros WH Ws Ls. set (es := repeat (vzero n) (R + 1)).
  assert (We : wf n es). { apply Forall_forall. intros x I. apply repeat_spec in I. subst. apply vzero_length. }
  assert (Le : length es = R + 1) by apply repeat_length.
  exists (concat es ++ concat synd). split.
  { rewrite app_length, (concat_length_wf n), (concat_length_wf (length H)) by auto. rewrite Le, Ls. lia. }
  apply C51_explains_iff_record; auto. intros r Lr.
  replace (vsum n (firstn (r + 1) es)) with (vzero n).
  - rewrite mulMV_zero. symmetry. apply vxor_zero_l. apply wf_nth; auto. lia.
  - symmetry. assert (Wf : Forall (fun v => v = vzero n) (firstn (r + 1) es)).
    { apply Forall_forall. intros x I. apply (repeat_spec (R + 1) (vzero n)). fold es. rewrite <- (firstn_skipn (r + 1) es). apply in_or_app. auto. }
    induction Wf; simpl; auto. subst. rewrite IHWf. apply vxor_zero_l, vzero_length.
Qed.

(* the parity-check matrix of the three-bit repetition code, two extra rounds *)
Definition Hrep : mat := [[true; true; false]; [false; true; true]].
Example C51_instance :
  let es := [[true; false; false]; [false; false; false]; [false; false; true]] in
  let ms := [[false; true]; [true; false]; [false; false]] in
  wf 3 Hrep /\ wf 3 es /\ wf (length Hrep) ms /\
  mulMV (build_multiround_pcm 3 Hrep 2) (concat es ++ concat ms) = [true; true; true; true; true; true] /\
  record_of 3 Hrep es ms = [[true; true]; [false; false]; [true; true]].
Proof. repeat split; repeat constructor. Qed.

(* ------------------------------------------------------------------ C52 *)
(* [blocks k R v]: v cut into R pieces of length k.  [space]: the decoder's data part, one vector per round; [time]: its
   measurement part. *)
Theorem C52_window_commit n H T dec synd : 1 <= T -> wf n H ->
  length synd = 2 * T -> wf (length H) synd ->
  let answer := dec (concat (diff_syndrome synd)) in
  length answer = n * (2 * T) + length H * (2 * T) ->
  let space := blocks n (2 * T) (firstn (n * (2 * T)) answer) in
  let time := blocks (length H) (2 * T) (skipn (n * (2 * T)) answer) in
  let (corr, synd') := decode_multiround n H (2 * T) false dec synd in
  corr = vsum n (firstn T space) /\ length synd' = 2 * T /\
  (forall r, r < T -> nth r synd' [] = nth r synd []) /\
  (forall r, T < r -> r < 2 * T -> nth r synd' [] = vxor (nth r synd []) (mulMV H corr)) /\
  nth T synd' [] = vxor (vxor (nth T synd []) (mulMV H corr)) (nth (T - 1) time []).
Proof.
  intros HT WH Ls Ws answer La space time.
  pose proof (window_corr n H T dec synd HT Ls La) as WC.
  pose proof (window_synd_length n H T dec synd HT Ls La) as WL.
  pose proof (window_synd n H T dec synd HT Ls La) as WS.
  destruct (decode_multiround n H (2 * T) false dec synd) as [corr synd']. cbn [fst snd] in *.
  split; auto. split; auto. split.
  { intros r Lr. rewrite WS by lia. destruct (Nat.ltb_spec r T); [auto|lia]. }
  split.
  { intros r L1 L2. rewrite WS by lia. destruct (Nat.ltb_spec r T); [lia|]. destruct (Nat.eqb_spec r T); [lia|auto]. }
  rewrite WS by lia. rewrite Nat.ltb_irrefl, Nat.eqb_refl. reflexivity.
Qed.

(* If the answer explains the window, the carried-over columns are the record of the errors that were not committed -
   with the flips of the last committed round added to those of the first carried-over round *)
Theorem C52_window_carry n H T dec synd : 1 <= T -> wf n H ->
  length synd = 2 * T -> wf (length H) synd ->
  let answer := dec (concat (diff_syndrome synd)) in
  length answer = n * (2 * T) + length H * (2 * T) ->
  mulMV (build_multiround_pcm n H (2 * T - 1)) answer = concat (diff_syndrome synd) ->
  let space := blocks n (2 * T) (firstn (n * (2 * T)) answer) in
  let time := blocks (length H) (2 * T) (skipn (n * (2 * T)) answer) in
  let synd' := snd (decode_multiround n H (2 * T) false dec synd) in
  (forall r, T <= r -> r < 2 * T ->
     nth r synd' [] = vxor (mulMV H (vsum n (firstn (r + 1 - T) (skipn T space))))
                           (if r =? T then vxor (nth r time []) (nth (T - 1) time []) else nth r time [])) /\
  (skipn T synd' = record_of n H (skipn T space) (skipn T time) <-> nth (T - 1) time [] = vzero (length H)).
Proof.
  intros HT WH Ls Ws answer La EX space time synd'. split.
  - intros r L1 L2. unfold synd'. rewrite (window_carry_nth n H T dec synd HT Ls Ws La WH EX) by auto.
    replace (S r - T) with (r + 1 - T) by lia. reflexivity.
  - apply (window_carry_iff n H T dec synd HT Ls Ws La WH EX).
Qed.

(* the last window commits everything, and what remains is the flip the decoder blames on the last round *)
Theorem C52_last_window n H T dec synd : 1 <= T -> wf n H ->
  length synd = 2 * T -> wf (length H) synd ->
  let answer := dec (concat (diff_syndrome synd)) in
  length answer = n * (2 * T) + length H * (2 * T) ->
  mulMV (build_multiround_pcm n H (2 * T - 1)) answer = concat (diff_syndrome synd) ->
  let space := blocks n (2 * T) (firstn (n * (2 * T)) answer) in
  let time := blocks (length H) (2 * T) (skipn (n * (2 * T)) answer) in
  fst (decode_multiround n H (2 * T) true dec synd) = vsum n space /\
  mulMV H (vsum n space) = vxor (nth (2 * T - 1) synd []) (nth (2 * T - 1) time []).
Proof.
  intros HT WH Ls Ws answer La EX space time. split; [reflexivity|].
  apply (window_last n H T dec synd HT Ls Ws La WH EX).
Qed.

(* The decoder returns what really happened, and yet the carried-over columns are not the record of what is left: a
   single flip in the last committed round is written into the first carried-over round. *)
Theorem C52_carry_refuted : exists es ms,
  let synd := record_of 3 Hrep es ms in
  let dec := fun _ : vec => concat es ++ concat ms in
  wf 3 es /\ wf 2 ms /\ length es = 4 /\ length ms = 4 /\
  mulMV (build_multiround_pcm 3 Hrep 3) (dec (concat (diff_syndrome synd))) = concat (diff_syndrome synd) /\
  fst (decode_multiround 3 Hrep 4 false dec synd) = vsum 3 (firstn 2 es) /\
  (* nothing is left to be explained, but the new window starts with a flagged check *)
  skipn 2 es = [vzero 3; vzero 3] /\ skipn 2 ms = [vzero 2; vzero 2] /\
  move_syndrome 2 (snd (decode_multiround 3 Hrep 4 false dec synd)) = [[true; false]; vzero 2; vzero 2; vzero 2].
Proof.
  exists [[true; false; false]; vzero 3; vzero 3; vzero 3], [vzero 2; [true; false]; vzero 2; vzero 2].
  repeat split; repeat constructor.
Qed.

(* One sample of the quasi-single-shot simulation, decoder arbitrary (it may answer differently in each call), at any
   point before the last round: k = length ws rounds have been done, of which [fst w] is the fresh data error and
   [snd w] are the flips.  Column j belongs to round i = w T + j; it holds what would have been measured then, had the
   corrections applied so far been applied before: H (present error + errors after round i) + flips of round i.
   Column 0 of a window that is not the first is excepted (C52_window_carry). *)
Theorem C52_sample_windows n H T dec more ws : 1 <= T ->
  (forall w l d, length (dec w l d) = n * (2 * T) + length H * (2 * T)) ->
  Forall (fun w : vec * vec => length (fst w) = n /\ length (snd w) = length H) ws ->
  exists st, qss_rounds n H (2 * T) true dec (S more) ws (qss_init n H (2 * T)) = Ret st /\
    length ws = q_win st * T + q_cnt st /\ q_cnt st < 2 * T /\ (q_win st = 0 \/ T <= q_cnt st) /\
    length (q_synd st) = 2 * T /\
    (forall j, j < q_cnt st -> (q_win st = 0 \/ 1 <= j) ->
       nth j (q_synd st) [] =
       vxor (mulMV H (vxor (q_err st) (vsum n (map fst (skipn (S (q_win st * T + j)) ws))))) (snd (nth (q_win st * T + j) ws ([], [])))) /\
    (forall j, q_cnt st <= j -> j < 2 * T -> nth j (q_synd st) [] = vzero (length H)).
Proof.
  intros HT Ld F. destruct (qss_prefix n H T dec HT Ld ws more F) as [st [E [I1 [I2 [I3 [I4 [I5 [I6 [I7 I8]]]]]]]]].
  exists st. repeat (split; [assumption|]). assumption.
Qed.

(* a decoder that explains every record whose last column is a syndrome, blaming no flip on the (perfect) last round *)
Definition good_last_decoder (n : nat) (H : mat) (R : nat) (dec : vec -> vec) : Prop :=
  forall synd e, length synd = R -> wf (length H) synd -> length e = n -> nth (R - 1) synd [] = mulMV H e ->
    let answer := dec (concat (diff_syndrome synd)) in
    mulMV (build_multiround_pcm n H (R - 1)) answer = concat (diff_syndrome synd) /\
    skipn (n * R + length H * (R - 1)) answer = vzero (length H).

(* When the number of rounds is w T + 2 T, the sample ends with the residual error in the code space *)
Theorem C52_sample_residual n H T dec k ws : 1 <= T -> wf n H ->
  (forall w l d, length (dec w l d) = n * (2 * T) + length H * (2 * T)) ->
  (forall w, good_last_decoder n H (2 * T) (dec w true)) ->
  Forall (fun w : vec * vec => length (fst w) = n /\ length (snd w) = length H) ws ->
  length ws = k * T + 2 * T ->
  exists st, qss_rounds n H (2 * T) true dec 0 ws (qss_init n H (2 * T)) = Ret st /\
    q_win st = k + 1 /\ length (q_err st) = n /\ mulMV H (q_err st) = vzero (length H).
Proof.
  intros HT WH Ld GD F L.
  assert (NE : ws <> []) by (intros ->; simpl in L; lia). destruct (exists_last NE) as [ws0 [w0 EW]]. subst ws. clear NE.
  destruct w0 as [fe me]. apply Forall_app in F as [F1 F2]. pose proof (Forall_inv F2) as [Lfe Lme]. cbn [fst snd] in *.
  destruct (qss_prefix n H T dec HT Ld ws0 0 F1) as [st [E I]].
  pose proof I as [I1 [I2 [I3 [I4 [I5 [I6 [I7 I8]]]]]]].
  rewrite qss_rounds_app. cbn [length]. change (1 + 0) with 1. rewrite E. cbn [bindp qss_rounds length].
  change (0 + 0 =? 0) with true. rewrite app_length in L. simpl in L.
  assert (W : q_win st = k /\ q_cnt st = 2 * T - 1).
  { assert (EQ : q_win st * T + q_cnt st = k * T + 2 * T - 1) by lia.
    assert (D : q_win st = k). { destruct (Nat.lt_trichotomy (q_win st) k) as [D|[D|D]]; auto.
      - assert (q_win st * T + T <= k * T). { replace (q_win st * T + T) with (S (q_win st) * T) by lia. apply Nat.mul_le_mono_r; lia. } lia.
      - assert (k * T + T <= q_win st * T). { replace (k * T + T) with (S k * T) by lia. apply Nat.mul_le_mono_r; lia. }
        destruct I6; [lia|]. lia. }
    split; auto. subst k. lia. }
  destruct W as [W1 W2].
  unfold qss_round. destruct (Nat.ltb_spec (q_cnt st) (2 * T)); [|lia].
  set (err := vxor (q_err st) fe). assert (Lerr : length err = n) by (apply vxor_length'; auto).
  assert (Lc : length (mulMV H err) = length H) by apply mulMV_length.
  assert (F1' : Forall (fun w : vec * vec => length (fst w) = n) ws0).
  { eapply Forall_impl; [|exact F1]. cbn beta. tauto. }
  destruct (qinv_store n H T HT ws0 st fe me (mulMV H err) F1' Lfe Lc I) as [S1 [S2 [_ [S4 _]]]].
  cbn zeta. set (synd := set_nth _ _ _) in *.
  destruct (Nat.eqb_spec (q_cnt st + 1) (2 * T)); [|lia].
  rewrite W2 in S4.
  destruct (GD (q_win st) synd err S1 S2 Lerr S4) as [EX Z].
  pose proof (Ld (q_win st) true (concat (diff_syndrome synd))) as La.
  destruct (C52_last_window n H T (dec (q_win st) true) synd HT WH S1 S2 La EX) as [_ LW].
  set (answer := dec (q_win st) true (concat (diff_syndrome synd))) in *.
  change (decode_multiround n H (2 * T) true (dec (q_win st) true) synd) with
    (vsum n (blocks n (2 * T) (firstn (n * (2 * T)) answer)), synd).
  cbn iota. eexists. split; [reflexivity|]. cbn [q_win q_err].
  assert (Lv : length (vsum n (blocks n (2 * T) (firstn (n * (2 * T)) answer))) = n).
  { apply vsum_length. apply concat_blocks. rewrite firstn_length, La. lia. }
  split; [lia|]. split; [apply vxor_length'; auto|].
  rewrite (mulMV_vxor H n) by auto. rewrite LW, S4.
  assert (B : nth (2 * T - 1) (blocks (length H) (2 * T) (skipn (n * (2 * T)) answer)) [] = vzero (length H)).
  { unfold blocks. rewrite map_seq_nth by lia. unfold block. rewrite skipn_add.
    replace ((2 * T - 1) * length H) with (length H * (2 * T - 1)) by lia. rewrite Z.
    apply firstn_all2. rewrite vzero_length. auto. }
  rewrite B. rewrite vxor_assoc, (vxor_self' (length H)) by auto. apply vxor_zero_l. apply vzero_length.
Qed.

(* such a decoder exists for every H over which every syndrome has been given an error *)
Definition lazy_last_decoder (n : nat) (H : mat) (R : nat) (solve : vec -> vec) (d : vec) : vec :=
  let m := length H in
  let cols := blocks m R d in
  let rec := map (fun r => vsum m (firstn (r + 1) cols)) (seq 0 R) in
  concat (repeat (vzero n) (R - 1) ++ [solve (nth (R - 1) rec [])]) ++ concat (firstn (R - 1) rec ++ [vzero m]).

Lemma undiff m synd r : wf m synd -> r < length synd -> vsum m (firstn (r + 1) (diff_syndrome synd)) = nth r synd [].
Proof.
  intros W. induction r; intros L.
  - change (0 + 1) with 1. rewrite (firstn_S_nth (diff_syndrome synd) 0 []) by (rewrite diff_length; auto). rewrite firstn_O. simpl.
    rewrite (diff_nth m) by auto. cbn [prev]. assert (length (nth 0 synd []) = m) by (apply wf_nth; auto).
    rewrite !(vxor_zero_r m); auto. apply vxor_length'; auto using vzero_length.
  - replace (S r + 1) with (S (r + 1)) by lia. rewrite (firstn_S_nth (diff_syndrome synd) (r + 1) []) by (rewrite diff_length; lia).
    assert (WD : wf m (diff_syndrome synd)) by (apply diff_wf; auto).
    rewrite vsum_snoc; auto using wf_firstn. 2:{ apply wf_nth; auto. rewrite diff_length. lia. }
    rewrite IHr by lia. rewrite (diff_nth m) by (auto; lia). replace (r + 1) with (S r) by lia. cbn [prev].
    rewrite vxor_comm, <- vxor_assoc, (vxor_self' m). 2:{ apply wf_nth; auto; lia. }
    apply vxor_zero_r. apply wf_nth; auto.
Qed.

Theorem C52_good_last_decoder_exists n H R solve : 1 <= R -> wf n H ->
  (forall e, length e = n -> length (solve (mulMV H e)) = n /\ mulMV H (solve (mulMV H e)) = mulMV H e) ->
  good_last_decoder n H R (lazy_last_decoder n H R solve).
Proof.
  intros LR WH SO synd e Ls Ws Le EL. cbn zeta. set (m := length H) in *.
  unfold lazy_last_decoder. fold m.
  rewrite blocks_concat; [|apply diff_wf; auto|rewrite diff_length; auto].
  replace (map (fun r => vsum m (firstn (r + 1) (diff_syndrome synd))) (seq 0 R)) with synd.
  2:{ apply nth_ext_vec. { rewrite map_length, seq_length. auto. }
      intros r Lr. rewrite map_seq_nth by lia. symmetry. apply undiff; auto. }
  cbn zeta. rewrite EL. destruct (SO e Le) as [S1 S2].
  set (es := repeat (vzero n) (R - 1) ++ [solve (mulMV H e)]). set (ms := firstn (R - 1) synd ++ [vzero m]).
  assert (We : wf n es). { apply wf_app. split. - apply Forall_forall. intros x I. apply repeat_spec in I. subst. apply vzero_length.
    - apply wf_cons. split; auto. constructor. }
  assert (Wm : wf m ms). { apply wf_app. split; [apply wf_firstn; auto|]. apply wf_cons. split; [apply vzero_length|constructor]. }
  assert (Le' : length es = R). { unfold es. rewrite app_length, repeat_length. simpl. lia. }
  assert (Lm : length ms = R). { unfold ms. rewrite app_length, firstn_length. simpl. lia. }
  split.
  - apply (C51_explains_iff_record n H (R - 1) es ms synd); auto; try lia. intros r Lr.
    assert (Z : forall k, k <= R - 1 -> vsum n (firstn k es) = vzero n).
    { intros k Lk. unfold es. rewrite firstn_app, repeat_length. replace (k - (R - 1)) with 0 by lia. rewrite firstn_O, app_nil_r.
      assert (FF : Forall (fun v => v = vzero n) (firstn k (repeat (vzero n) (R - 1)))).
      { apply Forall_forall. intros x I. apply (repeat_spec (R - 1) (vzero n)).
        rewrite <- (firstn_skipn k (repeat _ _)). apply in_or_app. auto. }
      induction FF; simpl; auto. subst. rewrite IHFF. apply vxor_zero_l, vzero_length. }
    destruct (Nat.eq_dec r (R - 1)) as [->|Nr].
    + rewrite firstn_all2 by lia. unfold ms. rewrite app_nth2 by (rewrite firstn_length; lia).
      rewrite firstn_length_le, Nat.sub_diag by lia. cbn [nth].
      rewrite <- (firstn_skipn (R - 1) es). rewrite vsum_app by (auto using wf_firstn, wf_skipn). rewrite Z by lia.
      unfold es at 1. rewrite skipn_app, repeat_length, Nat.sub_diag. rewrite skipn_all2 by (rewrite repeat_length; lia).
      cbn [skipn app vsum fold_right]. rewrite (vxor_zero_r n) by auto. rewrite (vxor_zero_l n) by auto. rewrite S2.
      rewrite EL. symmetry. apply vxor_zero_r. apply mulMV_length.
    + rewrite Z by lia. rewrite mulMV_zero. unfold ms. rewrite app_nth1 by (rewrite firstn_length; lia).
      rewrite nth_firstn' by lia. symmetry. apply vxor_zero_l. apply wf_nth; auto. lia.
  - assert (LCE : length (concat es) = R * n) by (rewrite <- Le'; apply concat_length_wf; auto).
    rewrite (skipn_app _ (concat es)). rewrite (skipn_all2 (concat es)) by (rewrite LCE, (Nat.mul_comm R n); apply Nat.le_add_r).
    rewrite LCE. cbn [app]. unfold ms. rewrite concat_app.
    assert (LC : length (concat (firstn (R - 1) synd)) = m * (R - 1)).
    { rewrite (concat_length_wf m) by (apply wf_firstn; auto). rewrite firstn_length. rewrite Ls. rewrite Nat.min_l by lia. lia. }
    rewrite skipn_app. replace (n * R + m * (R - 1) - R * n) with (m * (R - 1)) by (rewrite (Nat.mul_comm R n), Nat.add_comm, Nat.add_sub; reflexivity).
    rewrite (skipn_all2 (concat (firstn (R - 1) synd))) by (rewrite LC; reflexivity). rewrite LC, Nat.sub_diag. simpl. apply app_nil_r.
Qed.

(* Otherwise the perfect last round is never decoded: the result does not depend on what the decoder would say to it.
   The errors after the last full window stay. *)
Theorem C52_last_round_not_decoded n H L T dec dec' ws : 1 <= T ->
  (forall w l d, length (dec w l d) = n * (2 * T) + length H * (2 * T)) ->
  Forall (fun w : vec * vec => length (fst w) = n /\ length (snd w) = length H) ws ->
  (forall k, length ws <> k * T + 2 * T) ->
  (forall w d, dec w false d = dec' w false d) ->
  single_sample n H L (2 * T) true dec ws = single_sample n H L (2 * T) true dec' ws.
Proof.
  intros HT Ld F NL A. unfold single_sample.
  assert (E : qss_rounds n H (2 * T) true dec 0 ws (qss_init n H (2 * T)) = qss_rounds n H (2 * T) true dec' 0 ws (qss_init n H (2 * T))).
  2:{ rewrite E. reflexivity. }
  destruct (list_eq_dec (fun a b : vec * vec => ltac:(decide equality; apply vec_eq_dec)) ws []) as [->|NE]; [reflexivity|].
  destruct (exists_last NE) as [ws0 [w0 EW]]. subst ws. clear NE.
  destruct w0 as [fe me]. apply Forall_app in F as [F1 F2]. pose proof (Forall_inv F2) as [Lfe Lme]. cbn [fst snd] in *.
  destruct (qss_prefix n H T dec HT Ld ws0 0 F1) as [st [E I]].
  pose proof I as [I1 [I2 [I3 [I4 [I5 [I6 [I7 I8]]]]]]].
  rewrite !qss_rounds_app. cbn [length]. change (1 + 0) with 1.
  rewrite <- (qss_prefix_agree n H (2 * T) true dec dec') by auto. rewrite E. cbn [bindp qss_rounds length].
  rewrite (qss_round_agree n H (2 * T) true dec dec'); auto.
  intros _ C. specialize (NL (q_win st)). rewrite app_length in NL. simpl in NL. lia.
Qed.

(* fewer rounds than the window is wide: nothing is ever decoded *)
Theorem C52_short_run_undecoded n H L R analog dec ws :
  length ws < R -> wf n (map fst ws) ->
  single_sample n H L R analog dec ws = Ret (if is_logical_err L (vsum n (map fst ws)) then 0 else 1).
Proof.
  intros LW Wf. unfold single_sample.
  destruct (qss_no_window n H R analog dec ws 0 (qss_init n H R)) as [st [E [_ [EE _]]]]. { cbn [qss_init q_cnt]. lia. }
  rewrite E, EE. cbn [qss_init q_err]. rewrite (fold_left_vxor n) by (auto using vzero_length).
  rewrite (vxor_zero_l n); auto. apply vsum_length; auto.
Qed.

(* without analog information a sample that fills a window raises UnboundLocalError *)
Theorem C52_hard_syndromes_crash n H L R dec ws : 1 <= R -> R <= length ws ->
  single_sample n H L R false dec ws = UnboundLocal.
Proof.
  intros L1 L2. unfold single_sample. rewrite qss_unbound; auto; cbn [qss_init q_cnt]; lia.
Qed.

(* repetition code, windows of two rounds, five rounds of noise: the sample ends in the code space *)
Definition rep_solve (s : vec) : vec :=
  match s with [true; false] => [true; false; false] | [false; true] => [false; false; true]
             | [true; true] => [false; true; false] | _ => vzero 3 end.
Lemma rep_solve_ok e : length e = 3 -> length (rep_solve (mulMV Hrep e)) = 3 /\ mulMV Hrep (rep_solve (mulMV Hrep e)) = mulMV Hrep e.
Proof.
  intros L. destruct e as [|a [|b [|c [|? ?]]]]; try discriminate. destruct a, b, c; split; reflexivity.
Qed.
Definition rep_dec (_ : nat) (_ : bool) (d : vec) : vec := firstn 10 (lazy_last_decoder 3 Hrep 2 rep_solve d ++ vzero 10).
Example C52_instance :
  let ws := [([true; false; false], [false; true]); ([false; true; false], [true; false]); ([false; false; false], [false; true])] in
  (forall w l d, length (rep_dec w l d) = 3 * (2 * 1) + length Hrep * (2 * 1)) /\
  length ws = 1 * 1 + 2 * 1 /\
  match qss_rounds 3 Hrep 2 true rep_dec 0 ws (qss_init 3 Hrep 2) with Ret st => mulMV Hrep (q_err st) = [false; false] /\ q_win st = 2 | _ => False end /\
  (* one round more and one window row wider: the last round is not decoded *)
  match qss_rounds 3 Hrep 4 true (fun _ _ _ => vzero 20) 0 (ws ++ ws ++ [([true; false; false], [false; false])]) (qss_init 3 Hrep 4)
  with Ret st => mulMV Hrep (q_err st) <> [false; false] | _ => False end.
Proof.
  split. { intros w l d. unfold rep_dec. rewrite firstn_length, app_length, vzero_length.
    change (3 * (2 * 1) + length Hrep * (2 * 1)) with 10. lia. }
  split; [reflexivity|]. split; [split; reflexivity|]. vm_compute. discriminate.
Qed.

(* ------------------------------------------------------------------ C53 *)
Theorem C53_analog_accepts n H e v s : wf n H -> length e = n -> length v = length H -> length s = length H ->
  (mulMV (get_analog_pcm H) (e ++ v) = s <-> v = vxor s (mulMV H e)).
Proof.
  intros W Le Lv Ls. rewrite (analog_pcm_mul n) by auto. assert (Lh : length (mulMV H e) = length H) by apply mulMV_length. split.
  - intros <-. rewrite (vxor_comm _ v), <- vxor_assoc, (vxor_self' (length H)) by auto. symmetry. apply vxor_zero_r; auto.
  - intros ->. rewrite (vxor_comm s), vxor_assoc, (vxor_self' (length H)) by auto. apply vxor_zero_l; auto.
Qed.

(* shape: one extra column for each check; every syndrome can be explained, whatever the data part is *)
Theorem C53_analog_shape n H : wf n H ->
  length (get_analog_pcm H) = length H /\ wf (n + length H) (get_analog_pcm H) /\
  (forall e s, length e = n -> length s = length H -> exists! v, length v = length H /\ mulMV (get_analog_pcm H) (e ++ v) = s).
Proof.
  intros W. assert (LI : length H = length (identity (length H))) by (rewrite identity_length; auto).
  split; [apply hstack_length; auto|]. split; [apply hstack_wf; auto using identity_wf|].
  intros e s Le Ls. exists (vxor s (mulMV H e)). split.
  - assert (L : length (vxor s (mulMV H e)) = length H) by (apply vxor_length'; auto; apply mulMV_length).
    split; auto. apply (C53_analog_accepts n); auto.
  - intros v [Lv E]. symmetry. apply (C53_analog_accepts n) in E; auto.
Qed.

(* [[H, I], [0, M]] accepts (e, v) for (s, t) iff v repairs the syndrome and M v = t *)
Theorem C53_single_stage n pcm meta e v s t :
  wf n pcm -> wf (length pcm) meta -> length e = n -> length v = length pcm -> length s = length pcm -> length t = length meta ->
  (mulMV (build_single_stage_pcm n (length pcm) pcm meta) (e ++ v) = s ++ t <-> v = vxor s (mulMV pcm e) /\ mulMV meta v = t).
Proof.
  intros W Wm Le Lv Ls Lt. unfold build_single_stage_pcm, mulMV. rewrite map_app.
  change (map (fun r => dot r (e ++ v)) (hstack pcm (identity (length pcm)))) with (mulMV (get_analog_pcm pcm) (e ++ v)).
  rewrite map_map. replace (map (fun row => dot (vzero n ++ row) (e ++ v)) meta) with (mulMV meta v).
  2:{ apply map_ext. intros r. rewrite dot_app by (rewrite vzero_length; auto). rewrite dot_zero_l. destruct (dot r v); auto. }
  rewrite <- (C53_analog_accepts n pcm e v s) by auto. split.
  - intros E. assert (LL : length (mulMV (get_analog_pcm pcm) (e ++ v)) = length s).
    { rewrite mulMV_length. unfold get_analog_pcm. rewrite hstack_length; auto. rewrite identity_length; auto. }
    split.
    + apply (f_equal (firstn (length s))) in E. rewrite firstn_app, LL, Nat.sub_diag in E. rewrite firstn_app, Nat.sub_diag in E.
      rewrite !firstn_O, !app_nil_r in E. rewrite !firstn_all2 in E by lia. exact E.
    + apply (f_equal (skipn (length s))) in E. rewrite !skipn_app, LL, Nat.sub_diag in E. rewrite skipn_all2 in E by lia.
      rewrite (skipn_all2 s) in E by lia. exact E.
  - intros [-> Em]. f_equal. exact Em.
Qed.

(* thresholding undoes the sign encoding; a measured bit is wrong iff the deviation reaches the threshold *)
Theorem C53_threshold s g : length g = length s ->
  get_binary_from_analog (get_signed_from_binary s) = s /\
  (forall i, i < length s ->
    (nth i (get_binary_from_analog (get_noisy_analog_syndrome s g)) false <> nth i s false <->
     if nth i s false then (1 < nth i g 0)%Q else (nth i g 0 <= -(1))%Q)).
Proof.
  intros L. split.
  - unfold get_binary_from_analog, get_signed_from_binary. rewrite map_map. transitivity (map (fun b : bool => b) s); [|apply map_id].
    apply map_ext. intros []; reflexivity.
  - intros i I. rewrite binary_of_noisy_nth by auto. destruct (nth i s false).
    + destruct (Qle_bool _ 0) eqn:E.
      * apply Qle_bool_iff in E. split; [congruence|]. intros. lra.
      * apply Qle_bool_nle in E. split; [intros _; lra|discriminate].
    + destruct (Qle_bool _ 0) eqn:E.
      * apply Qle_bool_iff in E. split; [intros _; lra|discriminate].
      * apply Qle_bool_nle in E. split; [congruence|]. intros. lra.
Qed.

(* One side of an analog-Tanner-graph sample.  If the decoder explains the thresholded syndrome, the residual error's
   syndrome is the difference between the bits that were really wrong and those the decoder blames. *)
Theorem C53_sample n H L dec e g : wf n H -> length e = n -> length g = length H ->
  let noisy := get_noisy_analog_syndrome (mulMV H e) g in
  let measured := get_binary_from_analog noisy in
  let answer := dec noisy measured in
  length answer = n + length H -> mulMV (get_analog_pcm H) answer = measured ->
  let (ok, residual) := atd_side n H L dec e g in
  length residual = n /\
  mulMV H residual = vxor (skipn n answer) (vxor measured (mulMV H e)) /\
  (ok = true <-> forall r, In r L -> dot r residual = false).
Proof.
  intros W Le Lg noisy measured answer La EX. unfold atd_side. fold noisy. fold measured. fold answer.
  assert (Ld : length (firstn n answer) = n) by (rewrite firstn_length; lia).
  assert (Lv : length (skipn n answer) = length H) by (rewrite skipn_length; lia).
  assert (Lh : length (mulMV H e) = length H) by apply mulMV_length.
  assert (Lms : length measured = length H) by (unfold measured, noisy; rewrite binary_of_noisy_length; [auto|congruence]).
  split; [apply vxor_length'; auto|]. split.
  - rewrite (mulMV_vxor H n) by auto.
    rewrite <- (firstn_skipn n answer) in EX. apply (C53_analog_accepts n) in EX; auto. rewrite EX.
    set (a := mulMV H (firstn n answer)). assert (LLa : length a = length H) by apply mulMV_length.
    rewrite (vxor_shuffle measured a measured (mulMV H e)), (vxor_self' (length H) measured) by auto.
    rewrite (vxor_zero_l (length H)) by (apply vxor_length'; auto). apply vxor_comm.
  - rewrite negb_true_iff. split.
    + intros E r I. destruct (dot r (vxor e (firstn n answer))) eqn:D; auto.
      assert (is_logical_err L (vxor e (firstn n answer)) = true) by (apply is_logical_err_spec; eauto). congruence.
    + intros A. destruct (is_logical_err L (vxor e (firstn n answer))) eqn:D; auto.
      apply is_logical_err_spec in D as [r [I Dr]]. rewrite A in Dr; auto.
Qed.

(* so a sample can be counted as a success although the residual error is not in the code space *)
Theorem C53_success_outside_code_space : exists (dec : list Q -> vec -> vec) e g,
  mulMV (get_analog_pcm Hrep) (dec (get_noisy_analog_syndrome (mulMV Hrep e) g) (get_binary_from_analog (get_noisy_analog_syndrome (mulMV Hrep e) g))) =
    get_binary_from_analog (get_noisy_analog_syndrome (mulMV Hrep e) g) /\
  fst (atd_side 3 Hrep [[true; false; false]] dec e g) = true /\
  mulMV Hrep (snd (atd_side 3 Hrep [[true; false; false]] dec e g)) <> vzero 2.
Proof.
  exists (fun _ s => vzero 3 ++ s), [false; true; false], [0%Q; 0%Q]. split; [reflexivity|]. split; [reflexivity|discriminate].
Qed.

(* the constructor wants exactly one of a positive sigma and an error rate *)
Theorem C53_decoder_arguments f sigma ser :
  match atd_decoder_sigma f sigma ser with
  | Ret s => ((0 < sigma)%Q /\ ser = None /\ s = sigma) \/
             ((sigma <= 0)%Q /\ exists r, ser = Some r /\ s = if Qeq_bool r 0 then 0%Q else f r)
  | ValueErr => ((0 < sigma)%Q /\ ser <> None) \/ ((sigma <= 0)%Q /\ ser = None)
  | _ => False
  end.
Proof.
  unfold atd_decoder_sigma. destruct (Qle_bool sigma 0) eqn:E.
  - apply Qle_bool_iff in E. destruct ser; [right|right]; eauto.
  - apply Qle_bool_nle in E. destruct ser; left; auto. split; auto. discriminate.
Qed.

(* so a simulator without syndrome noise on one of the sides cannot be made *)
Theorem C53_no_noise_rejected f of_sigma ser bias :
  (let '(xs, ys, zs) := error_channel_setup ser bias 1 in
   (nth 0 xs 0 + nth 0 ys 0 == 0)%Q \/ (nth 0 zs 0 + nth 0 ys 0 == 0)%Q) ->
  atd_simulator f of_sigma (Some ser) None bias = ValueErr.
Proof.
  unfold atd_simulator. destruct (error_channel_setup ser bias 1) as [[xs ys] zs].
  assert (Z : forall q, (q == 0)%Q -> atd_decoder_sigma f (get_sigma_from_syndr_er f q) None = ValueErr).
  { intros q Eq. unfold get_sigma_from_syndr_er. apply Qeq_bool_iff in Eq. rewrite Eq. reflexivity. }
  intros [A|A]; apply Z in A; rewrite A; auto.
  match goal with |- match ?x with _ => _ end = _ => destruct x; reflexivity end.
Qed.
Example C53_pure_z_bias f of_sigma : atd_simulator f of_sigma (Some (1 # 10)) None (Some 0%Q, Some 0%Q, None) = ValueErr.
Proof. apply C53_no_noise_rejected. left. reflexivity. Qed.

(* ------------------------------------------------------------------ C54 *)
(* For every random number u_i, entry i of the residual error is flipped in its x part iff p_z <= u_i < p_x + p_y + p_z
   and in its z part iff u_i < p_z or p_z + p_x <= u_i < p_x + p_y + p_z (so: Z, X, Y on disjoint intervals of length
   p_z, p_x, p_y); entries beyond the drawn ones stay. *)
Theorem C54_generate_err us pxs pys pzs rx rz :
  length pxs = length us -> length pys = length us -> length pzs = length us -> length us <= length rx -> length us <= length rz ->
  (forall i, i < length us -> (0 <= nth i pxs 0 /\ 0 <= nth i pys 0 /\ 0 <= nth i pzs 0)%Q) ->
  exists ex ez, generate_err us (pxs, pys, pzs) (rx, rz) = Some (ex, ez) /\ length ex = length rx /\ length ez = length rz /\
  (forall i, i < length us -> let u := nth i us 0%Q in let px := nth i pxs 0%Q in let py := nth i pys 0%Q in let pz := nth i pzs 0%Q in
     (nth i ex false <> nth i rx false <-> (pz <= u /\ u < px + py + pz)%Q) /\
     (nth i ez false <> nth i rz false <-> (u < pz \/ (pz + px <= u /\ u < px + py + pz))%Q)) /\
  (forall i, length us <= i -> nth i ex false = nth i rx false /\ nth i ez false = nth i rz false).
Proof.
  intros L1 L2 L3 L4 L5 P. unfold generate_err. cbn [fst snd].
  destruct (generate_err_loop_some us pxs pys pzs rx rz) as [ex [ez E]]; try lia.
  exists ex, ez. split; auto. pose proof (generate_err_loop_nth us pxs pys pzs rx rz ex ez) as G.
  split; [apply (G 0 E)|]. split; [apply (G 0 E)|]. split.
  - intros i I. cbn zeta. destruct (G i E) as [_ [_ [X Z]]]. rewrite (proj2 (Nat.ltb_lt _ _) I) in X, Z.
    destruct (P i I) as [A [B C]].
    destruct (draw_spec (nth i pxs 0%Q) (nth i pys 0%Q) (nth i pzs 0%Q) (nth i us 0%Q) A B C) as [D1 D2].
    rewrite <- D1, <- D2, X, Z. split.
    + destruct (nth i rx false), (fst _); simpl; split; congruence.
    + destruct (nth i rz false), (snd _); simpl; split; congruence.
  - intros i I. destruct (G i E) as [_ [_ [X Z]]]. rewrite (proj2 (Nat.ltb_ge _ _) I) in X, Z.
    rewrite xorb_false_r in X, Z. auto.
Qed.

(* so a side whose probabilities are zero is never touched *)
Theorem C54_zero_probability us pxs pys pzs rx rz :
  length pxs = length us -> length pys = length us -> length pzs = length us -> length us <= length rx -> length us <= length rz ->
  (forall i, i < length us -> (nth i pxs 0 == 0 /\ nth i pys 0 == 0 /\ 0 <= nth i pzs 0)%Q) ->
  exists ez, generate_err us (pxs, pys, pzs) (rx, rz) = Some (rx, ez).
Proof.
  intros L1 L2 L3 L4 L5 P.
  destruct (C54_generate_err us pxs pys pzs rx rz L1 L2 L3 L4 L5) as [ex [ez [E [LX [_ [A B]]]]]].
  { intros i I. destruct (P i I) as [P1 [P2 P3]]. rewrite P1, P2. split; [lra|]. split; [lra|auto]. }
  exists ez. rewrite E. f_equal. f_equal. apply (vec_ext (length rx)); auto. intros i I.
  destruct (Nat.lt_ge_cases i (length us)) as [J|J]; [|apply B; auto].
  destruct (A i J) as [A1 _]. destruct (bool_dec (nth i ex false) (nth i rx false)) as [|D]; auto.
  apply A1 in D. destruct (P i J) as [P1 [P2 P3]]. rewrite P1, P2 in D. destruct D. exfalso. lra.
Qed.

(* syndrome errors: one bit for each check, set iff the random number is below the probability *)
Theorem C54_generate_syndr_err us probs : length us = length probs ->
  length (generate_syndr_err us probs) = length probs /\
  forall i, i < length probs -> (nth i (generate_syndr_err us probs) false = true <-> (nth i us 0 < nth i probs 0)%Q).
Proof.
  intros L. unfold generate_syndr_err. split. { rewrite map_length, combine_length. lia. }
  revert probs L. induction us; destruct probs; simpl; intros L i I; try lia. destruct i.
  - apply Qltb_lt.
  - apply IHus; lia.
Qed.

(* the channel: one triple for all qubits; the parts add up to the error rate and are in the ratio of the bias; an
   infinite bias takes the whole rate *)
Theorem C54_error_channel rate bx by_ bz n : (~ bx + by_ + bz == 0)%Q ->
  exists px py pz, error_channel_setup rate (Some bx, Some by_, Some bz) n = (repeat px n, repeat py n, repeat pz n) /\
    (px + py + pz == rate)%Q /\ (px * by_ == py * bx)%Q /\ (py * bz == pz * by_)%Q /\ (px * bz == pz * bx)%Q.
Proof.
  intros NZ. do 3 eexists. split; [reflexivity|]. repeat split; field; auto.
Qed.
Theorem C54_error_channel_infinite rate b1 b2 n :
  error_channel_setup rate (None, b1, b2) n = (repeat rate n, repeat 0%Q n, repeat 0%Q n) /\
  (b1 <> None -> error_channel_setup rate (b1, None, b2) n = (repeat 0%Q n, repeat rate n, repeat 0%Q n)) /\
  (b1 <> None -> b2 <> None -> error_channel_setup rate (b1, b2, None) n = (repeat 0%Q n, repeat 0%Q n, repeat rate n)).
Proof. split; [reflexivity|]. split; destruct b1; try congruence; auto. destruct b2; try congruence; auto. Qed.

Example C54_instance :
  generate_err [1 # 20; 3 # 20; 1 # 4; 1 # 2] (error_channel_setup (3 # 10) (Some 1%Q, Some 1%Q, Some 1%Q) 4)
    ([false; true; false; true; true], [true; true; false; false; true]) =
  Some ([false; false; true; true; true], [false; true; true; false; true]).
Proof. reflexivity. Qed.

(* the two tests for a logical error *)
Theorem C54_is_logical_err L e : is_logical_err L e = true <-> exists r, In r L /\ dot r e = true.
Proof. apply is_logical_err_spec. Qed.
Theorem C54_check_logical_err_h n M original estimate : wf n M -> length original = n -> length estimate = n ->
  (check_logical_err_h n M original estimate = true <-> ~ span n M (vxor original estimate)).
Proof. apply check_logical_err_h_spec. Qed.
Example C54_check_instance :
  check_logical_err_h 3 Hrep [true; true; false] [false; false; false] = false /\
  check_logical_err_h 3 Hrep [true; true; true] [false; true; false] = false /\
  check_logical_err_h 3 Hrep [true; true; true] [false; false; false] = true.
Proof. vm_compute. auto. Qed.

(* ------------------------------------------------------------------ C55: the loop over the samples *)
(* nr_runs is the number of samples that were taken, success_cnt the successes among them; sampling stops early only
   when the convergence test holds at a multiple of the save interval plus one, and never goes on after it did *)
Theorem C55_run_counts si conv outs s r : run_samples si conv outs = Ret (s, r) ->
  1 <= r <= length outs /\ s = length (filter (fun b => b) (firstn r outs)) /\
  (r < length outs -> r mod si = 1 /\ conv s r = true) /\
  (forall k, 1 <= k < r -> k mod si = 1 -> conv (length (filter (fun b => b) (firstn k outs))) k = false).
Proof.
  unfold run_samples. destruct outs as [|o outs]; [discriminate|]. destruct (si =? 0) eqn:Z; [discriminate|].
  set (l := o :: outs) in *. intros E.
  assert (E' : run_loop si conv l 0 0 = (s, r)) by congruence. clear E.
  destruct (run_loop_spec si conv l 0 0 s r E') as [d [rest [E1 [E2 [E3 [E4 E5]]]]]]. cbn [Nat.add] in *.
  assert (NE : d <> []). { destruct rest as [|x xs]; [|apply E4; discriminate]. intros ->. unfold l in E1. discriminate. }
  assert (Ld : 1 <= length d) by (destruct d; simpl; [congruence|lia]).
  rewrite E1. rewrite E2. rewrite app_length. split; [lia|].
  rewrite firstn_app, firstn_all, Nat.sub_diag, firstn_O, app_nil_r. split; auto. split.
  - intros L. destruct E4 as [A [B _]]; [intros ->; simpl in L; lia|]. rewrite <- E2. auto.
  - intros k [K1 K2] M. rewrite firstn_app. replace (k - length d) with 0 by lia. rewrite firstn_O, app_nil_r. apply E5; auto.
Qed.
(* no sample requested: UnboundLocalError; with save_interval 1 the test is never consulted *)
Theorem C55_run_no_sample si conv : run_samples si conv [] = UnboundLocal.
Proof. reflexivity. Qed.
Theorem C55_save_interval_one conv outs : outs <> [] ->
  run_samples 1 conv outs = Ret (length (filter (fun b => b) outs), length outs).
Proof.
  intros NE. destruct (run_samples 1 conv outs) as [[s r]| | | | |] eqn:E; try (destruct outs; [congruence|discriminate]).
  apply C55_run_counts in E as [L [E [A _]]]. destruct (Nat.eq_dec r (length outs)) as [->|N].
  - rewrite firstn_all in E. subst. reflexivity.
  - destruct A as [A _]; [lia|]. rewrite Nat.mod_1_r in A. discriminate.
Qed.
Example C55_run_instance :
  run_samples 2 (fun s r => 2 <=? s) [true; false; true; true; false; true] = Ret (2, 3).
Proof. reflexivity. Qed.
