(* Property C72: the channel probabilities the analog decoders work with, in every history of calls. *)
From Coq Require Import List Arith Bool QArith ZArith Lia.
From Verif Require Import Lin Lin2 AnalogModel AnalogProofs AnalogModel2 ChanModel.
Import ListNotations.
Local Open Scope nat_scope.

Lemma atd_inv v n sigma ec : length ec = n -> forall hist probs, firstn n probs = ec -> firstn n (atd_calls v n sigma probs hist) = ec.
Proof.
  intros L. induction hist as [|y r IH]; intros probs E; auto. cbn [atd_calls]. apply IH. unfold atd_decode, set_analog_syndrome. cbn [fst]. rewrite E.
  rewrite firstn_app, L, Nat.sub_diag, firstn_O, app_nil_r. apply firstn_all2. lia.
Qed.
(* AnalogTannergraphDecoder: whatever was decoded before, the decoder is given the thresholded syndrome, the error channel of the constructor for the data bits and the
   values of the present syndrome for the virtual bits. *)
Theorem C72_atd v n m sigma error_channel hist y : length error_channel = n ->
  snd (atd_decode v n sigma (atd_calls v n sigma (atd_new m error_channel) hist) y) = (error_channel ++ map (v sigma) y, get_binary_from_analog y).
Proof.
  intros L. unfold atd_decode, set_analog_syndrome. cbn [snd]. rewrite (atd_inv v n sigma error_channel); auto. unfold atd_new. rewrite firstn_app, L, Nat.sub_diag, firstn_O, app_nil_r. apply firstn_all2. lia.
Qed.
Print Assumptions C72_atd.

(* decode_multiround with analog syndromes: the channel does not depend on earlier calls, for either decoder. *)
Theorem C72_analog_window v method m cbs sigma channel_probs hist own cols last :
  fst (window_channel v method m cbs sigma channel_probs (Some cols) last (own_after v method m cbs sigma channel_probs hist own)) =
  (let c := firstn cbs channel_probs ++ map (v sigma) (concat cols) in if last then set_last m c else c).
Proof. reflexivity. Qed.
Print Assumptions C72_analog_window.
(* With hard syndromes and matching: the channel of the simulator, except for the tiny value of the last round. *)
Theorem C72_hard_matching v m cbs sigma channel_probs hist last :
  fst (window_channel v Match m cbs sigma channel_probs None last (own_after v Match m cbs sigma channel_probs hist channel_probs)) = if last then set_last m channel_probs else channel_probs.
Proof.
  assert (E : forall h own, own_after v Match m cbs sigma channel_probs h own = own).
  { clear hist. induction h as [|[a l] r IHh]; intros own; auto. cbn [own_after]. rewrite IHh. unfold window_channel. destruct a, l; reflexivity. }
  rewrite E. now destruct last.
Qed.
Print Assumptions C72_hard_matching.
(* With hard syndromes and bposd the decoder object remembers: once a last round has been decoded with it, every later window that is not last is decoded with the tiny value for
   its last round as well. *)
Theorem C72_hard_bposd v m cbs sigma channel_probs (hist : list bool) last :
  fst (window_channel v Bposd m cbs sigma channel_probs None last (own_after v Bposd m cbs sigma channel_probs (map (fun l => (None, l)) hist) channel_probs)) =
  if last || existsb (fun l => l) hist then set_last m channel_probs else channel_probs.
Proof.
  assert (E : forall (h : list bool) own, own_after v Bposd m cbs sigma channel_probs (map (fun l => (None, l)) h) own = if existsb (fun l => l) h then set_last m channel_probs else own).
  { clear hist. induction h as [|l r IHh]; intros own; auto. cbn [map own_after existsb]. rewrite IHh. unfold window_channel. destruct l; cbn [orb snd]; [now destruct (existsb _ r)|reflexivity]. }
  rewrite E. now destruct last.
Qed.
Print Assumptions C72_hard_bposd.
Lemma set_last_changes m l : 0 < m -> m <= length l -> nth (length l - 1) l 0%Q <> tiny -> set_last m l <> l.
Proof.
  intros Hm Hl N E. apply N. rewrite <- E at 2. unfold set_last. destruct (Nat.eqb_spec m 0); [lia|]. rewrite app_nth2; rewrite firstn_length; [|lia].
  replace (length l - (length l - m)) with m by lia. replace (length l - 1 - Nat.min (length l - m) (length l)) with (m - 1) by lia.
  destruct m as [|m]; [lia|]. replace (S m - 1) with m by lia. clear. induction m as [|m IH]; [reflexivity|]. exact IH.
Qed.
(* so the answers of decode_multiround depend on the history: after a last round a window is decoded with another channel than before *)
Theorem C72_hard_history_refuted v m cbs sigma channel_probs : 0 < m -> m <= length channel_probs -> nth (length channel_probs - 1) channel_probs 0%Q <> tiny ->
  fst (window_channel v Bposd m cbs sigma channel_probs None false (own_after v Bposd m cbs sigma channel_probs [(None, true)] channel_probs)) <>
  fst (window_channel v Bposd m cbs sigma channel_probs None false (own_after v Bposd m cbs sigma channel_probs [] channel_probs)).
Proof.
  intros Hm Hl N. pose proof (C72_hard_bposd v m cbs sigma channel_probs [true] false) as A. pose proof (C72_hard_bposd v m cbs sigma channel_probs [] false) as B.
  cbn [map existsb orb] in A, B. rewrite A, B. apply set_last_changes; auto.
Qed.
Print Assumptions C72_hard_history_refuted.

(* ---- one sample of the quasi-single-shot simulation ---- *)
Lemma repeat_concat_length {A} (l : list A) k : length (concat (repeat l k)) = k * length l.
Proof. induction k as [|k IH]; simpl; auto. now rewrite app_length, IH. Qed.
Lemma q0plus (x : Q) : (0 + x)%Q = x.
Proof. destruct x as [a b]. unfold Qplus. cbn [Qnum Qden]. now rewrite Z.mul_0_l, Z.add_0_l, Z.mul_1_r, Pos.mul_1_l. Qed.
Lemma qplus0 m y : length y = m -> qplus (repeat 0%Q m) y = y.
Proof. intros <-. induction y as [|x y IH]; [reflexivity|]. cbn [length repeat]. unfold qplus in *. cbn [combine map fst snd]. now rewrite q0plus, IH. Qed.
Lemma set_nth_app {A} (a : list A) x b (y : A) : set_nth (length a) y (a ++ x :: b) = a ++ y :: b.
Proof. induction a as [|z a IH]; simpl; [auto|now rewrite IH]. Qed.
Lemma nth_mid {A} (a : list A) x b d : nth (length a) (a ++ x :: b) d = x.
Proof. induction a; simpl; auto. Qed.

Section Sample.
Variables (v : Q -> Q -> Q) (method : dmethod) (n m T : nat) (sigma : Q) (cp own0 : list Q).
Definition window (ys : list (list Q)) (j : nat) : list Q := firstn (n * (2 * T)) cp ++ map (v sigma) (concat (firstn (2 * T) (skipn (j * T) ys))).
Definition cinv (ys : list (list Q)) (st : chan) : Prop := exists w, length ys = w * T + ch_cnt st /\ ch_cnt st < 2 * T /\ (w = 0 \/ T <= ch_cnt st) /\
  ch_mat st = skipn (w * T) ys ++ repeat (repeat 0%Q m) (2 * T - ch_cnt st) /\ ch_log st = map (window ys) (seq 0 w).
Lemma store (ys : list (list Q)) y st w : length y = m -> length ys = w * T + ch_cnt st -> ch_cnt st < 2 * T -> ch_mat st = skipn (w * T) ys ++ repeat (repeat 0%Q m) (2 * T - ch_cnt st) ->
  set_nth (ch_cnt st) (qplus (nth (ch_cnt st) (ch_mat st) []) y) (ch_mat st) = skipn (w * T) (ys ++ [y]) ++ repeat (repeat 0%Q m) (2 * T - (ch_cnt st + 1)).
Proof.
  intros Ly L C M. assert (LS : length (skipn (w * T) ys) = ch_cnt st) by (rewrite skipn_length; lia).
  destruct (2 * T - ch_cnt st) as [|d] eqn:D; [lia|]. rewrite M. cbn [repeat]. rewrite <- LS at 1 2. rewrite nth_mid, set_nth_app, qplus0 by auto.
  replace (2 * T - (ch_cnt st + 1)) with d by lia. rewrite skipn_app. replace (w * T - length ys) with 0 by lia. cbn [skipn]. now rewrite <- app_assoc.
Qed.
Lemma window_ext ys y j : j * T + 2 * T <= length ys -> window (ys ++ y) j = window ys j.
Proof. intros L. unfold window. do 3 f_equal. rewrite skipn_app, firstn_app. replace (2 * T - length (skipn (j * T) ys)) with 0 by (rewrite skipn_length; lia). now rewrite firstn_O, app_nil_r. Qed.
Lemma log_ext ys y w : (w = 0 \/ w * T + T <= length ys) -> map (window (ys ++ y)) (seq 0 w) = map (window ys) (seq 0 w).
Proof. intros L. apply map_ext_in. intros j I. apply in_seq in I. apply window_ext. destruct L as [->|L]; [lia|]. nia. Qed.
Lemma step ys y st : 1 <= T -> length y = m -> cinv ys st -> exists st', chan_round v method n m (2 * T) sigma cp false y st = Some st' /\ cinv (ys ++ [y]) st'.
Proof.
  intros HT Ly (w & L & C & B & M & G). unfold chan_round. destruct (Nat.ltb_spec (ch_cnt st) (2 * T)); [|lia]. rewrite (store ys y st w) by auto.
  set (mat := skipn (w * T) (ys ++ [y]) ++ _). assert (LM : length mat = 2 * T) by (unfold mat; rewrite app_length, repeat_length, skipn_length, app_length; simpl; lia).
  assert (LE : w = 0 \/ w * T + T <= length ys) by (destruct B; [auto|right; lia]).
  destruct (Nat.eqb_spec (ch_cnt st + 1) (2 * T)) as [E|E].
  - assert (EM : mat = skipn (w * T) (ys ++ [y])) by (unfold mat; replace (2 * T - (ch_cnt st + 1)) with 0 by lia; cbn [repeat]; now rewrite app_nil_r).
    destruct (window_channel v method m (n * (2 * T)) sigma cp (Some mat) false (ch_own st)) as [used own] eqn:W. eexists. split; [reflexivity|]. exists (S w). cbn [ch_cnt ch_mat ch_log].
    assert (H2 : 2 * T / 2 = T) by (rewrite Nat.mul_comm; apply Nat.div_mul; lia). rewrite H2. rewrite app_length. cbn [length]. repeat split; try lia.
    + unfold move_analog. rewrite LM, H2. replace (2 * T - T) with T by lia. f_equal. assert (LSK : length (skipn T mat) = T) by (rewrite skipn_length; lia). rewrite firstn_all2 by lia. rewrite EM.
      assert (SS : forall a b (l : list (list Q)), skipn a (skipn b l) = skipn (b + a) l) by (clear; intros a b; revert a; induction b as [|b IH]; intros a l; [reflexivity|]; destruct l; [now rewrite !skipn_nil|apply IH]). rewrite SS. f_equal. lia.
    + replace (seq 0 (S w)) with (seq 0 w ++ [w]) by (rewrite seq_S; reflexivity). rewrite map_app, log_ext, G by auto. f_equal. cbn [map]. f_equal.
      unfold window_channel in W. assert (U : used = firstn (n * (2 * T)) cp ++ virt v (concat mat) sigma) by congruence. rewrite U. unfold window, virt. rewrite EM. do 3 f_equal. symmetry. apply firstn_all2. rewrite <- EM. lia.
  - eexists. split; [reflexivity|]. exists w. cbn [ch_cnt ch_mat ch_log]. rewrite app_length. cbn [length]. repeat split; try lia. rewrite log_ext; auto.
Qed.
Lemma prefix ys : forall more st pre, 1 <= T -> Forall (fun y => length y = m) ys -> cinv pre st -> exists st', chan_rounds v method n m (2 * T) sigma cp (S more) ys st = Some st' /\ cinv (pre ++ ys) st'.
Proof.
  induction ys as [|y ys IH]; intros more st pre HT F I; [exists st; rewrite app_nil_r; auto|]. apply Forall_cons_iff in F as [Ly F]. cbn [chan_rounds]. replace (length ys + S more =? 0) with false by (symmetry; apply Nat.eqb_neq; lia).
  destruct (step pre y st HT Ly I) as (st' & -> & I'). destruct (IH more st' (pre ++ [y]) HT F I') as (st2 & E & I2). exists st2. split; auto. now rewrite <- app_assoc in I2.
Qed.
Lemma chan_rounds_snoc ys y : forall st, chan_rounds v method n m (2 * T) sigma cp 0 (ys ++ [y]) st = match chan_rounds v method n m (2 * T) sigma cp 1 ys st with Some st' => chan_round v method n m (2 * T) sigma cp true y st' | None => None end.
Proof.
  induction ys as [|x ys IH]; intros st; cbn [app chan_rounds]; [now destruct (chan_round _ _ _ _ _ _ _ _ _ _)|]. rewrite app_length. cbn [length]. replace (length ys + 1 + 0) with (length ys + 1) by lia. destruct (chan_round _ _ _ _ _ _ _ _ _ _); auto.
Qed.
End Sample.
(* A sample of the simulation with analog syndromes ys (one for each round), window of 2T rounds, k T + 2 T rounds: there are k + 1 windows; window j is decoded with the data channel for each of its
   rounds and the values of exactly the syndromes measured in rounds j T, ..., j T + 2 T - 1; the last one with a tiny value in the last round.  Whatever earlier samples left. *)
Theorem C72_sample v method n m T sigma data syndr own k ys : 1 <= T -> length data = n -> Forall (fun y => length y = m) ys -> length ys = k * T + 2 * T ->
  let win (j : nat) := concat (repeat data (2 * T)) ++ map (v sigma) (concat (firstn (2 * T) (skipn (j * T) ys))) in
  exists st, chan_rounds v method n m (2 * T) sigma (qss_channel (2 * T) data syndr) 0 ys (chan_init m (2 * T) own) = Some st /\
    ch_log st = map win (seq 0 k) ++ [set_last m (win k)].
Proof.
  intros HT LD F L win. set (cp := qss_channel (2 * T) data syndr).
  assert (FD : firstn (n * (2 * T)) cp = concat (repeat data (2 * T))).
  { unfold cp, qss_channel. rewrite firstn_app, repeat_concat_length, LD. replace (n * (2 * T) - 2 * T * n) with 0 by lia. rewrite firstn_O, app_nil_r. apply firstn_all2. rewrite repeat_concat_length. lia. }
  assert (WE : forall l j, window v n T sigma cp l j = concat (repeat data (2 * T)) ++ map (v sigma) (concat (firstn (2 * T) (skipn (j * T) l)))) by (intros l j; unfold window; now rewrite FD).
  assert (NE : ys <> []) by (intros ->; simpl in L; lia). destruct (exists_last NE) as (ys0 & y & ->). apply Forall_app in F as [F0 Fy]. apply Forall_inv in Fy. rewrite app_length in L. cbn [length] in L.
  assert (I0 : cinv v n m T sigma cp [] (chan_init m (2 * T) own)) by (exists 0; cbn; repeat split; auto; try lia; now rewrite Nat.sub_0_r).
  destruct (prefix v method n m T sigma cp ys0 0 (chan_init m (2 * T) own) [] HT F0 I0) as (st & E & w & LW & C & B & M & G). cbn [app] in *.
  rewrite chan_rounds_snoc, E. assert (W : w = k /\ ch_cnt st = 2 * T - 1) by (assert (w = k) by nia; subst; lia). destruct W as [-> W2].
  unfold chan_round. destruct (Nat.ltb_spec (ch_cnt st) (2 * T)); [|lia]. rewrite (store m T ys0 y st k) by auto. destruct (Nat.eqb_spec (ch_cnt st + 1) (2 * T)); [|lia].
  replace (2 * T - (ch_cnt st + 1)) with 0 by lia. cbn [repeat]. rewrite app_nil_r. unfold window_channel. rewrite FD. eexists. split; [reflexivity|]. cbn [ch_log]. rewrite G. f_equal.
  - apply map_ext_in. intros j I. apply in_seq in I. rewrite <- (window_ext v n T sigma cp ys0 [y] j) by nia. rewrite WE. reflexivity.
  - unfold win, virt. do 5 f_equal. symmetry. apply firstn_all2. rewrite skipn_length, app_length. cbn [length]. lia.
Qed.
Print Assumptions C72_sample.
(* Every one of these channels has one entry for each column of the multi-round matrix. *)
Lemma concat_lengths m (l : list (list Q)) : Forall (fun y => length y = m) l -> length (concat l) = length l * m.
Proof. induction 1 as [|y r L F IH]; [reflexivity|]. cbn [concat length]. rewrite app_length, IH. lia. Qed.
Lemma Forall_sub {A} (P : A -> Prop) a b l : Forall P l -> Forall P (firstn a (skipn b l)).
Proof. intros F. rewrite Forall_forall in *. intros x I. apply F. rewrite <- (firstn_skipn b l). apply in_or_app. right. rewrite <- (firstn_skipn a (skipn b l)). apply in_or_app. auto. Qed.
Lemma set_last_length m l : length (set_last m l) = length l.
Proof. unfold set_last. destruct (m =? 0); [apply map_length|]. rewrite app_length, firstn_length, repeat_length. lia. Qed.
Theorem C72_sizes v method n (H : mat) T sigma data syndr own k ys st : let m := length H in
  1 <= T -> wf n H -> length data = n -> Forall (fun y => length y = m) ys -> length ys = k * T + 2 * T ->
  chan_rounds v method n m (2 * T) sigma (qss_channel (2 * T) data syndr) 0 ys (chan_init m (2 * T) own) = Some st ->
  forall c row, In c (ch_log st) -> In row (build_multiround_pcm n H (2 * T - 1)) -> length c = length row.
Proof.
  intros m HT WH LD F L E c row Ic Ir. destruct (C72_sample v method n m T sigma data syndr own k ys HT LD F L) as (st' & E' & G). rewrite E in E'. injection E' as <-.
  assert (LR : length row = n * (2 * T) + m * (2 * T)).
  { unfold build_multiround_pcm in Ir. fold m in Ir. replace (2 * T - 1 + 1) with (2 * T) in Ir by lia.
    assert (W1 : wf (2 * T * n) (block_diag_rep n H (2 * T))) by (apply block_diag_wf; auto).
    assert (W2 : wf (2 * T * m) (block_diag_rep m (identity m) (2 * T))) by (apply block_diag_wf, identity_wf).
    assert (W3 : wf (2 * T * m) (eye_sub (m * (2 * T)) m)) by (replace (2 * T * m) with (m * (2 * T)) by lia; apply eye_sub_wf).
    assert (L1 : length (block_diag_rep n H (2 * T)) = 2 * T * m) by apply block_diag_length.
    assert (L2 : length (block_diag_rep m (identity m) (2 * T)) = 2 * T * m) by (rewrite block_diag_length, identity_length; reflexivity).
    assert (L3 : length (eye_sub (m * (2 * T)) m) = 2 * T * m) by (rewrite eye_sub_length; lia).
    assert (LM : length (madd (block_diag_rep m (identity m) (2 * T)) (eye_sub (m * (2 * T)) m)) = 2 * T * m) by (rewrite madd_length; congruence).
    assert (W : wf (2 * T * n + 2 * T * m) (hstack (block_diag_rep n H (2 * T)) (madd (block_diag_rep m (identity m) (2 * T)) (eye_sub (m * (2 * T)) m)))) by (apply hstack_wf; [congruence|auto|apply madd_wf; auto; congruence]).
    pose proof (wf_in _ _ _ W Ir). lia. }
  assert (LW : forall j, j <= k -> length (concat (repeat data (2 * T)) ++ map (v sigma) (concat (firstn (2 * T) (skipn (j * T) ys)))) = n * (2 * T) + m * (2 * T)).
  { intros j J. rewrite app_length, repeat_concat_length, LD, map_length, (concat_lengths m) by (apply Forall_sub; auto). rewrite firstn_length, skipn_length.
    replace (Nat.min (2 * T) (length ys - j * T)) with (2 * T) by nia. lia. }
  rewrite G in Ic. apply in_app_or in Ic as [Ic|[<-|[]]].
  - apply in_map_iff in Ic as (j & <- & J). apply in_seq in J. rewrite LW; lia.
  - rewrite set_last_length, LW; lia.
Qed.
Print Assumptions C72_sizes.

(* A concrete sample: one check on two data bits, windows of two rounds (T = 1), three rounds; two windows, the second with the tiny value. *)
Example C72_nonvacuous :
  let y1 := (1 # 2)%Q in let y2 := (-1 # 3)%Q in let y3 := (1 # 5)%Q in let d := [1 # 10; 1 # 20]%Q in
  exists st, chan_rounds (fun s y => s * y)%Q Bposd 2 1 2 2 (qss_channel 2 d [1 # 7]%Q) 0 [[y1]; [y2]; [y3]] (chan_init 1 2 [])%Q = Some st /\
    ch_log st = [d ++ d ++ [2 * y1; 2 * y2]; d ++ d ++ [2 * y2; tiny]]%Q.
Proof.
  intros y1 y2 y3 d. destruct (C72_sample (fun s y => s * y)%Q Bposd 2 1 1 2 d [1 # 7]%Q [] 1 [[y1]; [y2]; [y3]]) as (st & E & G); [lia|reflexivity|repeat constructor|reflexivity|].
  exists st. split; [exact E|]. rewrite G. reflexivity.
Qed.
