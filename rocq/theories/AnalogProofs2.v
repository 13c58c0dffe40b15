From Coq Require Import List Arith Bool Lia.
From Verif Require Import Lin Lin2 AnalogModel AnalogProofs.
Import ListNotations.

Lemma set_nth_length {A} i (a : A) l : length (set_nth i a l) = length l.
Proof. revert i; induction l; destruct i; simpl; auto. Qed.
Lemma set_nth_same {A} i (a : A) l d : i < length l -> nth i (set_nth i a l) d = a.
Proof. revert i; induction l; destruct i; simpl; intros; try lia; auto. apply IHl; lia. Qed.
Lemma set_nth_other {A} i j (a : A) l d : i <> j -> nth j (set_nth i a l) d = nth j l d.
Proof. revert i j; induction l; destruct i, j; simpl; intros; try congruence; auto. Qed.

Lemma nth_firstn' {A} i j (l : list A) d : j < i -> nth j (firstn i l) d = nth j l d.
Proof. revert i j; induction l; destruct i, j; simpl; intros; try lia; auto. apply IHl; lia. Qed.
Lemma nth_skipn' {A} i j (l : list A) d : nth j (skipn i l) d = nth (i + j) l d.
Proof. revert i; induction l; destruct i; simpl; auto. destruct j; auto. Qed.

Lemma skipn_add {A} a b (l : list A) : skipn a (skipn b l) = skipn (b + a) l.
Proof. revert l; induction b; simpl; intros; auto. destruct l; simpl; auto. apply skipn_nil. Qed.

Lemma block_concat k r (l : list vec) : wf k l -> r < length l -> block k r (concat l) = nth r l [].
Proof.
  intros W. revert r. induction W; simpl; intros r L; [lia|]. unfold block in *. destruct r; simpl.
  - rewrite firstn_app, firstn_all2 by lia. rewrite H, Nat.sub_diag. simpl. apply app_nil_r.
  - rewrite skipn_app. rewrite skipn_all2 by lia. simpl. replace (k + r * k - length x) with (r * k) by lia. apply IHW; lia.
Qed.
Lemma blocks_concat k R (l : list vec) : wf k l -> length l = R -> blocks k R (concat l) = l.
Proof.
  intros W L. unfold blocks. apply nth_ext_vec. { rewrite map_length, seq_length; auto. }
  intros r Lr. rewrite map_length, seq_length in Lr. rewrite map_seq_nth by auto. apply block_concat; auto; lia.
Qed.
Lemma concat_blocks k R x : length x = k * R -> concat (blocks k R x) = x /\ wf k (blocks k R x).
Proof.
  unfold blocks. revert x. induction R; intros x L.
  - rewrite Nat.mul_0_r in L. destruct x; [|discriminate]. split; [reflexivity|constructor].
  - cbn [seq map concat]. rewrite <- seq_shift, map_map.
    replace (map (fun r => block k (S r) x) (seq 0 R)) with (map (fun r => block k r (skipn k x)) (seq 0 R)).
    2:{ apply map_ext. intros r. unfold block. rewrite skipn_add. reflexivity. }
    destruct (IHR (skipn k x)) as [A B]. { rewrite skipn_length. lia. }
    rewrite A. unfold block at 1. simpl. split; [apply firstn_skipn|]. apply wf_cons. split; auto.
    unfold block. simpl. rewrite firstn_length. lia.
Qed.
Lemma blocks_length k R x : length (blocks k R x) = R.
Proof. unfold blocks. rewrite map_length, seq_length. auto. Qed.

Lemma skipn_firstn_S {A} T r (l : list A) : T <= r -> firstn (S r) l = firstn T l ++ firstn (S r - T) (skipn T l).
Proof.
  intros L. rewrite <- (firstn_skipn T l) at 1. rewrite firstn_app.
  destruct (Nat.le_gt_cases T (length l)).
  - rewrite firstn_length_le by auto. rewrite firstn_firstn. rewrite Nat.min_r by lia. reflexivity.
  - rewrite (skipn_all2 l) by lia. rewrite !firstn_nil, !app_nil_r. rewrite firstn_firstn. rewrite Nat.min_r by lia. auto.
Qed.

(* ---- one window ---- *)
Section Window.
Variables (n : nat) (H : mat) (T : nat) (dec : vec -> vec) (synd : list vec).
Let m := length H.
Let R := 2 * T.
Hypothesis HT : 1 <= T.
Hypothesis Ls : length synd = R.
Hypothesis Ws : wf m synd.
Let x := dec (concat (diff_syndrome synd)).
Hypothesis Lx : length x = n * R + m * R.
Let es := blocks n R (firstn (n * R) x).
Let ms := blocks m R (skipn (n * R) x).

Lemma parts : x = concat es ++ concat ms /\ wf n es /\ wf m ms /\ length es = R /\ length ms = R.
Proof.
  destruct (concat_blocks n R (firstn (n * R) x)) as [A B]. { rewrite firstn_length. lia. }
  destruct (concat_blocks m R (skipn (n * R) x)) as [C D]. { rewrite skipn_length. lia. }
  unfold es, ms. rewrite A, C, firstn_skipn. split; auto. split; auto. split; auto. rewrite !blocks_length. auto.
Qed.

Lemma half : R / 2 = T. Proof. unfold R. rewrite Nat.mul_comm. apply Nat.div_mul. lia. Qed.

Lemma window_false : decode_multiround n H R false dec synd =
  let corr := vsum n (firstn T es) in
  let synd1 := firstn T synd ++ map (fun c => vxor c (mulMV H corr)) (skipn T synd) in
  (corr, set_nth T (vxor (nth T synd1 []) (nth (T - 1) ms [])) synd1).
Proof.
  unfold decode_multiround. rewrite half. fold x. fold es. cbn zeta.
  change (blocks (length H) R (skipn (n * R) x)) with ms.
  rewrite (app_nth1 ms). 2:{ unfold ms. rewrite blocks_length. unfold R. lia. } reflexivity.
Qed.

Lemma window_corr : fst (decode_multiround n H R false dec synd) = vsum n (firstn T es).
Proof. rewrite window_false. reflexivity. Qed.

Lemma window_synd_length : length (snd (decode_multiround n H R false dec synd)) = R.
Proof.
  rewrite window_false. cbn [snd]. rewrite set_nth_length, app_length, map_length, firstn_length, skipn_length. lia.
Qed.

Lemma window_synd r : r < R -> nth r (snd (decode_multiround n H R false dec synd)) [] =
  if r <? T then nth r synd [] else
  let c := vxor (nth r synd []) (mulMV H (fst (decode_multiround n H R false dec synd))) in
  if r =? T then vxor c (nth (T - 1) ms []) else c.
Proof.
  intros Lr. rewrite window_false. cbn [fst snd]. set (corr := vsum n (firstn T es)).
  set (l := firstn T synd ++ _).
  assert (Ll : length l = R). { unfold l. rewrite app_length, map_length, firstn_length, skipn_length. lia. }
  assert (N : forall q, T <= q -> q < R -> nth q l [] = vxor (nth q synd []) (mulMV H corr)).
  { intros q Q1 Q2. unfold l. rewrite app_nth2 by (rewrite firstn_length; lia). rewrite firstn_length_le by lia.
    rewrite (nth_indep _ _ (vxor [] (mulMV H corr))) by (rewrite map_length, skipn_length; lia).
    rewrite (map_nth (fun c => vxor c (mulMV H corr))). rewrite nth_skipn'. replace (T + (q - T)) with q by lia. auto. }
  destruct (Nat.ltb_spec r T).
  - rewrite set_nth_other by lia. unfold l. rewrite app_nth1 by (rewrite firstn_length; lia). apply nth_firstn'; auto.
  - destruct (Nat.eqb_spec r T).
    + subst r. rewrite set_nth_same by lia. rewrite N by lia. reflexivity.
    + rewrite set_nth_other by lia. apply N; auto.
Qed.

Lemma window_synd_wf : wf m (snd (decode_multiround n H R false dec synd)).
Proof.
  destruct parts as [_ [We [Wm [Le Lm]]]].
  apply Forall_forall. intros v I. apply (In_nth _ _ []) in I as [r [Lr <-]].
  assert (Lr' : r < R) by (rewrite <- window_synd_length; exact Lr).
  rewrite window_synd by auto. assert (length (nth r synd []) = m) by (apply wf_nth; auto; lia).
  destruct (r <? T); auto. cbn zeta. destruct (r =? T); repeat apply vxor_length'; auto; try apply mulMV_length.
  apply wf_nth; auto. unfold R in Lm. lia.
Qed.

Lemma window_true : decode_multiround n H R true dec synd = (vsum n es, synd).
Proof. reflexivity. Qed.

(* when the decoder's answer explains the difference syndrome *)
Hypothesis WH : wf n H.
Hypothesis EX : mulMV (build_multiround_pcm n H (R - 1)) x = concat (diff_syndrome synd).

Lemma record_is : synd = record_of n H es ms.
Proof.
  destruct parts as [E [We [Wm [Le Lm]]]]. unfold R in Le, Lm, Ls. rewrite E in EX.
  apply (explains_iff n H (R - 1)) in EX; auto; unfold R; lia.
Qed.

Lemma window_carry_nth r : T <= r -> r < R -> nth r (snd (decode_multiround n H R false dec synd)) [] =
  vxor (mulMV H (vsum n (firstn (S r - T) (skipn T es)))) (if r =? T then vxor (nth r ms []) (nth (T - 1) ms []) else nth r ms []).
Proof.
  intros L1 L2. destruct parts as [E [We [Wm [Le Lm]]]]. rewrite window_synd, window_corr by auto.
  destruct (Nat.ltb_spec r T); [lia|]. cbn zeta.
  rewrite record_is. rewrite record_nth by (unfold R in *; lia).
  rewrite (skipn_firstn_S T r es) by auto. rewrite vsum_app by (auto using wf_firstn, wf_skipn).
  set (a := vsum n (firstn T es)). set (b := vsum n (firstn (S r - T) (skipn T es))).
  assert (La : length a = n) by (apply vsum_length, wf_firstn; auto).
  assert (Lb : length b = n) by (apply vsum_length, wf_firstn, wf_skipn; auto).
  rewrite (mulMV_vxor H n) by auto.
  assert (G : vxor (vxor (vxor (mulMV H a) (mulMV H b)) (nth r ms [])) (mulMV H a) = vxor (mulMV H b) (nth r ms [])).
  { rewrite (vxor_comm _ (mulMV H a)), !vxor_assoc. rewrite (vxor_self' m) by apply mulMV_length.
    rewrite (vxor_zero_l m (mulMV H b)) by apply mulMV_length. reflexivity. }
  rewrite G. destruct (r =? T); auto. rewrite vxor_assoc. reflexivity.
Qed.

Lemma window_carry : skipn T (snd (decode_multiround n H R false dec synd)) =
  record_of n H (skipn T es) (set_nth 0 (vxor (nth T ms []) (nth (T - 1) ms [])) (skipn T ms)).
Proof.
  destruct parts as [E [We [Wm [Le Lm]]]]. apply nth_ext_vec.
  - rewrite skipn_length, window_synd_length, record_length, set_nth_length, skipn_length. lia.
  - intros r Lr. rewrite skipn_length, window_synd_length in Lr. rewrite nth_skipn'. rewrite window_carry_nth by lia.
    rewrite record_nth by (rewrite set_nth_length, skipn_length; lia).
    replace (S (T + r) - T) with (S r) by lia. f_equal. destruct r.
    + rewrite Nat.add_0_r, Nat.eqb_refl. rewrite set_nth_same; auto. rewrite skipn_length. lia.
    + destruct (Nat.eqb_spec (T + S r) T); [lia|]. rewrite set_nth_other by lia. rewrite nth_skipn'. auto.
Qed.

Lemma window_carry_iff : skipn T (snd (decode_multiround n H R false dec synd)) = record_of n H (skipn T es) (skipn T ms) <->
  nth (T - 1) ms [] = vzero m.
Proof.
  destruct parts as [E [We [Wm [Le Lm]]]]. assert (RR : R = 2 * T) by reflexivity.
  assert (L1 : length (nth T ms []) = m) by (apply wf_nth; auto; lia).
  assert (L2 : length (nth (T - 1) ms []) = m) by (apply wf_nth; auto; lia).
  rewrite window_carry. split.
  - intros Q. apply (f_equal (fun l => nth 0 l [])) in Q. cbn beta in Q.
    rewrite !record_nth in Q by (rewrite ?set_nth_length, skipn_length; lia).
    rewrite set_nth_same in Q by (rewrite skipn_length; lia). rewrite nth_skipn', Nat.add_0_r in Q.
    set (h := mulMV H _) in Q. assert (Lh : length h = m) by apply mulMV_length.
    rewrite (vxor_comm h), (vxor_comm h) in Q.
    apply (vxor_cancel_r _ _ h m) in Q; auto. 2:{ apply vxor_length'; auto. }
    rewrite <- (vxor_cancel_l m (nth T ms []) (nth (T - 1) ms [])) by auto. rewrite Q. apply vxor_self'; auto.
  - intros ->. rewrite (vxor_zero_r m) by auto. f_equal. apply nth_ext_vec; [apply set_nth_length|].
    intros r _. destruct r; [|rewrite set_nth_other by lia; auto]. rewrite set_nth_same by (rewrite skipn_length; lia).
    rewrite nth_skipn', Nat.add_0_r. reflexivity.
Qed.

Lemma window_last : mulMV H (vsum n es) = vxor (nth (R - 1) synd []) (nth (R - 1) ms []).
Proof.
  destruct parts as [E [We [Wm [Le Lm]]]]. rewrite record_is at 1. assert (RR : R = 2 * T) by reflexivity.
  rewrite record_nth by lia. rewrite firstn_all2 by lia.
  rewrite <- vxor_assoc. rewrite (vxor_self' m). 2:{ apply wf_nth; auto; lia. }
  symmetry. apply vxor_zero_r. apply mulMV_length.
Qed.
End Window.
