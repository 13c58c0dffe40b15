From Coq Require Import List Arith Bool Lia QArith Lqa.
From Verif Require Import Lin Lin2 AnalogModel AnalogModel2 AnalogProofs AnalogProofs2.
Import ListNotations.
Local Open Scope nat_scope.

Lemma Qltb_lt a b : Qltb a b = true <-> (a < b)%Q.
Proof.
  unfold Qltb. rewrite negb_true_iff. split.
  - intros E. apply Qnot_le_lt. intros L. apply Qle_bool_iff in L. congruence.
  - intros L. destruct (Qle_bool b a) eqn:E; auto. apply Qle_bool_iff in E. exfalso. apply (Qlt_not_le _ _ L E).
Qed.
Lemma Qltb_nlt a b : Qltb a b = false <-> (b <= a)%Q.
Proof. unfold Qltb. rewrite negb_false_iff. apply Qle_bool_iff. Qed.
Lemma Qle_bool_nle a b : Qle_bool a b = false <-> (b < a)%Q.
Proof.
  split.
  - intros E. apply Qnot_le_lt. intros L. apply Qle_bool_iff in L. congruence.
  - intros L. destruct (Qle_bool a b) eqn:E; auto. apply Qle_bool_iff in E. exfalso. apply (Qlt_not_le _ _ L E).
Qed.

Lemma draw_spec px py pz u : (0 <= px)%Q -> (0 <= py)%Q -> (0 <= pz)%Q ->
  (fst (draw px py pz u) = true <-> (pz <= u /\ u < px + py + pz)%Q) /\
  (snd (draw px py pz u) = true <-> (u < pz \/ (pz + px <= u /\ u < px + py + pz))%Q).
Proof.
  intros A B C. unfold draw.
  destruct (Qltb u pz) eqn:E1.
  { apply Qltb_lt in E1. simpl. split; split; auto; try discriminate. intros [? ?]. lra. }
  apply Qltb_nlt in E1.
  destruct (Qle_bool pz u && Qltb u (pz + px)%Q) eqn:E2.
  { apply andb_prop in E2 as [_ E2]. apply Qltb_lt in E2. simpl. split; split; auto; try discriminate; intros; lra. }
  assert (E3 : (pz + px <= u)%Q). { rewrite (proj2 (Qle_bool_iff pz u) E1) in E2. simpl in E2. apply Qltb_nlt in E2. auto. }
  rewrite (proj2 (Qle_bool_iff _ _) E3). simpl.
  destruct (Qltb u (px + py + pz)%Q) eqn:E4; simpl.
  { apply Qltb_lt in E4. split; split; auto; intros; lra. }
  apply Qltb_nlt in E4. split; split; try discriminate; intros; lra.
Qed.

Lemma generate_err_loop_some us pxs pys pzs ex ez :
  length us <= length pxs -> length us <= length pys -> length us <= length pzs -> length us <= length ex -> length us <= length ez ->
  exists xs zs, generate_err_loop us pxs pys pzs ex ez = Some (xs, zs).
Proof.
  revert pxs pys pzs ex ez. induction us; simpl; intros pxs pys pzs ex ez L1 L2 L3 L4 L5; [eauto|].
  destruct pxs, pys, pzs, ex, ez; simpl in *; try lia.
  destruct (IHus pxs pys pzs ex ez) as [xs [zs E]]; try lia. rewrite E. destruct (draw q q0 q1 a). eauto.
Qed.

Lemma generate_err_loop_nth us pxs pys pzs ex ez xs zs i : generate_err_loop us pxs pys pzs ex ez = Some (xs, zs) ->
  length xs = length ex /\ length zs = length ez /\
  nth i xs false = xorb (nth i ex false) (if i <? length us then fst (draw (nth i pxs 0%Q) (nth i pys 0%Q) (nth i pzs 0%Q) (nth i us 0%Q)) else false) /\
  nth i zs false = xorb (nth i ez false) (if i <? length us then snd (draw (nth i pxs 0%Q) (nth i pys 0%Q) (nth i pzs 0%Q) (nth i us 0%Q)) else false).
Proof.
  revert pxs pys pzs ex ez xs zs i. induction us as [|u us IH]; simpl; intros pxs pys pzs ex ez xs zs i E.
  - injection E as <- <-. rewrite !xorb_false_r. auto.
  - destruct pxs as [|px pxs], pys as [|py pys], pzs as [|pz pzs], ex as [|x ex], ez as [|z ez]; try discriminate.
    destruct (generate_err_loop us pxs pys pzs ex ez) as [[xs' zs']|] eqn:G; try discriminate.
    destruct (draw px py pz u) as [fx fz] eqn:D. injection E as <- <-.
    destruct i.
    + destruct (IH _ _ _ _ _ _ _ 0 G) as [A [B _]]. cbn [length nth]. rewrite D. cbn [fst snd].
      split; [lia|]. split; [lia|]. destruct fx, fz, x, z; auto.
    + destruct (IH _ _ _ _ _ _ _ i G) as [A [B C]]. cbn [length nth]. split; [lia|]. split; [lia|]. exact C.
Qed.

(* ---- rank test ---- *)
Lemma hstack_last_transpose n M r : wf n M -> length r = n ->
  transpose (length M + 1) (hstack (transpose n M) (map (fun b => [b]) r)) = M ++ [r].
Proof.
  intros W L. set (m := length M).
  assert (LT : length (transpose n M) = n) by apply transpose_length.
  assert (HL : length (transpose n M) = length (map (fun b : bool => [b]) r)) by (rewrite LT, map_length; auto).
  assert (HN : forall i, i < n -> nth i (hstack (transpose n M) (map (fun b => [b]) r)) [] = nth i (transpose n M) [] ++ [nth i r false]).
  { clear W. assert (G : forall (A : mat) (r : vec) i, length A = length r -> i < length A ->
      nth i (hstack A (map (fun b => [b]) r)) [] = nth i A [] ++ [nth i r false]).
    { clear. induction A; destruct r; simpl; intros i L I; try lia. destruct i; auto. apply IHA; lia. }
    intros i I. apply G; [rewrite LT; auto|rewrite LT; auto]. }
  apply nth_ext_vec.
  - rewrite transpose_length, app_length. reflexivity.
  - intros j Lj. rewrite transpose_length in Lj. rewrite nth_transpose by auto.
    assert (LR : length (nth j (M ++ [r]) []) = n).
    { destruct (Nat.lt_ge_cases j m).
      - rewrite app_nth1 by auto. apply wf_nth; auto.
      - rewrite app_nth2 by auto. replace (j - length M) with 0 by (fold m; lia). auto. }
    apply (vec_ext n); auto.
    { rewrite col_length, hstack_length; auto. }
    intros i I. rewrite nth_col by (rewrite hstack_length by exact HL; rewrite LT; exact I). rewrite HN by auto.
    rewrite nth_transpose by auto. destruct (Nat.lt_ge_cases j m) as [J|J].
    + rewrite app_nth1 by (rewrite col_length; auto). rewrite nth_col by auto. rewrite app_nth1 by auto. reflexivity.
    + rewrite app_nth2 by (rewrite col_length; auto). rewrite col_length. rewrite (app_nth2 M) by auto.
      fold m. replace (j - m) with 0 by lia. reflexivity.
Qed.

Lemma check_logical_err_h_spec n M a b : wf n M -> length a = n -> length b = n ->
  (check_logical_err_h n M a b = true <-> ~ span n M (vxor a b)).
Proof.
  intros W La Lb. unfold check_logical_err_h. cbn zeta.
  assert (Lr : length (vxor a b) = n) by (apply vxor_length'; auto).
  rewrite firstn_all2 by lia. set (r := vxor a b) in *. set (htr := hstack _ _).
  assert (LT : length (transpose n M) = length (map (fun b : bool => [b]) r)) by (rewrite transpose_length, map_length; auto).
  assert (Wh : wf (length M + 1) htr).
  { apply hstack_wf; auto using transpose_wf. apply Forall_map, Forall_forall. auto. }
  assert (Lh : length htr = n) by (unfold htr; rewrite hstack_length, transpose_length; auto).
  pose proof (rk_correct _ _ Wh) as HR. apply (row_rank_col_rank _ _ _ Wh) in HR.
  unfold htr in HR at 2. rewrite hstack_last_transpose in HR by auto. rewrite Lh in HR.
  assert (W1 : wf n (M ++ [r])). { apply wf_app. split; auto. apply wf_cons. split; auto. constructor. }
  rewrite (rk_unique _ _ _ W1 HR). rewrite Nat.ltb_lt. split.
  - intros LT' S. apply (rk_snoc n M r) in S; auto. exact (Nat.lt_irrefl _ (eq_ind _ (fun x => rk n M < x) LT' _ S)).
  - intros NS. rewrite rk_snoc_out; auto.
Qed.

Lemma is_logical_err_spec L e : is_logical_err L e = true <-> exists r, In r L /\ dot r e = true.
Proof.
  unfold is_logical_err, mulMV. rewrite existsb_exists. split.
  - intros [b [I E]]. apply in_map_iff in I as [r [D I]]. exists r. split; congruence.
  - intros [r [I D]]. exists true. split; auto. rewrite <- D. apply in_map_iff. eauto.
Qed.

(* ---- thresholding ---- *)
Lemma binary_of_noisy_nth s g i : length g = length s -> i < length s ->
  nth i (get_binary_from_analog (get_noisy_analog_syndrome s g)) false =
  Qle_bool ((if nth i s false then -(1) else 1) + nth i g 0)%Q 0.
Proof.
  revert g i. induction s; destruct g; simpl; intros i L I; try lia. destruct i; auto. apply IHs; auto; lia.
Qed.
Lemma binary_of_noisy_length s g : length g = length s -> length (get_binary_from_analog (get_noisy_analog_syndrome s g)) = length s.
Proof.
  intros L. unfold get_binary_from_analog, get_noisy_analog_syndrome, get_signed_from_binary.
  rewrite !map_length, combine_length, map_length. lia.
Qed.

Lemma analog_pcm_mul n H e v : wf n H -> length e = n -> length v = length H -> mulMV (get_analog_pcm H) (e ++ v) = vxor (mulMV H e) v.
Proof.
  intros W Le Lv. unfold get_analog_pcm. rewrite mulMV_hstack.
  - rewrite mulMV_identity; auto.
  - rewrite identity_length; auto.
  - rewrite Le. auto.
Qed.

Lemma run_loop_spec si conv outs succ run s r : run_loop si conv outs succ run = (s, r) ->
  exists done rest, outs = done ++ rest /\ r = run + length done /\ s = succ + length (filter (fun b => b) done) /\
    (rest <> [] -> conv s r = true /\ r mod si = 1 /\ done <> []) /\
    (forall k, 1 <= k -> k < length done -> (run + k) mod si = 1 -> conv (succ + length (filter (fun b => b) (firstn k done))) (run + k) = false).
Proof.
  revert succ run. induction outs as [|o outs IH]; simpl; intros succ run E.
  - injection E as <- <-. exists [], []. simpl. repeat split; auto; try lia; congruence.
  - destruct (((S run) mod si =? 1) && conv (succ + (if o then 1 else 0)) (S run)) eqn:C.
    + injection E as <- <-. exists [o], outs. apply andb_prop in C as [C1 C2]. apply Nat.eqb_eq in C1.
      split; [reflexivity|]. split; [simpl; lia|]. split; [destruct o; simpl; lia|].
      split; [intros _; split; auto; split; auto; discriminate|]. simpl. intros; lia.
    + destruct (IH _ _ E) as [d [rest [E1 [E2 [E3 [E4 E5]]]]]]. exists (o :: d), rest. subst outs.
      split; [reflexivity|]. split; [simpl; lia|]. split; [destruct o; simpl in *; lia|].
      split. { intros N. destruct (E4 N) as [A [B _]]. split; auto. split; auto. discriminate. }
      intros k K1 K2 M. simpl in K2. destruct k; [lia|]. cbn [firstn filter].
      destruct k.
      * simpl. replace (run + 1) with (S run) in * by lia. rewrite M in C. simpl in C.
        replace (succ + length (if o then [o] else [])) with (succ + (if o then 1 else 0)) by (destruct o; auto). exact C.
      * specialize (E5 (S k)). replace (S run + S k) with (run + S (S k)) in E5 by lia.
        replace (succ + length (if o then o :: filter (fun b => b) (firstn (S k) d) else filter (fun b => b) (firstn (S k) d)))
          with (succ + (if o then 1 else 0) + length (filter (fun b => b) (firstn (S k) d))) by (destruct o; cbn [length]; lia).
        apply E5; auto; lia.
Qed.
