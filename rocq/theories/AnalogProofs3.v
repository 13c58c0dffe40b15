From Coq Require Import List Arith Bool Lia.
From Verif Require Import Lin Lin2 AnalogModel AnalogProofs AnalogProofs2.
Import ListNotations.

Definition bindp {A B} (x : pyres A) (f : A -> pyres B) : pyres B :=
  match x with Ret a => f a | UnboundLocal => UnboundLocal | IndexErr => IndexErr | ValueErr => ValueErr | TypeErr => TypeErr | ZeroDiv => ZeroDiv end.

Lemma qss_rounds_app n H R an dec more a b st :
  qss_rounds n H R an dec more (a ++ b) st = bindp (qss_rounds n H R an dec (length b + more) a st) (qss_rounds n H R an dec more b).
Proof.
  revert st. induction a as [|[fe me] a IH]; intros st; simpl; auto.
  rewrite app_length. replace (length a + length b + more) with (length a + (length b + more)) by lia.
  destruct (qss_round n H R an dec _ fe me st); simpl; auto.
Qed.

Section Qss.
Variables (n : nat) (H : mat) (T : nat) (dec : nat -> bool -> vec -> vec).
Let m := length H.
Let R := 2 * T.
Hypothesis HT : 1 <= T.
Hypothesis Ldec : forall w l d, length (dec w l d) = n * R + m * R.

(* what column j holds: the syndrome of the present error without the errors that arose after that round, with the
   flips of that round's measurement *)
Definition qinv (ws : list (vec * vec)) (st : qss) : Prop :=
  length (q_err st) = n /\ length (q_synd st) = R /\ wf m (q_synd st) /\ q_cnt st < R /\
  length ws = q_win st * T + q_cnt st /\ (q_win st = 0 \/ T <= q_cnt st) /\
  (forall j, j < q_cnt st -> (q_win st = 0 \/ 1 <= j) ->
     nth j (q_synd st) [] = vxor (mulMV H (vxor (q_err st) (vsum n (map fst (skipn (S (q_win st * T + j)) ws)))))
                                 (snd (nth (q_win st * T + j) ws ([], [])))) /\
  (forall j, q_cnt st <= j -> j < R -> nth j (q_synd st) [] = vzero m).

Lemma qinv_init : qinv [] (qss_init n H R).
Proof.
  unfold qinv, qss_init; cbn [q_err q_synd q_cnt q_win]. rewrite vzero_length, repeat_length.
  split; auto. split; auto. split. { apply Forall_forall. intros x I. apply repeat_spec in I. subst. apply vzero_length. }
  unfold R. split; [lia|]. split; auto. split; auto. split; [intros; lia|].
  intros j _ L. apply nth_repeat_lt || idtac. rewrite (nth_indep _ _ (vzero m)) by (rewrite repeat_length; auto).
  apply nth_repeat.
Qed.

Lemma map_fst_skipn_wf i (ws : list (vec * vec)) : Forall (fun w : vec * vec => length (fst w) = n) ws -> wf n (map fst (skipn i (ws : list (vec * vec)))).
Proof.
  intros F. apply Forall_map. rewrite <- (firstn_skipn i ws) in F. apply Forall_app in F. tauto.
Qed.

(* storing one more column *)
Lemma qinv_store (ws : list (vec * vec)) st (fe me cur : vec) :
  Forall (fun w : vec * vec => length (fst w) = n) ws -> length fe = n -> length cur = m -> qinv ws st ->
  let synd := set_nth (q_cnt st) (vxor (nth (q_cnt st) (q_synd st) []) cur) (q_synd st) in
  length synd = R /\ wf m synd /\
  (forall j, j < q_cnt st -> (q_win st = 0 \/ 1 <= j) ->
     nth j synd [] = vxor (mulMV H (vxor (vxor (q_err st) fe) (vsum n (map fst (skipn (S (q_win st * T + j)) (ws ++ [(fe, me)]))))))
                                 (snd (nth (q_win st * T + j) (ws ++ [(fe, me)]) ([], [])))) /\
  nth (q_cnt st) synd [] = cur /\
  (forall j, q_cnt st < j -> j < R -> nth j synd [] = vzero m).
Proof.
  intros Fw Lf Lc [I1 [I2 [I3 [I4 [I5 [I6 [I7 I8]]]]]]] synd.
  assert (L : length synd = R) by (unfold synd; rewrite set_nth_length; auto).
  assert (C : nth (q_cnt st) synd [] = cur).
  { unfold synd. rewrite set_nth_same by lia. rewrite I8 by lia. apply vxor_zero_l; auto. }
  split; auto. split.
  { apply Forall_forall. intros v I. apply (In_nth _ _ []) in I as [j [Lj <-]].
    assert (Lj' : j < R) by (rewrite <- L; exact Lj).
    destruct (Nat.eq_dec j (q_cnt st)); [subst j; exact (eq_trans (f_equal (@length bool) C) Lc)|].
    unfold synd. rewrite set_nth_other by auto. apply wf_nth; auto. lia. }
  split.
  { intros j Lj Wj. unfold synd. rewrite set_nth_other by lia. rewrite I7 by auto.
    rewrite skipn_app, map_app. assert (Li : S (q_win st * T + j) <= length ws) by lia.
    replace (S (q_win st * T + j) - length ws) with 0 by lia. change (skipn 0 [(fe, me)]) with [(fe, me)]. cbn [map fst].
    rewrite vsum_snoc; [|apply map_fst_skipn_wf; exact Fw|exact Lf]. rewrite (app_nth1 ws) by lia. f_equal. f_equal.
    set (a := vsum n _). assert (La : length a = n) by (apply vsum_length, map_fst_skipn_wf; auto).
    rewrite (vxor_comm a fe), vxor_assoc, <- (vxor_assoc (q_err st) fe fe), (vxor_self' n fe) by auto.
    rewrite (vxor_zero_r n (q_err st)); auto. }
  split; auto.
  intros j J1 J2. unfold synd. rewrite set_nth_other by lia. apply I8; lia.
Qed.

Lemma qinv_step (ws : list (vec * vec)) st (fe me : vec) : Forall (fun w : vec * vec => length (fst w) = n) ws -> length fe = n -> length me = m -> qinv ws st ->
  exists st', qss_round n H R true dec false fe me st = Ret st' /\ qinv (ws ++ [(fe, me)]) st' /\ q_win st <= q_win st'.
Proof.
  intros Fw Lf Lme I.
  pose proof I as [I1 [I2 [I3 [I4 [I5 [I6 [I7 I8]]]]]]].
  unfold qss_round. set (err := vxor (q_err st) fe). assert (Lerr : length err = n) by (apply vxor_length'; auto).
  set (cur := vxor (mulMV H err) me).
  assert (Lcur : length cur = m) by (apply vxor_length'; auto; apply mulMV_length).
  destruct (qinv_store ws st fe me cur Fw Lf Lcur I) as [S1 [S2 [S3 [S4 S5]]]].
  destruct (Nat.ltb_spec (q_cnt st) R); [|lia]. cbn zeta.
  set (synd := set_nth _ _ _) in *.
  assert (CUR : forall q, length ws = q -> cur = vxor (mulMV H (vxor err (vsum n (map fst (skipn (S q) (ws ++ [(fe, me)]))))))
                                 (snd (nth q (ws ++ [(fe, me)]) ([], [])))).
  { intros q <-. rewrite skipn_all2 by (rewrite app_length; simpl; lia). cbn [map vsum fold_right].
    rewrite (vxor_zero_r n) by auto. rewrite app_nth2, Nat.sub_diag by lia. reflexivity. }
  destruct (Nat.eqb_spec (q_cnt st + 1) R) as [E|E].
  - destruct (decode_multiround n H R false (dec (q_win st) false) synd) as [corr synd'] eqn:D.
    eexists. split; [reflexivity|]. cbn [q_win]. split; [|lia].
    assert (Lx : length (dec (q_win st) false (concat (diff_syndrome synd))) = n * R + m * R) by apply Ldec.
    pose proof (window_synd_length n H T (dec (q_win st) false) synd HT S1 Lx) as WL.
    pose proof (window_synd_wf n H T (dec (q_win st) false) synd HT S1 S2 Lx) as WW.
    pose proof (window_synd n H T (dec (q_win st) false) synd HT S1) as WS.
    pose proof (window_corr n H T (dec (q_win st) false) synd HT S1 Lx) as WC.
    change (2 * T) with R in WL, WW, WS, WC. rewrite D in WL, WW, WC. cbn [fst snd] in WL, WW, WC.
    assert (WS' : forall r, r < R -> nth r synd' [] = if r <? T then nth r synd [] else
      let c := vxor (nth r synd []) (mulMV H corr) in if r =? T then vxor c (nth (T - 1) (blocks m R (skipn (n * R) (dec (q_win st) false (concat (diff_syndrome synd))))) []) else c).
    { intros r Lr. specialize (WS Lx r Lr). rewrite D in WS. exact WS. }
    assert (Lco : length corr = n).
    { rewrite WC. apply vsum_length, wf_firstn. apply concat_blocks. rewrite firstn_length. lia. }
    assert (HR : R / 2 = T) by (unfold R; rewrite Nat.mul_comm; apply Nat.div_mul; lia).
    assert (MV : move_syndrome (length H) synd' = skipn T synd' ++ repeat (vzero m) T).
    { unfold move_syndrome. rewrite WL, HR. replace (R - T) with T by (unfold R; lia).
      rewrite firstn_all2 by (rewrite skipn_length, WL; unfold R; lia). reflexivity. }
    assert (RR : R = 2 * T) by reflexivity.
    unfold qinv; cbn [q_err q_synd q_cnt q_win]. rewrite MV, HR.
    split. { apply vxor_length'; auto. }
    split. { rewrite app_length, skipn_length, repeat_length, WL. lia. }
    split. { apply wf_app. split; [apply wf_skipn; auto|]. apply Forall_forall. intros v Iv. apply repeat_spec in Iv. subst. apply vzero_length. }
    split; [lia|]. split. { rewrite app_length, I5. simpl. lia. }
    split; [auto|]. split.
    + intros j Lj [J|J]; [lia|]. rewrite app_nth1 by (rewrite skipn_length, WL; lia). rewrite nth_skipn'.
      rewrite WS' by lia. destruct (Nat.ltb_spec (T + j) T); [lia|]. cbn zeta. destruct (Nat.eqb_spec (T + j) T); [lia|].
      replace ((q_win st + 1) * T + j) with (q_win st * T + (T + j)) by lia.
      assert (G : nth (T + j) synd [] = vxor (mulMV H (vxor err (vsum n (map fst (skipn (S (q_win st * T + (T + j))) (ws ++ [(fe, me)]))))))
                                 (snd (nth (q_win st * T + (T + j)) (ws ++ [(fe, me)]) ([], [])))).
      { destruct (Nat.eq_dec (T + j) (q_cnt st)) as [e|e].
        - rewrite e, S4. apply CUR. auto.
        - apply S3; lia. }
      rewrite G. set (a := vsum n _). set (b := snd _).
      assert (La : length a = n) by (apply vsum_length, map_fst_skipn_wf, Forall_app; split; auto).
      rewrite <- vxor_assoc, (vxor_comm b), vxor_assoc. f_equal.
      rewrite <- (mulMV_vxor H n) by (auto; apply vxor_length'; auto). f_equal.
      rewrite <- !vxor_assoc. f_equal. apply vxor_comm.
    + intros j J1 J2. rewrite app_nth2 by (rewrite skipn_length, WL; lia).
      rewrite (nth_indep _ _ (vzero m)) by (rewrite skipn_length, repeat_length, WL; lia). apply nth_repeat.
  - eexists. split; [reflexivity|]. cbn [q_win]. split; [|lia].
    unfold qinv; cbn [q_err q_synd q_cnt q_win].
    split; auto. split; auto. split; auto. split; [lia|]. split. { rewrite app_length, I5. simpl. lia. }
    split; [lia|]. split.
    + intros j Lj Wj. destruct (Nat.eq_dec j (q_cnt st)) as [->|Nj].
      * rewrite S4. apply CUR. auto.
      * apply S3; auto; lia.
    + intros j J1 J2. apply S5; lia.
Qed.

Lemma qss_prefix (ws : list (vec * vec)) more : Forall (fun w : vec * vec => length (fst w) = n /\ length (snd w) = m) ws ->
  exists st, qss_rounds n H R true dec (S more) ws (qss_init n H R) = Ret st /\ qinv ws st.
Proof.
  revert more. induction ws as [|[fe me] ws IH] using rev_ind; intros more F.
  - exists (qss_init n H R). split; [reflexivity|apply qinv_init].
  - apply Forall_app in F as [F1 F2]. inversion F2; subst. cbn [fst snd] in *.
    destruct (IH (S more) F1) as [st [E I]]. rewrite qss_rounds_app. cbn [length]. rewrite Nat.add_1_l, E. cbn [bindp].
    assert (F1' : Forall (fun w : vec * vec => length (fst w) = n) ws).
    { eapply Forall_impl; [|exact F1]. cbn beta. tauto. }
    destruct (qinv_step ws st fe me F1' (proj1 H2) (proj2 H2) I) as [st' [E' [I' _]]].
    exists st'. split; auto. cbn [qss_rounds length]. cbn [Nat.add Nat.eqb]. rewrite E'. reflexivity.
Qed.
End Qss.

(* the decoder is never asked about the last (perfect) round unless the window is full exactly then *)
Lemma decode_ext n H R l f g synd : (forall d, f d = g d) -> decode_multiround n H R l f synd = decode_multiround n H R l g synd.
Proof. intros E. unfold decode_multiround. cbn zeta. rewrite E. reflexivity. Qed.

Lemma qss_round_agree n H R an dec dec' last fe me st :
  (forall w d, dec w false d = dec' w false d) -> (last = true -> q_cnt st + 1 <> R) ->
  qss_round n H R an dec last fe me st = qss_round n H R an dec' last fe me st.
Proof.
  intros A L. unfold qss_round. destruct (q_cnt st <? R); auto. cbn zeta. destruct (Nat.eqb_spec (q_cnt st + 1) R); auto.
  destruct last; [exfalso; exact (L eq_refl e)|].
  rewrite (decode_ext n H R false (dec (q_win st) false) (dec' (q_win st) false)); auto.
Qed.

Lemma qss_prefix_agree n H R an dec dec' ws more st :
  (forall w d, dec w false d = dec' w false d) ->
  qss_rounds n H R an dec (S more) ws st = qss_rounds n H R an dec' (S more) ws st.
Proof.
  intros A. revert st. induction ws as [|[fe me] ws IH]; intros st; simpl; auto.
  rewrite (qss_round_agree n H R an dec dec'); auto.
  - destruct (qss_round n H R an dec' _ fe me st); auto.
  - rewrite Nat.add_succ_r. discriminate.
Qed.

(* before the first window is full nothing is decoded *)
Lemma qss_no_window n H R an dec ws more st : q_cnt st + length ws < R -> 
  exists st', qss_rounds n H R an dec more ws st = Ret st' /\ q_win st' = q_win st /\
    q_err st' = fold_left vxor (map fst ws) (q_err st) /\ q_cnt st' = q_cnt st + length ws.
Proof.
  revert st. induction ws as [|[fe me] ws IH]; intros st L; simpl in *.
  - exists st. auto.
  - unfold qss_round at 1. destruct (Nat.ltb_spec (q_cnt st) R); [|lia]. cbn zeta.
    destruct (Nat.eqb_spec (q_cnt st + 1) R); [lia|].
    edestruct IH as [st' [E [W [EE C]]]]; [|rewrite E; exists st'; split; [reflexivity|]]; cbn [q_cnt q_err q_win] in *; try lia.
    split; auto. split; auto. lia.
Qed.

Lemma qss_unbound n H R dec ws more st : q_cnt st < R -> R <= q_cnt st + length ws ->
  qss_rounds n H R false dec more ws st = UnboundLocal.
Proof.
  revert st. induction ws as [|[fe me] ws IH]; intros st L1 L2; simpl in *; [lia|].
  unfold qss_round at 1. destruct (Nat.ltb_spec (q_cnt st) R); [|lia]. cbn zeta.
  destruct (Nat.eqb_spec (q_cnt st + 1) R); auto. apply IH; cbn [q_cnt]; lia.
Qed.

Lemma fold_left_vxor n l x : wf n l -> length x = n -> fold_left vxor l x = vxor x (vsum n l).
Proof.
  intros W. revert x. induction W; intros y L; simpl. { symmetry. apply vxor_zero_r; auto. }
  rewrite IHW by (apply vxor_length'; auto). rewrite vxor_assoc. reflexivity.
Qed.
