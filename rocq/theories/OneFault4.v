(** * OneFault4: the two layers of measurements as parts of the circuit *)
From Verif Require Export OneFault3.
From Coq Require Import Permutation.
Local Open Scope nat_scope.

Lemma part_imp N n A L (Q Q' : pauli -> Prop) : (forall p, Q p -> Q' p) -> part N n A L Q -> part N n A L Q'.
Proof. intros I [O1 C1 P1 F1]. split; auto. intros F W QU. destruct (F1 F W QU). auto. Qed.
Lemma reads_weaken N A A' L z ms : incl A A' -> reads N A L z ms -> reads N A' L z ms.
Proof. intros I R p PO Z Q m Hm. apply (R p); auto. Qed.
Lemma hooked_mono n z ms ms' p : incl ms ms' -> hooked n z ms p -> hooked n z ms' p.
Proof. intros I (q0 & H1 & H2). exists q0. split; auto. destruct H2 as [H2|(m & k & Hm & H2)]; [auto|]. right. exists m, k. auto. Qed.
Lemma single_mono n z ms ms' p : incl ms ms' -> single n z ms p -> single n z ms' p.
Proof. intros I (q0 & H1 & H2). exists q0. split; auto. destruct H2 as [H2|(m & Hm & H2)]; [auto|]. right. exists m. auto. Qed.

(** ** loops of measurements *)
Definition one_part (n : nat) (z : bool) (Q : list vec -> pauli -> Prop) (g : vec -> Prop) (one : qcirc -> list nat -> nat -> nat -> py qcirc) : Prop :=
  forall qc m a b qc', length m = n -> g m -> n <= a < qc_nq qc -> n <= qc_nq qc -> one qc (support m) a b = Ret qc' ->
  exists k L, qc_ins qc' = qc_ins qc ++ L /\ qc_nq qc' = qc_nq qc + k /\ qc_nc qc' = qc_nc qc + k /\
    forall N, qc_nq qc' <= N -> part N n (a :: seq (qc_nq qc) k) L (Q [m]) /\ reads N (a :: seq (qc_nq qc) k) L z [m].
Lemma loop_part n z (Q : list vec -> pauli -> Prop) g one b0 : one_part n z Q g one -> (forall N ms, local N n (Q ms)) -> (forall ms ms' p, incl ms ms' -> Q ms p -> Q ms' p) ->
  forall ms i qc qc', (forall m, In m ms -> length m = n /\ g m) -> n + b0 + i + length ms <= qc_nq qc -> meas_loop one (n + b0) b0 i ms qc = Ret qc' ->
  exists d L, qc_ins qc' = qc_ins qc ++ L /\ qc_nq qc' = qc_nq qc + d /\ qc_nc qc' = qc_nc qc + d /\
    forall N, qc_nq qc' <= N -> exists A, (forall q, In q A -> n + b0 + i <= q < n + b0 + i + length ms \/ qc_nq qc <= q < qc_nq qc') /\ part N n A L (Q ms) /\ reads N A L z ms.
Proof. intros ONE LQ MQ. induction ms as [|m ms IHm]; intros i qc qc' G Hn E; cbn [meas_loop] in E.
  - injection E as <-. exists 0, []. rewrite app_nil_r, !Nat.add_0_r. split; auto. split; auto. split; auto. intros N HN. exists []. split; [intros q []|]. split; [apply part_nil|]. intros p _ _ _ m [].
  - destruct (one qc (support m) (n + b0 + i) (b0 + i)) as [qc1|] eqn:E1; [|discriminate]. cbn [pbind] in E. cbn [length] in *. destruct (G m (or_introl eq_refl)) as [Lm Gm].
    destruct (ONE qc m (n + b0 + i) (b0 + i) qc1 Lm Gm ltac:(lia) ltac:(lia) E1) as (k & L1 & I1 & Q1 & C1 & P1).
    destruct (IHm (S i) qc1 qc') as (d & L2 & I2 & Q2 & C2 & P2); auto; [intros u Hu; apply G; now right|lia|].
    exists (k + d), (L1 ++ L2). split; [rewrite I2, I1; now rewrite app_assoc|]. split; [lia|]. split; [lia|]. intros N HN. destruct (P1 N ltac:(lia)) as [PA RA]. destruct (P2 N HN) as (A & HA & PB & RB). set (A1 := (n + b0 + i) :: seq (qc_nq qc) k) in *.
    assert (H1 : forall q, In q A1 -> q = n + b0 + i \/ qc_nq qc <= q < qc_nq qc + k) by (intros q [<-|I]; [auto|right; apply in_seq in I; lia]).
    assert (D : forall q, In q A1 -> ~ In q A) by (intros q I J; apply H1 in I; apply HA in J; lia).
    exists (A1 ++ A). split; [intros q I; apply in_app_iff in I as [I|I]; [apply H1 in I; lia|apply HA in I; lia]|]. split.
    + apply part_app; auto; [apply (part_imp _ _ _ _ (Q [m]))|apply (part_imp _ _ _ _ (Q ms))]; auto; intros p; apply MQ; intros u Hu; [destruct Hu as [->|[]]; now left|now right].
    + change (m :: ms) with ([m] ++ ms). apply reads_app; auto; [apply PA| |apply PA]. intros u q Hu Hq I. destruct (G u (or_intror Hu)) as [Lu _]. pose proof (support_lt n u q Lu Hq). apply H1 in I. lia. Qed.
Lemma unflagged_shape z a b l : gadget z a b (map ED l) = (if z then [] else [IH a]) ++ map (fun q => ancilla_cnot z q a) l ++ (if z then [] else [IH a]) ++ [IM a b].
Proof. unfold gadget. now rewrite comp_datas. Qed.
Lemma ed_in l fl : evs_in l fl (map ED l).
Proof. apply Forall_map, Forall_forall. auto. Qed.
Lemma unflagged_one_part n z : one_part n z (hooked n z) (fun _ => True) (fun qc s a b => measure_stab_unflagged qc s a b z).
Proof. intros qc m a b qc' Lm _ Ha Hq E. destruct (support m) as [|s0 st] eqn:ES; [discriminate|]. destruct (unflagged_builds qc (support m) a b z ltac:(now rewrite ES)) as (qc2 & E2 & B). rewrite ES in E2 at 1. assert (qc2 = qc') by congruence. subst qc2. clear s0 st ES E E2.
  destruct B as [B1 B2 B3 B4 B5 B6]. exists 0, (gadget z a b (map ED (support m))). split; auto. split; auto. split; auto. intros N HN. cbn [seq]. assert (SM : forall q, In q (support m) -> q < n) by (intros q Hq'; now apply (support_lt n m)).
  assert (HS : forall q, In q (support m) -> q <> a /\ ~ In q []) by (intros q Hq'; specialize (SM q Hq'); split; [lia|auto]). split; [|apply gadget_reads; auto using ed_in; lia].
  destruct (gadget_ok N z a b (support m) [] (map ED (support m)) (ed_in _ _)) as [GO GI]; [lia|intros q Hq'; specialize (SM q Hq'); lia|intros f []|]. split; auto.
  - intros q [<-|[]]. lia.
  - apply (gadget_passes N z a b (support m)); auto using ed_in. lia.
  - intros F W QU. rewrite unflagged_shape in W. assert (HT : Forall (anc_only a) ((if z then [] else [IH a]) ++ [IM a b])) by (destruct z; repeat constructor; eexists; eauto). assert (HS' : Forall (anc_only a) (if z then [] else [IH a])) by (destruct z; repeat constructor).
    destruct (unflagged_fault N n z a m _ _ F ltac:(lia) ltac:(lia) Lm HS' HT W) as [Z H]. split; auto. intros q Hn' NI. apply Z; auto. intros ->. apply NI. now left. Qed.
Lemma flagged_one_part n t z : one_part n z (single n z) (fun m => ~ (t = 1 /\ length (support m) = 1)) (fun qc s a b => measure_flagged qc s a b t z).
Proof. intros qc m a b qc' Lm N1 Ha Hq E. assert (SM : forall q, In q (support m) -> q < n) by (intros q Hq'; now apply (support_lt n m)).
  destruct (flagged_light qc (support m) a b t z qc' E N1 ltac:(lia) (support_nodup m)) as (k & evs & B & RL); [intros q Hq'; specialize (SM q Hq'); lia|].
  destruct B as [B1 B2 B3 B4 B5 B6]. exists k, (gadget z a b evs). split; auto. split; auto. split; auto. intros N HN.
  assert (EI : evs_in (support m) (seq (qc_nq qc) k) evs) by (rewrite <- B5; apply (ev_ok_in _ _ _ B4); rewrite app_nil_r; apply incl_refl). split.
  - apply flagged_part; auto; try lia; [intros f I; apply in_seq in I; lia|]. intros F W. apply RL; auto. lia.
  - apply gadget_reads; auto; [lia| |intros I; apply in_seq in I; lia]. intros q Hq'. specialize (SM q Hq'). split; [lia|]. intros I. apply in_seq in I. lia. Qed.

(** ** the unflagged measurements in the Z basis: all CNOTs first, then all measurements *)
Definition cx_one (qc : qcirc) (s : list nat) (a b : nat) : py qcirc := match s with [] => Raise CircuitError | _ => Ret (emit qc (map (fun q => ICX q a) s)) end.
Fixpoint cxs (a0 i : nat) (ms : list vec) : list ins := match ms with [] => [] | m :: ms' => map (fun q => ICX q (a0 + i)) (support m) ++ cxs a0 (S i) ms' end.
Lemma cx_loop_ins a0 b0 ms : forall i qc qc', meas_loop cx_one a0 b0 i ms qc = Ret qc' -> qc_ins qc' = qc_ins qc ++ cxs a0 i ms.
Proof. induction ms as [|m ms IHm]; intros i qc qc' E; cbn [meas_loop cxs] in *; [injection E as <-; now rewrite app_nil_r|]. unfold cx_one in E at 1. destruct (support m) as [|s0 st] eqn:ES; [discriminate|]. cbn [pbind] in E. apply IHm in E. rewrite E. cbn [emit qc_ins]. now rewrite app_assoc. Qed.
Lemma cx_block_fr N a l p : a < N -> (forall q, In q l -> q <> a) -> p_ok N p -> zero_at p a -> fst (fr (map (fun q => ICX q a) l) p) = upd true a (par l (fst p)) p.
Proof. intros An Hl PO [Z1 Z2]. pose proof (evs_fr N true a l [] (map ED l) (ed_in l []) An (fun q Hq => conj (Hl q Hq) (fun x => x)) (fun x => x) p PO Z2 (fun f (H : In f []) => match H with end)) as E.
  rewrite comp_datas in E. assert (DD : datas (map ED l) = l) by (clear; induction l as [|q l IHl]; auto; cbn; f_equal; exact IHl). rewrite DD in E. cbn [tc] in E. rewrite Z1, xorb_false_l in E. exact E. Qed.
Lemma fr_cx_flips a l p : snd (fr (map (fun q => ICX q a) l) p) = [].
Proof. revert p. induction l as [|q l IHl]; intros p; [reflexivity|]. cbn [map]. rewrite fr_cons. cbn [snd frec app]. apply IHl. Qed.
Lemma cx_block_part N n a m : n <= a -> a < N -> length m = n -> part N n [a] (map (fun q => ICX q a) (support m)) (hooked n true [m]).
Proof. intros Na An Lm. assert (SM : forall q, In q (support m) -> q < n) by (intros q Hq; now apply (support_lt n m)). split.
  - apply Forall_map, Forall_forall. intros q Hq. specialize (SM q Hq). cbn. lia.
  - intros q [<-|[]]. auto.
  - intros p PO Z q NQ. rewrite (cx_block_fr N); auto; [|intros r Hr; specialize (SM r Hr); lia|apply Z; now left]. apply upd_same. intros ->. apply NQ. now left.
  - intros F W QU. destruct (unflagged_fault N n true a m [] [] F Na An Lm (Forall_nil _) (Forall_nil _)) as [Z H]; [rewrite app_nil_r; exact W|]. split; auto. intros q Hn NI. apply Z; auto. intros ->. apply NI. now left. Qed.
Lemma cxs_part N n a0 ms : forall i, n <= a0 -> a0 + i + length ms <= N -> (forall m, In m ms -> length m = n) -> part N n (seq (a0 + i) (length ms)) (cxs a0 i ms) (hooked n true ms).
Proof. induction ms as [|m ms IHm]; intros i Na HN G; cbn [length seq cxs]; [apply part_nil|]. cbn [length] in HN. change (?x :: seq (S ?x) ?k) with ([x] ++ seq (S x) k). apply part_app.
  - apply hooked_local.
  - intros q [<-|[]] I. apply in_seq in I. lia.
  - apply (part_imp _ _ _ _ (hooked n true [m])); [intros p; apply hooked_mono; intros u [->|[]]; now left|]. apply cx_block_part; [lia|lia|]. apply G. now left.
  - replace (S (a0 + i)) with (a0 + S i) by lia. apply (part_imp _ _ _ _ (hooked n true ms)); [intros p; apply hooked_mono; intros u Hu; now right|]. apply IHm; [lia|lia|]. intros u Hu. apply G. now right. Qed.
Lemma cxs_reads N n a0 ms : forall i p j m, n <= a0 -> a0 + i + length ms <= N -> (forall m, In m ms -> length m = n) -> p_ok N p -> (forall q, In q (seq (a0 + i) (length ms)) -> zero_at p q) -> nth_error ms j = Some m ->
  nth (a0 + i + j) (fst (fst (fr (cxs a0 i ms) p))) false = par (support m) (fst p).
Proof. induction ms as [|m0 ms IHm]; intros i p j m Na HN G PO Z Hj; [destruct j; discriminate|]. cbn [cxs]. rewrite fr_app. cbn [fst]. cbn [length] in *.
  assert (SM : forall q, In q (support m0) -> q < n) by (intros q Hq; apply (support_lt n m0); auto; apply G; now left).
  rewrite (cx_block_fr N); auto; [|lia|intros r Hr; specialize (SM r Hr); lia|apply Z; now left]. set (p1 := upd true (a0 + i) (par (support m0) (fst p)) p). assert (P1 : p_ok N p1) by (now apply upd_ok).
  assert (Z1 : forall q, In q (seq (a0 + S i) (length ms)) -> zero_at p1 q). { intros q I. apply in_seq in I. apply (zero_same p); [apply upd_same; lia|]. apply Z. right. apply in_seq. lia. }
  destruct j as [|j]; cbn [nth_error] in Hj.
  - injection Hj as <-. rewrite Nat.add_0_r. destruct (cxs_part N n a0 ms (S i) Na ltac:(lia) (fun u Hu => G u (or_intror Hu))) as [_ _ PP _]. destruct (PP p1 P1 Z1 (a0 + i)) as [PA _]; [intros I; apply in_seq in I; lia|]. rewrite PA. unfold p1. cbn. apply nth_set_nth_eq. destruct PO. unfold vec in *; lia.
  - replace (a0 + i + S j) with (a0 + S i + j) by lia. rewrite (IHm (S i) p1 j m); auto; [|lia|intros u Hu; apply G; now right]. assert (Lm : length m = n) by (apply G; right; now apply nth_error_In in Hj).
    apply par_ext. intros q Hq. pose proof (support_lt n m q Lm Hq). apply (upd_same true (a0 + i) (par (support m0) (fst p)) p q). lia. Qed.
Lemma cxs_flips a0 ms : forall i p, snd (fr (cxs a0 i ms) p) = [].
Proof. induction ms as [|m ms IHm]; intros i p; cbn [cxs]; [reflexivity|]. rewrite fr_app. cbn [snd]. now rewrite fr_cx_flips, IHm. Qed.
Lemma im_flips L p a b : Forall is_im L -> In (IM a b) L -> In (nth a (fst p) false) (snd (fr L p)).
Proof. induction 1 as [|i L Hi HL IHL]; [intros []|]. destruct i as [| |q b']; try contradiction. intros [[= -> ->]|I]; rewrite fr_cons; cbn [snd frec]; apply in_app_iff; [left; now left|right; now apply IHL]. Qed.

(** ** a layer *)
Definition layer (n c0 c1 : nat) (L : list ins) (z : bool) (ms : list vec) (Q : pauli -> Prop) : Prop :=
  forall N, n + c1 <= N -> part N n (seq (n + c0) (c1 - c0)) L Q /\ reads N (seq (n + c0) (c1 - c0)) L z ms.
Lemma layer_block z n t flags ms qc qc' : (forall m, In m ms -> length m = n /\ (flags = true -> ~ (t = 1 /\ length (support m) = 1))) -> qc_nq qc = n + qc_nc qc -> measure_ft z qc ms t flags = Ret qc' ->
  exists L, qc_ins qc' = qc_ins qc ++ L /\ qc_nq qc' = n + qc_nc qc' /\ qc_nc qc <= qc_nc qc' /\ layer n (qc_nc qc) (qc_nc qc') L z ms (if flags then single n z ms else hooked n z ms).
Proof. intros G HQ E. destruct ms as [|v0 ms0].
  { assert (Ret qc = Ret qc') as [= <-] by (destruct z; exact E). exists []. rewrite app_nil_r. split; auto. split; auto. split; auto. intros N HN. rewrite Nat.sub_diag. split; [apply part_nil|]. intros p _ _ _ m []. }
  set (ms := v0 :: ms0) in *. set (qc0 := add_regs qc (length ms)). set (c := qc_nc qc) in *.
  assert (Q0 : qc_nq qc0 = n + (c + length ms)) by (unfold qc0; cbn; lia). assert (C0 : qc_nc qc0 = c + length ms) by reflexivity. assert (I0 : qc_ins qc0 = qc_ins qc) by reflexivity.
  assert (GA : forall (Q : list vec -> pauli -> Prop) g one, one_part n z Q g one -> (forall N ms, local N n (Q ms)) -> (forall ms ms' p, incl ms ms' -> Q ms p -> Q ms' p) -> (forall m, In m ms -> g m) -> forall qc1, meas_loop one (n + c) c 0 ms qc0 = Ret qc1 ->
    exists L, qc_ins qc1 = qc_ins qc ++ L /\ qc_nq qc1 = n + qc_nc qc1 /\ c + length ms <= qc_nc qc1 /\ layer n c (qc_nc qc1) L z ms (Q ms)).
  { intros Q g one O LQ MQ Gm qc1 E1. destruct (loop_part n z Q g one c O LQ MQ ms 0 qc0 qc1) as (d & L & V1 & V2 & V3 & V4); auto; [intros m Hm; split; [now apply G|auto]|lia|].
    exists L. split; [congruence|]. split; [lia|]. split; [lia|]. intros N HN. destruct (V4 N ltac:(lia)) as (A & HA & PA & RA). rewrite Nat.add_0_r in HA.
    assert (IA : incl A (seq (n + c) (qc_nc qc1 - c))) by (intros q Hq; apply in_seq; apply HA in Hq; lia). split; [|now apply (reads_weaken N A)]. apply (part_weaken N n A); auto. intros q Hq. apply in_seq in Hq. lia. }
  destruct z; cbn [measure_ft] in E.
  - assert (E1 : exists qc1, meas_loop (fun qc s a b => if flags then measure_flagged qc s a b t true else cx_one qc s a b) (n + c) c 0 ms qc0 = Ret qc1 /\ qc' = emit qc1 (map (fun i => IM (n + c + i) (c + i)) (seq 0 (length ms)))).
    { unfold measure_ft_z in E. unfold ms in E at 1. rewrite HQ in E. fold qc0 in E. fold c in E. unfold cx_one. destruct (meas_loop _ _ _ _ _ _) as [qc1|] eqn:E1; [|discriminate]. cbn [pbind] in E. injection E as <-. exists qc1. auto. }
    destruct E1 as (qc1 & E1 & ->). cbn [emit qc_nq qc_nc qc_ins] in *. set (T := map (fun i => IM (n + c + i) (c + i)) (seq 0 (length ms))).
    assert (IT : Forall is_im T) by (apply Forall_map, Forall_forall; intros; exact I). assert (LT : forall i, In i T -> exists j, i = IM (n + c + j) (c + j) /\ j < length ms) by (intros i Hi; apply in_map_iff in Hi as (j & <- & Hj); apply in_seq in Hj; exists j; split; [auto|lia]).
    assert (TP : forall N c1 L (Q : pauli -> Prop), local N n Q -> Q (p_id N) -> c + length ms <= c1 -> n + c1 <= N -> part N n (seq (n + c) (c1 - c)) L Q -> part N n (seq (n + c) (c1 - c)) (L ++ T) Q).
    { intros N c1 L Q LQ Q0' Hc HN P. apply part_im; auto; apply Forall_forall; intros i Hi; destruct (LT i Hi) as (j & -> & Hj); cbn; [lia|]. intros r [<-|[]]. apply in_seq. lia. }
    destruct flags.
    + destruct (GA (single n true) _ _ (flagged_one_part n t true) (fun N ms => single_local N n true ms) (fun ms ms' p => single_mono n true ms ms' p) (fun m Hm => proj2 (G m Hm) eq_refl) qc1 E1) as (L & V1 & V2 & V3 & V4).
      exists (L ++ T). split; [rewrite V1; now rewrite app_assoc|]. split; auto. split; [lia|]. intros N HN. destruct (V4 N HN) as [PA RA]. split; [|now apply reads_prefix]. apply TP; auto; [apply single_local|apply single_id].
    + destruct (cx_loop_counts (n + c) c ms 0 qc0 qc1 E1) as [K1 K2]. exists (cxs (n + c) 0 ms ++ T). rewrite (cx_loop_ins _ _ _ _ _ _ E1), I0. split; [now rewrite app_assoc|]. split; [lia|]. split; [lia|]. intros N HN. rewrite K2, C0 in *.
      assert (GL : forall m, In m ms -> length m = n) by (intros m Hm; now apply G). pose proof (cxs_part N n (n + c) ms 0 ltac:(lia) ltac:(lia) GL) as CP. rewrite Nat.add_0_r in CP. split.
      * apply TP; auto; [apply hooked_local|apply hooked_id|]. replace (c + length ms - c) with (length ms) by lia. exact CP.
      * replace (c + length ms - c) with (length ms) by lia. intros p PO Z QU m Hm. apply In_nth_error in Hm as [j Hj]. assert (Lj : j < length ms) by (apply nth_error_Some; intros K; change (nth_error ms j = Some m) in Hj; rewrite K in Hj; discriminate Hj).
        pose proof (cxs_reads N n (n + c) ms 0 p j m ltac:(lia) ltac:(lia) GL PO) as R. rewrite Nat.add_0_r in R. specialize (R Z Hj). cbn [tc]. rewrite <- R. rewrite fr_app in QU. cbn [snd] in QU. apply quiet_app in QU as [_ QU]. apply QU. apply (im_flips T _ (n + c + j) (c + j)); auto. unfold T. apply in_map_iff. exists j. split; auto. apply in_seq. lia.
  - unfold measure_ft_x in E. unfold ms in E at 1. rewrite HQ in E. fold qc0 in E. fold c in E. destruct flags.
    + destruct (GA (single n false) _ _ (flagged_one_part n t false) (fun N ms => single_local N n false ms) (fun ms ms' p => single_mono n false ms ms' p) (fun m Hm => proj2 (G m Hm) eq_refl) qc' E) as (L & V1 & V2 & V3 & V4).
      exists L. repeat (split; auto). lia.
    + destruct (GA (hooked n false) _ _ (unflagged_one_part n false) (fun N ms => hooked_local N n false ms) (fun ms ms' p => hooked_mono n false ms ms' p) (fun m Hm => I) qc' E) as (L & V1 & V2 & V3 & V4).
      exists L. repeat (split; auto). lia. Qed.
