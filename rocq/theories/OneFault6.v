(** * OneFault6: one fault anywhere in a verified state preparation circuit *)
From Verif Require Export OneFault5 PropVerif PropVerify.
From Coq Require Import Permutation.
Local Open Scope nat_scope.

(** some stabilizer of the prepared state makes the error of type x at most max_weight heavy *)
Definition near (s : spc) (x : bool) (e : vec) : Prop := exists w, span (sp_n s) (stabs_of s x) w /\ weight (vxor e w) <= max_weight s x.
Lemma max_weight_pos s x : spc_ok s -> 1 <= max_weight s x.
Proof. intros (_ & _ & D0 & D1 & D2 & _). unfold max_weight. set (de := if x then sp_dx s else sp_dz s). assert (DE : (sp_d s <= de)%Z) by (unfold de; destruct x; auto). assert (M : ((sp_d s - 1) / 2 <= (de - 1) / 2)%Z) by (apply Z.div_le_mono; lia).
  assert (1 <= Z.max ((de - 1) / 2) 1 / Z.max ((sp_d s - 1) / 2) 1)%Z; [|lia]. apply Z.div_le_lower_bound; lia. Qed.
Lemma weight_le n (v : vec) l : length v = n -> (forall q, q < n -> nth q v false = true -> In q l) -> weight v <= length l.
Proof. intros Lv H. rewrite <- support_weight. apply NoDup_incl_length; [apply support_nodup|]. intros q Hq. apply H; [now apply (support_lt n v)|now apply support_in]. Qed.
Lemma near_one s x e q0 : spc_ok s -> length e = sp_n s -> (forall q, q < sp_n s -> q <> q0 -> nth q e false = false) -> near s x e.
Proof. intros SO Le H. exists (vzero (sp_n s)). split; [apply span_zero|]. rewrite vxor_zero_r by (unfold vec in *; lia). transitivity (length [q0]); [|cbn; now apply max_weight_pos]. apply (weight_le (sp_n s)); auto. intros q Hq E. destruct (Nat.eq_dec q q0) as [->|N]; [now left|]. rewrite H in E by auto. discriminate. Qed.
Lemma near_zero s x : spc_ok s -> near s x (vzero (sp_n s)).
Proof. intros SO. apply (near_one s x _ 0); auto; [apply vzero_length|]. intros. apply nth_vzero. Qed.
Lemma vxor_cancel3 n (a b c : vec) : length a = n -> length b = n -> length c = n -> vxor a (vxor (vxor a b) c) = vxor b c.
Proof. intros A B C. apply (vec_ext n); repeat apply vxor_length'; auto. intros j Hj. rewrite !nth_vxor by (rewrite ?(vxor_length' n a b); auto; rewrite ?(vxor_length' n (vxor a b) c); auto; rewrite ?(vxor_length' n a b); auto; congruence). now destruct (nth j a false), (nth j b false), (nth j c false). Qed.
Lemma near_equiv s x e b : spc_ok s -> length e = sp_n s -> length b = sp_n s -> span (sp_n s) (stabs_of s x) (vxor e b) -> near s x b -> near s x e.
Proof. intros SO Le Lb S (w & Hw & W). pose proof (stabs_wf s x SO) as WS. pose proof (span_length _ _ _ WS Hw) as Lw. exists (vxor (vxor e b) w). split; [now apply span_vxor|]. now rewrite (vxor_cancel3 (sp_n s)). Qed.
(** the measured operator of the layer is a stabilizer of the other type *)
Lemma orth_other s x : orth_checks s x = stabs_of s (negb x).
Proof. now destruct x. Qed.
Lemma near_up_to s x e m q0 : spc_ok s -> length e = sp_n s -> span (sp_n s) (stabs_of s x) m -> (forall q, q < sp_n s -> q <> q0 -> nth q e false = nth q m false) -> near s x e.
Proof. intros SO Le Hm H. pose proof (span_length _ _ _ (stabs_wf s x SO) Hm) as Lm. apply (near_equiv s x e (vxor e m)); auto; [now apply vxor_length'| |].
  - rewrite (vxor_cancel_l (sp_n s)) by auto. exact Hm.
  - apply (near_one s x _ q0); auto; [now apply vxor_length'|]. intros q Hq N. rewrite nth_vxor by (unfold vec in *; lia). rewrite H by auto. apply xorb_nilpotent. Qed.
Lemma near_suffix s x e m k : spc_ok s -> length e = sp_n s -> span (sp_n s) (stabs_of s x) m -> weight m <= 2 * max_weight s x + 1 -> (forall q, q < sp_n s -> nth q e false = memb q (skipn k (support m))) -> near s x e.
Proof. intros SO Le Hm W H. pose proof (span_length _ _ _ (stabs_wf s x SO) Hm) as Lm. rewrite <- support_weight in W. pose proof (firstn_skipn k (support m)) as FS. assert (LL : length (firstn k (support m)) + length (skipn k (support m)) = length (support m)) by (rewrite <- app_length; now rewrite FS).
  destruct (Nat.le_gt_cases (length (skipn k (support m))) (max_weight s x)) as [G|G].
  - exists (vzero (sp_n s)). split; [apply span_zero|]. rewrite vxor_zero_r by (unfold vec in *; lia). etransitivity; [|exact G]. apply (weight_le (sp_n s)); auto. intros q Hq E. rewrite H in E by auto. now apply memb_in.
  - exists m. split; auto. transitivity (length (firstn k (support m))); [|lia]. apply (weight_le (sp_n s)); [now apply vxor_length'|]. intros q Hq E. rewrite nth_vxor in E by (unfold vec in *; lia). rewrite H in E by auto.
    destruct (memb q (skipn k (support m))) eqn:M.
    + apply memb_in in M. assert (I : In q (support m)) by (rewrite <- FS; apply in_app_iff; auto). apply support_in in I. rewrite I in E. discriminate.
    + rewrite xorb_false_l in E. apply support_in in E. rewrite <- FS in E. apply in_app_iff in E as [E|E]; auto. apply memb_in in E. congruence. Qed.
Lemma par_dot n m (v : vec) : length m = n -> n <= length v -> FlagProofs.par (support m) v = dot m (firstn n v).
Proof. intros Lm Lv. rewrite <- (FlagHook.supp_support m) at 2. rewrite Lm. rewrite supp_dot; [|apply support_nodup|intros q Hq; now apply (support_lt n m)|rewrite firstn_length; lia]. apply FlagProofs.par_ext. intros q Hq. rewrite OneFault5.nth_firstn'; auto. now apply (support_lt n m). Qed.
Lemma stab_orth s x m w : spc_ok s -> span (sp_n s) (orth_checks s x) m -> span (sp_n s) (stabs_of s x) w -> dot m w = false.
Proof. intros SO Hm Hw. pose proof (orth_wf s x SO) as WO. rewrite dot_comm. apply (dot_span_zero (sp_n s) (orth_checks s x) w WO); auto. intros r Hr. destruct SO as (WX & WZ & _ & _ & _ & KZ & KX). destruct x; cbn [stabs_of orth_checks] in *; [apply KZ in Hw|apply KX in Hw]; destruct Hw as [_ K]; rewrite dot_comm; now apply K. Qed.

(** the faults that the library leaves out of its fault sets - before the first CNOT - are harmless or equivalent to one it has *)
Definition others_covered (s : spc) (x : bool) (nodes : list (nat * nat)) : Prop := forall q, q < sp_n s ->
  near s x (fault_error (sp_n s) x nodes q 0) \/ exists b, In b (single_faults (sp_n s) x nodes) /\ span (sp_n s) (stabs_of s x) (vxor (fault_error (sp_n s) x nodes q 0) b).
Lemma prep_near (opt : cl_solver) s x nodes nodes' additional layers e : optimizer_ok 1 opt -> spc_ok s -> cn_ok (sp_n s) nodes -> reorder nodes nodes' -> 1 <= max_errors s -> others_covered s x nodes -> (forall l, additional = Some l -> wf (sp_n s) l) ->
  protects s x nodes' additional layers -> prep_error (sp_n s) x nodes e -> (forall m, In m (concat layers) -> dot m e = false) -> near s x e.
Proof. intros OK SO CN RO M OC WA P PE Z. set (n := sp_n s) in *.
  assert (LIST : forall b, In b (single_faults n x nodes) -> (forall m, In m (concat layers) -> dot m b = false) -> near s x b).
  { intros b Hb Zb. apply (reorder_single n x nodes nodes') in Hb; auto. destruct (protects_light opt s x nodes' additional layers 1 b OK SO WA P ltac:(lia)) as (w & Hw & W); auto; [|exists w; rewrite Nat.mul_1_r in W; auto].
    exists (vzero n), b. split; [reflexivity|]. split; [auto|]. symmetry. apply vxor_zero_l. exact (wf_in n _ b (single_faults_wf n x nodes') Hb). }
  destruct PE as [->|(q & i & Hq & Hi & ->)]; [now apply near_zero|]. destruct (fault_cases n x nodes q i CN Hi) as [(g & _ & _ & I)|(_ & E)]; [now apply LIST|]. rewrite E in *. destruct (OC q Hq) as [H|(b & Hb & SB)]; auto.
  assert (Lb : length b = n) by exact (wf_in n _ b (single_faults_wf n x nodes) Hb). assert (Lf : length (fault_error n x nodes q 0) = n) by apply fault_error_length.
  apply (near_equiv s x _ b); auto. apply LIST; auto. intros m Hm. assert (Sm : span n (orth_checks s x) m) by (exact (protects_span s x nodes' additional layers m P Hm)). pose proof (stab_orth s x m _ SO Sm SB) as D. assert (LE : length (fault_error n x nodes q 0) = length b) by (rewrite Lf; symmetry; exact Lb). unfold n in LE, Z. rewrite (dot_vxor_r m _ _ LE) in D. rewrite (Z m Hm) in D. rewrite xorb_false_l in D. exact D. Qed.

Lemma tc_other x p : tc (negb x) p = sc x p.
Proof. now destruct x. Qed.
Lemma nth_eq_firstn n x p p' : n <= length (tc x p) -> n <= length (tc x p') -> (forall q, q < n -> same_at p p' q) -> firstn n (tc x p') = firstn n (tc x p).
Proof. intros L1 L2 H. apply (vec_ext n); rewrite ?firstn_length; try lia. intros j Hj. rewrite !OneFault5.nth_firstn' by auto. destruct (H j Hj). destruct x; auto. Qed.
Lemma measure_ft_split s m1 m2 full qc : (full = false -> m2 = []) -> (if sp_zero s then measure_ft_stabs s m2 m1 full else measure_ft_stabs s m1 m2 full) = Ret qc ->
  let t := if sp_zero s then max_x_errors s else max_z_errors s in
  exists qc1, measure_ft (sp_zero s) (mkQc (map ins_of (sp_circ s)) (sp_n s) 0) m1 t false = Ret qc1 /\ measure_ft (negb (sp_zero s)) qc1 m2 t true = Ret qc.
Proof. intros HF E. cbv zeta. unfold measure_ft_stabs in E. destruct (sp_zero s) eqn:Z; cbn [negb measure_ft].
  - destruct (measure_ft_z _ m1 _ false) as [qc1|]; [|discriminate]. cbn [pbind] in E. exists qc1. split; auto. destruct full; auto. rewrite HF by auto. exact E.
  - destruct (measure_ft_x _ m1 _ false) as [qc1|]; [|discriminate]. cbn [pbind] in E. exists qc1. split; auto. destruct full; auto. rewrite HF by auto. exact E. Qed.
(** one fault without an alarm leaves little on the data *)
Lemma one_fault_near (opt : cl_solver) s nodes nodes' hs l1 l2 full qc : optimizer_ok 1 opt -> spc_ok s -> 1 <= max_errors s ->
  sp_circ s = map GH hs ++ map gcx nodes -> NoDup hs -> (forall q, In q hs -> q < sp_n s) -> cn_ok (sp_n s) nodes -> reorder nodes nodes' ->
  others_covered s (sp_zero s) nodes -> (full = true -> others_covered s (negb (sp_zero s)) nodes) ->
  protects s (sp_zero s) nodes' None l1 -> (if full then protects s (negb (sp_zero s)) nodes' (Some (hook_errors (concat l1))) l2 else l2 = []) ->
  ((if sp_zero s then max_x_errors s else max_z_errors s) = 1 -> forall m, In m (concat l2) -> weight m <> 1) ->
  (full = true -> forall m, In m (concat l1) -> weight m <= 2 * max_weight s (negb (sp_zero s)) + 1) ->
  (if sp_zero s then measure_ft_stabs s (concat l2) (concat l1) full else measure_ft_stabs s (concat l1) (concat l2) full) = Ret qc ->
  Forall (ins_ok (qc_nq qc)) (qc_ins qc) /\
  forall F, with_faults (qc_nq qc) 1 (qc_ins qc) F -> let r := frame F (p_id (qc_nq qc)) in quiet (snd r) ->
    near s (sp_zero s) (firstn (sp_n s) (tc (sp_zero s) (fst r))) /\ (full = true -> near s (negb (sp_zero s)) (firstn (sp_n s) (tc (negb (sp_zero s)) (fst r)))).
Proof. intros OK SO M EC ND HS CN RO OC1 OC2 P1 P2 N1 HW E. set (n := sp_n s) in *. set (z := sp_zero s) in *.
  assert (S1 : forall m, In m (concat l1) -> span n (stabs_of s (negb z)) m) by (intros m Hm; rewrite <- orth_other; exact (protects_span s z nodes' None l1 m P1 Hm)).
  assert (S2 : forall m, In m (concat l2) -> span n (stabs_of s z) m). { destruct full; [intros m Hm; pose proof (protects_span s (negb z) _ _ l2 m P2 Hm) as K; rewrite orth_other, negb_involutive in K; exact K|subst l2; intros m []]. }
  assert (LM1 : forall m, In m (concat l1) -> length m = n) by (intros m Hm; exact (span_length _ _ _ (stabs_wf s _ SO) (S1 m Hm))). assert (LM2 : forall m, In m (concat l2) -> length m = n) by (intros m Hm; exact (span_length _ _ _ (stabs_wf s _ SO) (S2 m Hm))).
  assert (HF : full = false -> concat l2 = []) by (intros ->; now subst l2).
  destruct (measure_ft_split s _ _ full qc HF E) as (qc1 & E1 & E2). fold z in E1, E2. fold n in E1. set (t := if z then max_x_errors s else max_z_errors s) in *.
  destruct (layer_block z n t false (concat l1) (mkQc (map ins_of (sp_circ s)) n 0) qc1) as (LA & IA & QA & CA & YA); auto; [intros m Hm; split; [auto|discriminate]|]. cbn [qc_ins qc_nc] in *.
  destruct (layer_block (negb z) n t true (concat l2) qc1 qc) as (LB & IB & QB & CB & YB); auto. { intros m Hm. split; auto. intros _ [T W]. rewrite support_weight in W. exact (N1 T m Hm W). }
  set (N := qc_nq qc) in *. rewrite IB, IA, EC in *. set (prep := map ins_of (map GH hs ++ map gcx nodes)) in *. rewrite <- app_assoc.
  destruct (YA N ltac:(unfold N; lia)) as [PA RA]. destruct (YB N ltac:(unfold N; lia)) as [PB RB]. rewrite Nat.add_0_r, Nat.sub_0_r in *. set (A1 := seq n (qc_nc qc1)) in *. set (A2 := seq (n + qc_nc qc1) (qc_nc qc - qc_nc qc1)) in *.
  assert (D : forall q, In q A1 -> ~ In q A2) by (intros q I J; apply in_seq in I; apply in_seq in J; lia). assert (HN : n <= N) by (unfold N; lia).
  assert (OP : Forall (ins_ok N) prep).
  { unfold prep. rewrite map_app, ins_of_gcx. apply Forall_app. split; [rewrite map_map; apply Forall_map, Forall_forall; intros q Hq; specialize (HS q Hq); cbn; lia|]. apply Forall_map. eapply Forall_impl; [|exact CN]. intros g (A & B & C). cbn. lia. }
  pose proof (pt_ok _ _ _ _ _ PA) as OA. pose proof (pt_ok _ _ _ _ _ PB) as OB. split; [apply Forall_app; split; auto; apply Forall_app; auto|].
  pose proof (pt_pass _ _ _ _ _ PA) as SA. pose proof (pt_pass _ _ _ _ _ PB) as SB. pose proof (pt_anc _ _ _ _ _ PA) as NA. pose proof (pt_anc _ _ _ _ _ PB) as NB.
  assert (LEN : forall p x, p_ok N p -> n <= length (tc x p)) by (intros p x PO; rewrite (tc_ok N) by auto; auto).
  assert (LF : forall p x, p_ok N p -> length (firstn n (tc x p)) = n) by (intros p x PO; rewrite firstn_length; specialize (LEN p x PO); lia).
  intros F W. cbv zeta. destruct (wf_split1 N prep (LA ++ LB) F W) as [(F1 & -> & W1)|(F2 & -> & W2)].
  - destruct (prep_fault N n hs nodes F1 HN ND HS CN W1) as (_ & ZP & PE). rewrite frame_app. cbn [fst snd]. set (p := fst (frame F1 (p_id N))) in *. assert (PO : p_ok N p) by (apply frame_ok; [apply (wf_fok N 1 _ F1 W1); auto|apply p_id_ok]).
    fold (fr (LA ++ LB) p). rewrite fr_app. cbn [fst snd]. set (p1 := fst (fr LA p)). assert (PO1 : p_ok N p1) by (now apply fr_ok). intros QU. apply quiet_app in QU as [_ QU]. apply quiet_app in QU as [QA1 QB1].
    assert (Z1 : forall q, In q A1 -> zero_at p q) by (intros q Hq; apply ZP; auto). pose proof (SA p PO Z1) as SAP. fold p1 in SAP. assert (Z2 : forall q, In q A2 -> zero_at p1 q). { intros q Hq. apply (zero_same p); [apply SAP; intros I; exact (D q I Hq)|apply ZP; auto]. }
    pose proof (SB p1 PO1 Z2) as SBP. set (p2 := fst (fr LB p1)) in *. assert (PO2 : p_ok N p2) by (now apply fr_ok).
    assert (K1 : forall x, firstn n (tc x p1) = firstn n (tc x p)) by (intros x; apply nth_eq_firstn; auto; intros q Hq; apply SAP; intros I; apply NA in I; lia).
    assert (K2 : forall x, firstn n (tc x p2) = firstn n (tc x p)) by (intros x; rewrite <- K1; apply nth_eq_firstn; auto; intros q Hq; apply SBP; intros I; apply NB in I; lia).
    rewrite !K2. split.
    + apply (prep_near opt s z nodes nodes' None l1); auto; [discriminate|]. intros m Hm. rewrite <- par_dot by auto. exact (RA p PO Z1 QA1 m Hm).
    + intros ->. apply (prep_near opt s (negb z) nodes nodes' (Some (hook_errors (concat l1))) l2); auto; [intros l [= <-]; apply hook_wf; apply Forall_forall; auto|]. intros m Hm. rewrite <- K1. rewrite <- par_dot by auto. exact (RB p1 PO1 Z2 QB1 m Hm).
  - rewrite frame_app, frame_id by auto. cbn [fst snd]. intros QU. apply quiet_app in QU as [_ QU]. destruct (wf_split1 N LA LB F2 W2) as [(F3 & -> & W3)|(F3 & -> & W3)].
    + rewrite frame_app in *. cbn [fst snd] in *. apply quiet_app in QU as [QU _]. destruct (pt_fault _ _ _ _ _ PA F3 W3 QU) as [Z H]. set (p := fst (frame F3 (p_id N))) in *. assert (PO : p_ok N p) by (apply frame_ok; [apply (wf_fok N 1 _ F3 W3); auto|apply p_id_ok]). fold (fr LB p). set (p2 := fst (fr LB p)).
      assert (PO2 : p_ok N p2) by (now apply fr_ok). assert (Z2 : forall q, In q A2 -> zero_at p q) by (intros q Hq; apply Z; auto; intros I; exact (D q I Hq)). pose proof (SB p PO Z2) as SBP. fold p2 in SBP.
      assert (K2 : forall x, firstn n (tc x p2) = firstn n (tc x p)) by (intros x; apply nth_eq_firstn; auto; intros q Hq; apply SBP; intros I; apply NB in I; lia). rewrite !K2.
      destruct H as (q0 & H1 & H2). split; [|intros FT; specialize (HW FT)].
      * apply (near_one s z _ q0); auto. intros q Hq Nq. rewrite OneFault5.nth_firstn' by auto. auto.
      * rewrite tc_other. destruct H2 as [H2|(m & k & Hm & H2)].
        -- apply (near_one s (negb z) _ q0); auto; [rewrite <- tc_other; auto|]. intros q Hq Nq. rewrite OneFault5.nth_firstn' by auto. auto.
        -- apply (near_suffix s (negb z) _ m k); auto; [rewrite <- tc_other; auto|]. intros q Hq. rewrite OneFault5.nth_firstn' by auto. auto.
    + rewrite frame_app, frame_id in * by auto. cbn [fst snd] in *. apply quiet_app in QU as [_ QU]. destruct (pt_fault _ _ _ _ _ PB F3 W3 QU) as [Z H]. set (p := fst (frame F3 (p_id N))) in *. assert (PO : p_ok N p) by (apply frame_ok; [apply (wf_fok N 1 _ F3 W3); auto|apply p_id_ok]).
      destruct H as (q0 & H1 & H2). split; [|intros _].
      * assert (EZ : tc z p = sc (negb z) p) by (rewrite <- tc_other; now rewrite negb_involutive). rewrite EZ. destruct H2 as [H2|(m & Hm & H2)].
        -- apply (near_one s z _ q0); auto; [rewrite <- EZ; auto|]. intros q Hq Nq. rewrite OneFault5.nth_firstn' by auto. auto.
        -- apply (near_up_to s z _ m q0); auto; [rewrite <- EZ; auto|]. intros q Hq Nq. rewrite OneFault5.nth_firstn' by auto. auto.
      * apply (near_one s (negb z) _ q0); auto. intros q Hq Nq. rewrite OneFault5.nth_firstn' by auto. auto. Qed.
