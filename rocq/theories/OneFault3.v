(** * OneFault3: one fault in a flagged measurement *)
From Verif Require Export OneFault2.
From Coq Require Import Permutation.
Local Open Scope nat_scope.

Definition raised_or_light (n : nat) (z : bool) (stab : list nat) (r : pauli * list bool) : Prop :=
  existsb (fun b => b) (snd r) = true \/ light stab (fst r) 1 \/ light stab (p_mul (fst r) (stab_op n z stab)) 1.
Lemma firstn_raised k l : existsb (fun b : bool => b) (firstn k l) = true -> existsb (fun b => b) l = true.
Proof. intros H. apply existsb_exists in H as (b & Hb & E). apply existsb_exists. exists b. split; auto. rewrite <- (firstn_skipn k l). apply in_app_iff. auto. Qed.
(** canonical_tolerates for one fault, with more qubits around *)
Lemma canonical_light n z stab a b f0 m0 nf evs Ec : let w := length stab in let m := w + 1 + nf in let Lc := gadget z w 0 Ec in
  check1 m z w nf Lc = true -> all_okb m Lc = true -> gadget z a b evs = map (ren (rho_of stab a f0) (beta_of b m0)) Lc ->
  f0 + nf <= n -> a < f0 -> NoDup stab -> (forall q, In q stab -> q < f0 /\ q <> a) -> forall F, with_faults n 1 (gadget z a b evs) F -> raised_or_light n z stab (frame F (p_id n)).
Proof. intros w m Lc. assert (Ew : length stab = w) by reflexivity. assert (Em : m = w + 1 + nf) by reflexivity. clearbody Lc m w. intros C OKb EL En An ND HS F WF. apply all_ok in OKb.
  assert (R1 : forall j, j < m -> rho_of stab a f0 j < n).
  { intros j Hj. unfold rho_of. rewrite Ew. destruct (Nat.ltb_spec j w) as [H|H]; [destruct (HS (nth j stab 0)); [apply nth_In; lia|lia]|]. destruct (Nat.eqb_spec j w); [lia|]. lia. }
  assert (R2 : forall i j, i < m -> j < m -> rho_of stab a f0 i = rho_of stab a f0 j -> i = j).
  { intros i j Hi Hj. unfold rho_of. rewrite Ew.
    assert (HN : forall i, i < w -> nth i stab 0 < f0 /\ nth i stab 0 <> a) by (intros k0 Hk0; apply HS, nth_In; lia).
    destruct (Nat.ltb_spec i w) as [H1|H1], (Nat.ltb_spec j w) as [H2|H2]; intros E.
    - apply (proj1 (NoDup_nth stab 0) ND); auto; lia.
    - destruct (HN i H1). destruct (Nat.eqb_spec j w); [contradiction|lia].
    - destruct (HN j H2). destruct (Nat.eqb_spec i w); [congruence|lia].
    - destruct (Nat.eqb_spec i w), (Nat.eqb_spec j w); lia. }
  rewrite EL in WF. destruct (rel_faults n m (rho_of stab a f0) (beta_of b m0) R1 R2 1 Lc F WF OKb) as (Fc & WC & G).
  assert (RI : rel m (rho_of stab a f0) (p_id n) (p_id m)) by (intros j Hj; cbn; rewrite !nth_vzero; auto). destruct (G (p_id n) (p_id m) (p_id_ok n) (p_id_ok m) RI) as (G1 & G2).
  assert (CC : ccond m z w nf 1 (frame Fc (p_id m))) by (apply (check1_sound m z w nf Lc); auto).
  assert (FOc : fok m Fc) by (apply (wf_fok m 1 Lc); auto). assert (POc := frame_ok m Fc FOc (p_id m) (p_id_ok m)).
  assert (FO : fok n F). { apply (wf_fok n 1 _ F WF). apply Forall_map. eapply Forall_impl; [|exact OKb]. intros i Hi. destruct i as [q|c t|q bb]; cbn [ren ins_ok] in *; auto. destruct Hi as (H1 & H2 & H3). split; [auto|]. split; [auto|]. auto. }
  assert (PO := frame_ok n F FO (p_id n) (p_id_ok n)). unfold raised_or_light.
  rewrite G2. assert (ST := seq_map_nth stab a f0). rewrite Ew in ST. destruct CC as [CC|[CC|CC]]; [left; now apply firstn_raised in CC|right; left|right; right].
  + rewrite <- ST. apply (rel_light m _ w _ (fst (frame Fc (p_id m)))); auto. lia.
  + rewrite <- ST. apply (rel_light m _ w _ (p_mul (fst (frame Fc (p_id m))) (stab_op m z (seq 0 w)))); auto; [lia|]. apply (rel_mul n m); auto using stab_op_ok. apply rel_stab; auto. lia. Qed.
(** what measure_flagged appends, and one fault in it *)
Lemma flagged_light qc stab a b t z qc' : measure_flagged qc stab a b t z = Ret qc' -> ~ (t = 1 /\ length stab = 1) -> a < qc_nq qc -> NoDup stab -> (forall q, In q stab -> q < qc_nq qc /\ q <> a) ->
  exists k evs, builds qc stab a b z qc' k evs /\ forall N F, qc_nq qc + k <= N -> with_faults N 1 (gadget z a b evs) F -> raised_or_light N z stab (frame F (p_id N)).
Proof. intros E N1 An ND HS. destruct (supported_dec (length stab) t) as [SU|SU]; [|rewrite flagged_raises in E by auto; discriminate].
  destruct (flagged_builds qc stab a b t z SU N1) as (qc2 & k & evs & E2 & B & SH). assert (qc2 = qc') by congruence. subst qc2. exists k, evs. split; auto. intros N F HN WF.
  assert (NE : 1 <= length stab) by (destruct SU as [[_ H]|[_ H]]; lia).
  destruct SH as [(-> & -> & ->)|(-> & [(W & -> & ->)|[(W & -> & ->)|[(W & -> & ->)|[(W & -> & ->)|(W & -> & ->)]]]])].
  - assert (W2 : 2 <= length stab) by lia. destruct (one_flag_shape a b (qc_nq qc) (qc_nc qc) z stab W2) as (s0 & mid & sl & ES & EG). rewrite EG in WF. subst stab.
    destruct (one_fault N a b (qc_nq qc) (qc_nc qc) z s0 sl mid ltac:(lia) ltac:(lia) ltac:(lia) ND) with (2 := WF) as [C|C]; [|left; now apply firstn_raised in C|right; exact C].
    intros q I. destruct (HS q I). split; [lia|split; auto]. intros [J|[]]. lia.
  - apply (canonical_light N z stab a b (qc_nq qc) (qc_nc qc) 0 _ (map ED (seq 0 (length stab)))) with (3 := canon_small stab a b z _ _ W) (8 := WF); auto; assert (length stab = 1 \/ length stab = 2) as [-> | ->] by lia; destruct z; vm_compute; reflexivity.
  - apply (canonical_light N z stab a b (qc_nq qc) (qc_nc qc) 1 _ (evs4 (seq 0 4) 5 1)) with (3 := canon4 stab a b z _ _ W) (8 := WF); auto; rewrite W; destruct z; vm_compute; reflexivity.
  - apply (canonical_light N z stab a b (qc_nq qc) (qc_nc qc) 2 _ (evs5 (seq 0 5) 6 1)) with (3 := canon5 stab a b z _ _ W) (8 := WF); auto; rewrite W; destruct z; vm_compute; reflexivity.
  - apply (canonical_light N z stab a b (qc_nq qc) (qc_nc qc) 2 _ (evs6 (seq 0 6) 7 1)) with (3 := canon6 stab a b z _ _ W) (8 := WF); auto; rewrite W; destruct z; vm_compute; reflexivity.
  - apply (canonical_light N z stab a b (qc_nq qc) (qc_nc qc) 3 _ (evs8 (seq 0 8) 9 1)) with (3 := canon8 stab a b z _ _ W) (8 := WF); auto; rewrite W; destruct z; vm_compute; reflexivity. Qed.
Lemma filter_le1 (f : nat -> bool) l : length (filter f l) <= 1 -> exists q0, forall q, In q l -> q <> q0 -> f q = false.
Proof. intros H. destruct (filter f l) as [|q0 [|? ?]] eqn:E; cbn in H; [| |lia].
  - exists 0. intros q Hq _. destruct (f q) eqn:Ef; auto. assert (I : In q (filter f l)) by (apply filter_In; auto). rewrite E in I. destruct I.
  - exists q0. intros q Hq Nq. destruct (f q) eqn:Ef; auto. assert (I : In q (filter f l)) by (apply filter_In; auto). rewrite E in I. destruct I as [->|[]]. contradiction. Qed.
Lemma quiet_raised l : quiet l -> existsb (fun b : bool => b) l = true -> False.
Proof. intros Q H. apply existsb_exists in H as (b & Hb & E). rewrite (Q b Hb) in E. discriminate. Qed.
(** the flagged gadget as a part *)
Lemma flagged_part N n z a b m fl evs : n <= a -> a < N -> length m = n -> (forall f, In f fl -> n <= f /\ f < N /\ f <> a) -> datas evs = support m -> evs_in (support m) fl evs ->
  (forall F, with_faults N 1 (gadget z a b evs) F -> raised_or_light N z (support m) (frame F (p_id N))) -> part N n (a :: fl) (gadget z a b evs) (single n z [m]).
Proof. intros Na An Lm HF DT EI RL. assert (SM : forall q, In q (support m) -> q < n) by (intros q Hq; now apply (support_lt n m)). pose proof (support_nodup m) as ND.
  destruct (gadget_ok N z a b (support m) fl evs EI An) as [GO GI]; [intros q Hq; specialize (SM q Hq); lia|intros f Hf; destruct (HF f Hf); lia|]. split; auto.
  - intros q [<-|Hq]; auto. now apply HF.
  - apply (gadget_passes N z a b (support m)); auto; [|intros I; apply HF in I; lia]. intros q Hq. specialize (SM q Hq). split; [lia|]. intros I. apply HF in I. lia.
  - intros F W Q. assert (SP : p_supp (fst (frame F (p_id N))) (support m ++ a :: fl)) by (apply (frame_supp N _ 1 _ F W GO GI (p_id N) (p_id_ok N)); intros r _; split; cbn; apply nth_vzero).
    assert (PO : p_ok N (fst (frame F (p_id N)))) by (apply frame_ok; [apply (wf_fok N 1 _ F W); auto|apply p_id_ok]).
    split; [intros q Hn Nq; apply SP; intros I; apply in_app_iff in I as [I|I]; [apply SM in I; lia|contradiction]|].
    specialize (RL F W). set (p := fst (frame F (p_id N))) in *. destruct PO as [L1 L2].
    assert (OUT : forall q, q < n -> ~ In q (support m) -> zero_at p q) by (intros q Hq Nq; apply SP; intros I; apply in_app_iff in I as [I|[I|I]]; [contradiction|lia|apply HF in I; lia]).
    destruct RL as [R|[R|R]]; [destruct (quiet_raised _ Q R)| |]; apply filter_le1 in R as (q0 & R); exists q0.
    + assert (Z : forall q, q < n -> q <> q0 -> zero_at p q). { intros q Hq Nq. destruct (in_dec Nat.eq_dec q (support m)) as [I|I]; [|now apply OUT]. specialize (R q I Nq). apply orb_false_iff in R. exact R. }
      split; [intros q Hq Nq; now apply (sc_tc_zero z p q (Z q Hq Nq))|]. left. intros q Hq Nq; now apply (sc_tc_zero z p q (Z q Hq Nq)).
    + assert (Z : forall q, q < n -> q <> q0 -> nth q (tc z p) false = false /\ nth q (sc z p) false = nth q m false).
      { intros q Hq Nq. destruct (in_dec Nat.eq_dec q (support m)) as [I|I].
        - specialize (R q I Nq). apply orb_false_iff in R as [H1 H2]. assert (M : nth q m false = true) by (now apply support_in). assert (MB : memb q (support m) = true) by (now apply memb_in). fold p in H1, H2.
          destruct z; cbn [stab_op p_mul fst snd tc sc] in *; rewrite !nth_vxor in * by (rewrite ?supp_length, ?vzero_length; auto); rewrite ?nth_supp, ?nth_vzero, ?MB, ?xorb_false_r in * by lia; rewrite M; split; auto; [destruct (nth q (snd p) false)|destruct (nth q (fst p) false)]; auto; discriminate.
        - pose proof (OUT q Hq I) as Z. destruct (sc_tc_zero z p q Z) as [Z1 Z2]. split; auto. rewrite Z1. symmetry. destruct (nth q m false) eqn:M; auto. exfalso. apply I. now apply support_in. }
      split; [intros q Hq Nq; now apply Z|]. right. exists m. split; [now left|]. intros q Hq Nq. now apply Z. Qed.
