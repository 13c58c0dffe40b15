(** * OneFault: Pauli frames through the verification part of a circuit, with at most one fault in it *)
From Verif Require Export VerifyProofs2.
From Coq Require Import Permutation.
Local Open Scope nat_scope.

(** ** splitting circuits with faults *)
Lemma wf_split N k L1 : forall L2 F, with_faults N k (L1 ++ L2) F -> exists k1 k2 F1 F2, k = k1 + k2 /\ F = F1 ++ F2 /\ with_faults N k1 L1 F1 /\ with_faults N k2 L2 F2.
Proof. revert k. induction L1 as [|i L1 IH]; intros k L2 F W; [exists 0, k, [], F; repeat split; auto; constructor|]. cbn [app] in W. inversion W; subst.
  - destruct (IH _ _ _ H3) as (k1 & k2 & F1 & F2 & -> & -> & W1 & W2). exists k1, k2, (inl i :: F1), F2. repeat split; auto. now constructor.
  - destruct (IH _ _ _ H5) as (k1 & k2 & F1 & F2 & -> & -> & W1 & W2). exists (S k1), k2, (inr p :: inl i :: F1), F2. repeat split; auto. now constructor.
  - destruct (IH _ _ _ H5) as (k1 & k2 & F1 & F2 & -> & -> & W1 & W2). exists (S k1), k2, (inl i :: inr p :: F1), F2. repeat split; auto. now constructor. Qed.
Lemma wf_split1 N L1 L2 F : with_faults N 1 (L1 ++ L2) F -> (exists F1, F = F1 ++ map inl L2 /\ with_faults N 1 L1 F1) \/ (exists F2, F = map inl L1 ++ F2 /\ with_faults N 1 L2 F2).
Proof. intros W. destruct (wf_split N 1 L1 L2 F W) as ([|[|k1]] & k2 & F1 & F2 & E & -> & W1 & W2); [| |lia].
  - right. assert (k2 = 1) by lia. subst. apply wf_zero in W1. subst F1. exists F2. auto.
  - left. assert (k2 = 0) by lia. subst. apply wf_zero in W2. subst F2. exists F1. auto. Qed.
(** one fault: the frame is that of an operator after the faulty instruction *)
Lemma one_fault_frame N L F : Forall (ins_ok N) L -> with_faults N 1 L F -> exists L1 i L2 p, L = L1 ++ i :: L2 /\ p_ok N p /\ p_supp p (qubits i) /\ fst (frame F (p_id N)) = fst (frame (map inl L2) p).
Proof. intros OK W. destruct (wf_one N L F W) as (L1 & i & L2 & p & -> & PO & PS & EF). apply Forall_app in OK as [O1 O2]. apply Forall_cons_iff in O2 as [Oi O2]. destruct EF as [-> | ->].
  - exists L1, i, L2, (fstep i p). split; auto. split; [now apply fstep_ok|]. split; [apply (fstep_supp (qubits i) i p N); auto using incl_refl|]. rewrite frame_one by auto. reflexivity.
  - exists L1, i, L2, p. split; auto. split; auto. split; auto. rewrite frame_one by (auto; apply Forall_app; auto). reflexivity. Qed.

(** ** quiet parts of the circuit *)
Definition zero_at (p : pauli) (q : nat) : Prop := nth q (fst p) false = false /\ nth q (snd p) false = false.
Definition same_at (p p' : pauli) (q : nat) : Prop := nth q (fst p') false = nth q (fst p) false /\ nth q (snd p') false = nth q (snd p) false.
Definition quiet (l : list bool) : Prop := forall b, In b l -> b = false.
Definition fr (L : list ins) (p : pauli) : pauli * list bool := frame (map inl L) p.
(** L leaves operators alone that do not touch its ancillas A *)
Definition passes (N : nat) (A : list nat) (L : list ins) : Prop :=
  forall p, p_ok N p -> (forall q, In q A -> zero_at p q) -> forall q, ~ In q A -> same_at p (fst (fr L p)) q.
(** L reads the parities of the operator with the supports of ms *)
Definition reads (N : nat) (A : list nat) (L : list ins) (z : bool) (ms : list vec) : Prop :=
  forall p, p_ok N p -> (forall q, In q A -> zero_at p q) -> quiet (snd (fr L p)) -> forall m, In m ms -> par (support m) (tc z p) = false.
Lemma fr_app L1 L2 p : fr (L1 ++ L2) p = (fst (fr L2 (fst (fr L1 p))), snd (fr L1 p) ++ snd (fr L2 (fst (fr L1 p)))).
Proof. unfold fr. rewrite map_app. apply frame_app. Qed.
Lemma fr_ok N L p : Forall (ins_ok N) L -> p_ok N p -> p_ok N (fst (fr L p)).
Proof. intros O P. unfold fr. apply frame_ok; auto. apply Forall_map. exact O. Qed.
Lemma quiet_app l m : quiet (l ++ m) <-> quiet l /\ quiet m.
Proof. unfold quiet. split; [intros H; split; intros b Hb; apply H, in_app_iff; auto|]. intros [H1 H2] b Hb. apply in_app_iff in Hb as [Hb|Hb]; auto. Qed.
Lemma zero_same p p' q : same_at p p' q -> zero_at p q -> zero_at p' q.
Proof. intros [H1 H2] [Z1 Z2]. split; congruence. Qed.
Lemma par_same z l p p' : (forall q, In q l -> same_at p p' q) -> par l (tc z p') = par l (tc z p).
Proof. intros H. apply par_ext. intros q Hq. destruct (H q Hq) as [H1 H2]. destruct z; cbn [tc]; auto. Qed.
Lemma passes_app N A1 A2 L1 L2 : Forall (ins_ok N) L1 -> (forall q, In q A1 -> ~ In q A2) -> passes N A1 L1 -> passes N A2 L2 -> passes N (A1 ++ A2) (L1 ++ L2).
Proof. intros O1 D P1 P2 p PO Z q NQ. rewrite fr_app. cbn [fst]. assert (Z1 : forall q, In q A1 -> zero_at p q) by (intros; apply Z, in_app_iff; auto).
  assert (N1 : ~ In q A1) by (intros I; apply NQ, in_app_iff; auto). assert (N2 : ~ In q A2) by (intros I; apply NQ, in_app_iff; auto).
  destruct (P1 p PO Z1 q N1) as [E1 E2]. assert (Z2 : forall r, In r A2 -> zero_at (fst (fr L1 p)) r). { intros r Hr. apply (zero_same p); [apply P1; auto; intros I; exact (D r I Hr)|apply Z, in_app_iff; auto]. }
  destruct (P2 (fst (fr L1 p)) (fr_ok N L1 p O1 PO) Z2 q N2) as [E3 E4]. split; congruence. Qed.
Lemma reads_app N A1 A2 L1 L2 z ms1 ms2 : Forall (ins_ok N) L1 -> (forall q, In q A1 -> ~ In q A2) -> (forall m q, In m ms2 -> In q (support m) -> ~ In q A1) -> passes N A1 L1 ->
  reads N A1 L1 z ms1 -> reads N A2 L2 z ms2 -> reads N (A1 ++ A2) (L1 ++ L2) z (ms1 ++ ms2).
Proof. intros O1 D DM P1 R1 R2 p PO Z Q m Hm. rewrite fr_app in Q. cbn [snd] in Q. apply quiet_app in Q as [Q1 Q2]. assert (Z1 : forall q, In q A1 -> zero_at p q) by (intros; apply Z, in_app_iff; auto).
  apply in_app_iff in Hm as [Hm|Hm]; [now apply (R1 p)|].
  assert (Z2 : forall r, In r A2 -> zero_at (fst (fr L1 p)) r). { intros r Hr. apply (zero_same p); [apply P1; auto; intros I; exact (D r I Hr)|apply Z, in_app_iff; auto]. }
  rewrite <- (par_same z (support m) p (fst (fr L1 p))); [now apply (R2 (fst (fr L1 p)) (fr_ok N L1 p O1 PO))|]. intros q Hq. apply P1; auto. now apply (DM m). Qed.
Lemma reads_prefix N A L1 L2 z ms : reads N A L1 z ms -> reads N A (L1 ++ L2) z ms.
Proof. intros R p PO Z Q. rewrite fr_app in Q. cbn [snd] in Q. apply quiet_app in Q as [Q1 _]. now apply R. Qed.

(** ** a part of the circuit with one fault: an alarm, or an operator with property Q on the data and nothing outside A *)
Record part (N n : nat) (A : list nat) (L : list ins) (Q : pauli -> Prop) : Prop := {
  pt_ok : Forall (ins_ok N) L;
  pt_anc : forall q, In q A -> n <= q;
  pt_pass : passes N A L;
  pt_fault : forall F, with_faults N 1 L F -> quiet (snd (frame F (p_id N))) -> (forall q, n <= q -> ~ In q A -> zero_at (fst (frame F (p_id N))) q) /\ Q (fst (frame F (p_id N))) }.
(** Q depends on the first n qubits only *)
Definition local (N n : nat) (Q : pauli -> Prop) : Prop := forall p p', p_ok N p -> p_ok N p' -> (forall q, q < n -> same_at p p' q) -> Q p -> Q p'.
Lemma part_app N n A1 A2 L1 L2 Q : local N n Q -> (forall q, In q A1 -> ~ In q A2) -> part N n A1 L1 Q -> part N n A2 L2 Q -> part N n (A1 ++ A2) (L1 ++ L2) Q.
Proof. intros LQ D [O1 C1 P1 F1] [O2 C2 P2 F2]. split.
  - apply Forall_app. auto.
  - intros q Hq. apply in_app_iff in Hq as [Hq|Hq]; auto.
  - now apply passes_app.
  - intros F W QU. destruct (wf_split1 N L1 L2 F W) as [(G & -> & WG)|(G & -> & WG)].
    + rewrite frame_app in *. cbn [fst snd] in *. apply quiet_app in QU as [QU _]. destruct (F1 G WG QU) as [Z HQ]. set (p := fst (frame G (p_id N))) in *.
      assert (PO : p_ok N p) by (apply frame_ok; [apply (wf_fok N 1 L1); auto|apply p_id_ok]).
      assert (CL : forall q, In q A2 -> zero_at p q) by (intros q Hq; apply Z; auto; intros I; exact (D q I Hq)). pose proof (P2 p PO CL) as PP. unfold fr in PP. split.
      * intros q Hn NQ. apply (zero_same p); [apply PP; intros I; apply NQ, in_app_iff; auto|]. apply Z; auto. intros I. apply NQ, in_app_iff. auto.
      * apply (LQ p); auto; [apply (fr_ok N L2 p O2 PO)|]. intros q Hq. apply PP. intros I. apply C2 in I. lia.
    + rewrite frame_app, frame_id in * by auto. cbn [fst snd] in *. apply quiet_app in QU as [_ QU]. destruct (F2 G WG QU) as [Z HQ]. split; auto. intros q Hn NQ. apply Z; auto. intros I. apply NQ, in_app_iff. auto. Qed.
Lemma part_weaken N n A A' L Q : incl A A' -> (forall q, In q A' -> n <= q) -> part N n A L Q -> part N n A' L Q.
Proof. intros I C [O1 C1 P1 F1]. split; auto.
  - intros p PO Z q NQ. apply P1; auto.
  - intros F W QU. destruct (F1 F W QU) as [Z HQ]. split; auto. Qed.
Lemma part_nil N n Q : part N n [] [] Q.
Proof. split; [constructor|intros q []|intros p PO Z q _; split; reflexivity|]. intros F W. inversion W. Qed.
(** measurements leave the frame alone *)
Definition is_im (i : ins) : Prop := match i with IM _ _ => True | _ => False end.
Lemma fr_im L p : Forall is_im L -> fst (fr L p) = p.
Proof. unfold fr. induction 1 as [|i L Hi HL IH]; auto. destruct i; try contradiction. exact IH. Qed.
Lemma part_im N n A L T Q : local N n Q -> Q (p_id N) -> part N n A L Q -> Forall is_im T -> Forall (ins_ok N) T -> Forall (fun i => incl (qubits i) A) T -> part N n A (L ++ T) Q.
Proof. intros LQ Q0 [O1 C1 P1 F1] IT OT AT. split; [apply Forall_app; auto|auto| |].
  - intros p PO Z q NQ. rewrite fr_app. cbn [fst]. rewrite fr_im by auto. now apply P1.
  - intros F W QU. destruct (wf_split1 N L T F W) as [(G & -> & WG)|(G & -> & WG)].
    + rewrite frame_app in *. cbn [fst snd] in *. apply quiet_app in QU as [QU _]. destruct (F1 G WG QU) as [Z HQ]. fold (fr T (fst (frame G (p_id N)))). rewrite fr_im by auto. auto.
    + rewrite frame_app, frame_id in * by auto. cbn [fst snd] in *. destruct (one_fault_frame N T G OT WG) as (T1 & i & T2 & p & -> & PO & PS & ->). fold (fr T2 p). apply Forall_app in IT as [_ IT]. apply Forall_cons_iff in IT as [_ IT]. rewrite fr_im by auto.
      apply Forall_app in AT as [_ AT]. apply Forall_cons_iff in AT as [Ai _].
      assert (Z : forall q, ~ In q A -> zero_at p q) by (intros q NQ; apply PS; intros I; apply NQ, Ai, I). split; [auto|]. apply (LQ (p_id N)); auto using p_id_ok. intros q Hq. assert (NA : ~ In q A) by (intros I; apply C1 in I; lia). destruct (Z q NA). split; cbn; rewrite nth_vzero; auto. Qed.
