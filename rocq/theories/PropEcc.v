(** * PropEcc: the error-correcting-code framework (C47-C50, C57) *)
From Coq Require Import NArith ZArith Ring.
From Verif Require Export EccComp EccBits.
Local Open Scope nat_scope.

(** ** C47: qubits and classical bits *)
(** every operation of the mapped circuit acts on distinct qubits of the declared register.  For Q5Laflamme and Q7Steane the bits that are measured
    into have to have numbers of qubits, because they measure "qubit c into bit q" when asked to measure qubit q into bit c (see below) *)
Theorem C47_in_register : forall e n ncb freq gates circ, In e properCodes -> 0 < n -> Forall (iopIn n) gates -> (usesBits e -> Forall (bitsIn n) gates) ->
  apply e freq n ncb gates = Ok circ -> Forall (opIn (getNOutputQubits e n)) circ.
Proof. exact range_all. Qed.
Print Assumptions C47_in_register.
Example C47_in_register_nonvacuous : exists circ, apply q9Shor 2 3 3 [IGate GX [] [0]; IGate GX [(0, true)] [2]; IMeas [0; 1] [0; 1]; IGate GZ [] [1]] = Ok circ /\
  Forall (iopIn 3) [IGate GX [] [0]; IGate GX [(0, true)] [2]; IMeas [0; 1] [0; 1]; IGate GZ [] [1]] /\ length circ = 1019.
Proof. eexists. split; [vm_compute; reflexivity|]. split; [repeat (constructor; cbn; try lia)|]. vm_compute. reflexivity. Qed.
(** the qubits of different blocks, and the ancillas, are different qubits of the register *)
Theorem C47_blocks_disjoint : forall e n i j i' j' k, i < n -> i' < n -> j < e_red e -> j' < e_red e -> k < e_cor e ->
  (i + j * n = i' + j' * n -> i = i' /\ j = j') /\ i + j * n <> n * e_red e + k /\ i + j * n < getNOutputQubits e n /\ n * e_red e + k < getNOutputQubits e n.
Proof. intros e n i j i' j' k Hi Hi' Hj Hj' Hk. pose proof (pos_lt n (e_red e) i j Hi Hj). unfold getNOutputQubits. split; [now apply pos_inj|]. lia. Qed.
Print Assumptions C47_blocks_disjoint.
Example C47_blocks_nonvacuous : getNOutputQubits q7Steane 3 = 24 /\ getNOutputQubits q18Surface 2 = 72. Proof. split; reflexivity. Qed.
(** Q5Laflamme and Q7Steane exchange qubit and bit of a measurement: qubit 0 into bit 20 becomes a measurement of qubit 20, outside of the register *)
Theorem C47_measure_swapped_refuted : forall e, usesBits e -> exists circ, apply e 1 1 21 [IMeas [0] [20]] = Ok circ /\ iopIn 1 (IMeas [0] [20]) /\
  In (Meas 20 0) circ /\ ~ Forall (opIn (getNOutputQubits e 1)) circ.
Proof.
  intros e [->| ->]; (eexists; split; [vm_compute; reflexivity|]); (split; [repeat constructor|]); (split; [cbn; tauto|]); rewrite Forall_forall; intros H.
  - specialize (H (Meas 20 0) ltac:(cbn; tauto)). cbn in H. lia.
  - specialize (H (Meas 20 0) ltac:(cbn; tauto)). cbn in H. lia.
Qed.
Print Assumptions C47_measure_swapped_refuted.
(** and for every measurement of a decoded circuit *)
Theorem C47_measure_swapped : forall e n ncb qs cs, usesBits e -> e_map e n ncb (mkFl true true) (IMeas qs cs) = Ok (mkFl true true, measAll cs qs).
Proof. intros e n ncb qs cs [->| ->]; reflexivity. Qed.
Print Assumptions C47_measure_swapped.
(** classical bits: apart from the measurements of the input circuit, only the bits the code declares are used, and they do not overlap with those
    of the input circuit (the first [ncb]) *)
Definition ownBits : list (ecc * nat) := [(q3Shor, 2); (q9Shor, 8); (q5Laflamme, 5); (q7Steane, 3)].
Theorem C47_bits : forall e nb n ncb freq gates circ, In (e, nb) ownBits -> 0 < n -> apply e freq n ncb gates = Ok circ ->
  Forall (fun o => bitsOp ncb (ncb + nb) o \/ exists qs cs, In (IMeas qs cs) gates /\ (In o (measAll qs cs) \/ usesBits e /\ In o (measAll cs qs))) circ.
Proof.
  intros e nb n ncb freq gates circ He Hn Ha.
  assert (H : In e properCodes /\ codeBits e nb /\ decBits e nb /\ gateBits e /\ forall qs cs c, gateOf e n ncb (IMeas qs cs) = Ok c -> c = measAll qs cs \/ usesBits e /\ c = measAll cs qs).
  { cbn [ownBits In] in He. destruct He as [E|[E|[E|[E|[]]]]]; injection E as <- <-; (split; [cbn; tauto|]).
    - split; [apply q3_bits|]. split; [apply q3_bits|]. split; [apply q3_gb|]. intros qs cs c E. injection E as <-. now left.
    - split; [apply s9_bits|]. split; [apply s9_bits|]. split; [apply s9_gb|]. intros qs cs c E. injection E as <-. now left.
    - split; [apply l5_bits|]. split; [apply l5_bits|]. split; [apply l5_gb|]. intros qs cs c E. injection E as <-. right. split; [now left|reflexivity].
    - split; [apply s7_bits|]. split; [apply s7_bits|]. split; [apply s7_gb|]. intros qs cs c E. injection E as <-. right. split; [now right|reflexivity]. }
  destruct H as [Hp [Hc [Hd [Hg Hm]]]]. rewrite (apply_ok e n ncb freq (reg_all e n ncb Hp Hn)) in Ha.
  assert (Hs : forall g, In (PGate g) (schedule freq 0 false gates) -> In g gates) by (intros g; apply sched_gates).
  pose proof (bits_pieces e nb n ncb (schedule freq 0 false gates) Hc Hd Hg) as Hb. revert Ha Hs Hb. generalize (schedule freq 0 false gates). intros ps Ha Hs Hb.
  destruct (piecesOf e n ncb ps) as [c'|er] eqn:Ep; [|discriminate]. cbn [bind] in Ha. injection Ha as <-. apply Forall_app. split.
  - destruct (Hc n ncb) as [_ [H _]]. eapply Forall_impl; [|exact H]. intros o Ho. now left.
  - revert c' Ep. induction Hb as [|p ps Hb1 Hb2 IH]; intros c' Ep; [injection Ep as <-; apply Forall_nil|]. cbn [piecesOf] in Ep. destruct (pieceOf e n ncb p) as [c1|er] eqn:E1; [|discriminate]. cbn [bind] in Ep.
    destruct (piecesOf e n ncb ps) as [c2|er]; [|discriminate]. injection Ep as <-. apply Forall_app. split; [|apply IH; [intros g Hgin; apply Hs; now right|reflexivity]].
    assert (Hl : Forall (bitsOp ncb (ncb + nb)) c1 -> Forall (fun o => bitsOp ncb (ncb + nb) o \/ exists qs cs, In (IMeas qs cs) gates /\ (In o (measAll qs cs) \/ usesBits e /\ In o (measAll cs qs))) c1)
      by (intros H; eapply Forall_impl; [|exact H]; intros o Ho; now left).
    destruct p as [| | |[t ctl ts|qs cs| |]]; try exact (Hl (Hb1 _ eq_refl)). apply Forall_forall. intros o Ho. right. exists qs, cs. split; [apply Hs; now left|].
    destruct (Hm qs cs c1 E1) as [->|[Hu ->]]; auto.
Qed.
Print Assumptions C47_bits.
Example C47_bits_nonvacuous : exists circ, apply q7Steane 1 2 2 [IGate GH [] [1]; IMeas [1] [0]] = Ok circ /\ In (Meas 0 1) circ /\ In (Meas 15 3) circ /\ 0 < 2.
Proof. eexists. split; [vm_compute; reflexivity|]. split; [cbn; tauto|]. split; [cbn; tauto|lia]. Qed.
(** the surface codes write into the bits of the input circuit when they decode: a circuit without measurements, a mapped circuit that sets bit 0 *)
Theorem C47_surface_bits_refuted : forall e, e = q9Surface \/ e = q18Surface -> forall n ncb freq gates circ, 0 < n -> n <= ncb -> forallb (fun g => negb (isMeas g)) gates = true ->
  apply e freq n ncb gates = Ok circ -> forall i, i < n -> exists q, In (Meas q i) circ.
Proof.
  intros e He n ncb freq gates circ Hn Hncb Hm Ha i Hi. assert (Hp : In e properCodes) by (destruct He as [->| ->]; cbn; tauto).
  rewrite (apply_ok e n ncb freq (reg_all e n ncb Hp Hn)) in Ha. destruct (piecesOf e n ncb (schedule freq 0 false gates)) as [c'|er] eqn:Ep; [|discriminate]. cbn [bind] in Ha. injection Ha as <-.
  assert (Hd : exists q, In (Meas q i) (decodeOf e n ncb)).
  { destruct He as [->| ->]; [exists (i + 0 * n)|exists (i + 14 * n)]; unfold decodeOf; cbn [q9Surface q18Surface e_dec f9dec g18dec isDecoded snd]; unfold loop; apply in_flat_map; exists i; (split; [apply in_seq; lia|]); unfold f9decBlock, g18decBlock; cbn [map app In]; tauto. }
  destruct Hd as [q Hq]. exists q. apply in_app_iff. right.
  assert (Hl : forall gates k, forallb (fun g => negb (isMeas g)) gates = true -> exists ps, schedule freq k false gates = ps ++ [PDec]).
  { clear. induction gates as [|g gates IH]; intros k H; [exists [PRound]; reflexivity|]. cbn [forallb] in H. apply andb_true_iff in H. destruct H as [H1 H2]. apply negb_true_iff in H1. cbn [schedule]. rewrite H1. destruct (IH (k + 1) H2) as [ps ->]. rewrite !app_assoc. now eexists. }
  destruct (Hl gates 0 Hm) as [ps Es]. rewrite Es in Ep. rewrite piecesOf_app in Ep. destruct (piecesOf e n ncb ps) as [c1|er]; [|discriminate]. cbn [bind piecesOf pieceOf] in Ep. injection Ep as <-. apply in_app_iff. right. now rewrite app_nil_r.
Qed.
Print Assumptions C47_surface_bits_refuted.
Example C47_surface_bits_nonvacuous : exists circ, apply q9Surface 1 1 1 [IGate GX [] [0]] = Ok circ /\ In (Meas 8 0) circ. Proof. eexists. split; [vm_compute; reflexivity|]. cbn. tauto. Qed.

(** ** C48: every single-qubit error per block is corrected *)
Local Open Scope amp_scope.
Theorem C48_q3shor : corrects q3Shor q3stabs xKind /\ correctsLive q3Shor q3stabs [GX]. Proof. exact q3_corrects. Qed.
Print Assumptions C48_q3shor.
Theorem C48_q9shor : corrects q9Shor s9stabs (fun _ => True) /\ correctsLive q9Shor s9stabs [GX; GY; GZ]. Proof. exact s9_corrects. Qed.
Print Assumptions C48_q9shor.
Theorem C48_q5laflamme : corrects q5Laflamme l5stabs (fun _ => True) /\ correctsLive q5Laflamme l5stabs [GX; GY; GZ]. Proof. exact l5_corrects. Qed.
Print Assumptions C48_q5laflamme.
Theorem C48_q7steane : corrects q7Steane s7stabs (fun _ => True) /\ correctsLive q7Steane s7stabs [GX; GY; GZ]. Proof. exact s7_corrects. Qed.
Print Assumptions C48_q7steane.
Theorem C48_q9surface : corrects q9Surface f9stabs (fun _ => True) /\ correctsLive q9Surface f9stabs [GX; GY; GZ]. Proof. exact f9_corrects. Qed.
Print Assumptions C48_q9surface.
(** encoded states exist: the logical zeros, for any number of qubits *)
Example C48_nonvacuous : (forall n, exists f, logical0 n q3stabs q3log f) /\ (forall n, exists f, logical0 n s9stabs s9log f) /\ (forall n, exists f, logical0 n s7stabs s7log f) /\ (exists f, logical0 1 l5stabs l5log f).
Proof. split; [exact q3_exists|]. split; [exact s9_exists|]. split; [exact s7_exists|exact l5_exists]. Qed.
Example C48_f9_nonvacuous : exists f, encoded 1 f9stabs f /\ nz f.
Proof.
  destruct (showsZ_ok 17 (encodeOf q9Surface 1 0 (mkFl true false)) [] f9stabs 0%N ltac:(vm_compute; reflexivity) 0%N) as [[x Hx] Hf].
  eexists. split; [|exists x; exact Hx]. intros i l Hi Hl. replace i with 0%nat by lia. specialize (Hf l Hl). assert (Ew : gatesOf (fun j => 0 + j * 1)%nat l = word idn l) by (unfold gatesOf, word, idn; apply map_ext; intros p; now rewrite Nat.mul_1_r). rewrite Ew. exact Hf.
Qed.
(** Q3Shor is for bit flips: a phase flip is a logical operation, which no round notices *)
Theorem C48_q3shor_phase_refuted : forall n ncb i j f, i < n -> j < 3 -> encoded n q3stabs f -> forall cr rec,
  st (run (roundOf q3Shor n ncb) (mkConf cr rec (gate GZ [] (i + j * n)%nat f))) == st (run (roundOf q3Shor n ncb) (mkConf cr rec (onBlock n i (LZ q3log) f))).
Proof.
  intros n ncb i j f Hi Hj He cr rec. apply run_ext. assert (Z01 : forall x, gate GZ [] (i + 1 * n)%nat (gate GZ [] (i + 0 * n)%nat f) x = f x) by exact (He i (Zs [0; 1]) Hi ltac:(cbn; tauto)).
  assert (Z12 : forall x, gate GZ [] (i + 2 * n)%nat (gate GZ [] (i + 1 * n)%nat f) x = f x) by exact (He i (Zs [1; 2]) Hi ltac:(cbn; tauto)).
  assert (G : forall q x, gate GZ [] q f x = (if bit x q then - aone else aone) * f x).
  { intros q x. unfold gate. cbn [active forallb mat u2]. pose proof (upd_same x q) as E. destruct (bit x q); rewrite E; rewrite ?amul_0_l; ring. }
  assert (GG : forall q q' x, gate GZ [] q (gate GZ [] q' f) x = (if bit x q then - aone else aone) * ((if bit x q' then - aone else aone) * f x)).
  { intros q q' x. unfold gate at 1. cbn [active forallb mat u2]. pose proof (upd_same x q) as E. destruct (bit x q); rewrite E, amul_0_l, G; ring. }
  intros x. change (onBlock n i (LZ q3log) f x) with (gate GZ [] (i + 0 * n)%nat f x). specialize (Z01 x). specialize (Z12 x). rewrite GG in Z01, Z12. rewrite !G.
  assert (Q : forall b v w : amp, (b = aone \/ b = - aone) -> b * (w * v) = v -> b * v = w * v).
  { intros b v w Hb E. transitivity (b * (b * (w * v))); [now rewrite E|]. destruct Hb as [->| ->]; ring. }
  assert (S1 : (if bit x (i + 1 * n)%nat then - aone else aone) * f x = (if bit x (i + 0 * n)%nat then - aone else aone) * f x) by (apply Q; [destruct (bit x (i + 1 * n)%nat); auto|exact Z01]).
  assert (S2 : (if bit x (i + 2 * n)%nat then - aone else aone) * f x = (if bit x (i + 1 * n)%nat then - aone else aone) * f x) by (apply Q; [destruct (bit x (i + 2 * n)%nat); auto|exact Z12]).
  destruct j as [|[|[|j]]]; [reflexivity|exact S1|now rewrite S2|lia].
Qed.
Print Assumptions C48_q3shor_phase_refuted.
(** Q18Surface: data qubits 17, 32 and 34 of the block are not touched by any check, so nothing that happens to them is ever noticed *)
Theorem C48_q18surface_refuted : forall n ncb i j m f cr rec, i < n -> In j [17; 32; 34] -> In j g18data /\
  st (run (roundOf q18Surface n ncb) (mkConf cr rec (u2 m (i + j * n)%nat f))) == u2 m (i + j * n)%nat (st (run (roundOf q18Surface n ncb) (mkConf cr rec f))).
Proof.
  intros n ncb i j m f cr rec Hi Hj. split; [cbn in *; tauto|]. apply (run_comm _ m (i + j * n)%nat) with (c := mkConf cr rec f).
  apply forallb_forall. intros o Ho. unfold roundOf in Ho. cbn [q18Surface e_mc g18mc isDecoded gatesWritten snd] in Ho. unfold loop in Ho. apply in_flat_map in Ho. destruct Ho as [i' [Hi' Ho]]. apply in_seq in Hi'. cbn [orb] in Ho.
  assert (D : forall j', (j' =? j)%nat = false -> (i' + j' * n =? i + j * n)%nat = false) by (intros j' Hne; apply Nat.eqb_neq in Hne; apply Nat.eqb_neq; intros E; apply pos_inj in E; [|lia|lia]; tauto).
  unfold g18Block in Ho. rewrite !in_app_iff in Ho. destruct Ho as [Ho|[Ho|[Ho|Ho]]]; apply in_map_iff in Ho; destruct Ho as [p [<- Hp]]; cbn [avoids cx forallb fst snd andb].
  - rewrite D; [reflexivity|]. apply negb_true_iff. revert p Hp. apply forallb_forall. destruct Hj as [<-|[<-|[<-|[]]]]; vm_compute; reflexivity.
  - assert (Hne : ((fst p =? j) = false)%nat /\ ((snd p =? j) = false)%nat).
    { assert (Hb : negb ((fst p =? j) || (snd p =? j))%nat = true) by (revert p Hp; apply forallb_forall; destruct Hj as [<-|[<-|[<-|[]]]]; vm_compute; reflexivity).
      apply negb_true_iff, orb_false_iff in Hb. exact Hb. }
    rewrite (D _ (proj1 Hne)), (D _ (proj2 Hne)). reflexivity.
  - rewrite D; [reflexivity|]. apply negb_true_iff. revert p Hp. apply forallb_forall. destruct Hj as [<-|[<-|[<-|[]]]]; vm_compute; reflexivity.
  - rewrite D; [reflexivity|]. apply negb_true_iff. revert p Hp. apply forallb_forall. destruct Hj as [<-|[<-|[<-|[]]]]; vm_compute; reflexivity.
Qed.
Print Assumptions C48_q18surface_refuted.
(** in particular an X there is never corrected, although Q18Surface is documented to detect bit flips *)
Example C48_q18surface_nonvacuous : exists x, gate GX [] 17 ket0 x <> ket0 x. Proof. exists 0%N. vm_compute. discriminate. Qed.

(** ** C49: encoding and decoding *)
Theorem C49_q3shor : encodes q3Shor q3stabs q3log /\ decodes q3Shor q3stabs q3log /\ decodesEncoded q3Shor.
Proof. destruct q3_encdec as [H1 H2]. split; [exact H1|]. split; [exact H2|exact q3_comp]. Qed.
Print Assumptions C49_q3shor.
Theorem C49_q9shor : encodes q9Shor s9stabs s9log /\ decodes q9Shor s9stabs s9log /\ decodesEncoded q9Shor.
Proof. destruct s9_encdec as [H1 H2]. split; [exact H1|]. split; [exact H2|exact s9_comp]. Qed.
Print Assumptions C49_q9shor.
(** the state with all qubits 0 meets the hypotheses, and so does any product of it with states of the first qubits *)
Example C49_nonvacuous : forall n nd i, zeros n 1 nd ket0 /\ (i < n -> zeros n 1 nd (gate GH [] i ket0)).
Proof.
  intros n nd i. split; [intros i' j _ _ _; apply ket0_gateZ|]. intros Hi i' j Hi' H1 H2 x.
  assert (Hn : (i' + j * n)%nat <> i) by (intros E; assert (E2 : (i' + j * n = i + 0 * n)%nat) by lia; apply pos_inj in E2; lia).
  rewrite (gate_comm GZ [] (i' + j * n) GH [] i ket0) by (unfold apart; rewrite (proj2 (Nat.eqb_neq _ _) Hn); reflexivity).
  apply (after_ext [Gate GH [] i]). intros y. apply ket0_gateZ.
Qed.
(** the first encoding: from qubits that are 0 it makes logical zeros, whatever is measured *)
Theorem C49_first_encoding : (forall n, encodesZero q3Shor q3stabs q3log n) /\ (forall n, encodesZero q9Shor s9stabs s9log n) /\ (forall n, encodesZero q7Steane s7stabs s7log n) /\ encodesZero q5Laflamme l5stabs l5log 1.
Proof. split; [exact q3_zero|]. split; [exact s9_zero|]. split; [exact s7_zero|exact l5_zero]. Qed.
Print Assumptions C49_first_encoding.
Example C49_first_nonvacuous : forall e n, zeros n 0 (e_red e) ket0 /\ cleanAncillas e n ket0. Proof. intros e n. split; [apply ket0_zeros|apply ket0_clean]. Qed.
(** Q9Surface does not, nor does Q5Laflamme for more than one qubit *)
Theorem C49_first_encoding_refuted : ~ encodesZero q9Surface f9stabs f9log 1 /\ ~ encodesZero q5Laflamme l5stabs l5log 2.
Proof. split; [exact f9_not_zero|exact l5_not_zero]. Qed.
Print Assumptions C49_first_encoding_refuted.
(** a round brings every state into the code *)
Theorem C49_round_encodes : roundEncodes q3Shor q3stabs /\ roundEncodes q9Shor s9stabs /\ roundEncodes q5Laflamme l5stabs /\ roundEncodes q7Steane s7stabs.
Proof. split; [exact q3_roundEnc|]. split; [exact s9_roundEnc|]. split; [exact l5_roundEnc|exact s7_roundEnc]. Qed.
Print Assumptions C49_round_encodes.
(** decoding turns a measurement of the logical qubit into a measurement of its first qubit *)
Theorem C49_decoding_reads : decodesZ q3Shor q3stabs q3log /\ decodesZ q9Shor s9stabs s9log /\ decodesZ q5Laflamme l5stabs l5log /\ decodesZ q7Steane s7stabs s7log /\ decodesZ q9Surface f9stabs f9log.
Proof. split; [exact q3_decZ|]. split; [exact s9_decZ|]. split; [exact l5_decZ|]. split; [exact s7_decZ|exact f9_decZ]. Qed.
Print Assumptions C49_decoding_reads.
(** but Q7Steane and Q5Laflamme do not encode again what they have decoded: a qubit that was measured to be 1 is a logical 0 afterwards *)
Theorem C49_reencode_refuted : loses1 q7Steane s7stabs s7log (encodeOf q7Steane 1 0 (mkFl true true) ++ roundOf q7Steane 1 0) /\ loses1 q5Laflamme l5stabs l5log (encodeOf q5Laflamme 1 0 (mkFl true true)).
Proof. split; [exact s7_loses|exact l5_loses]. Qed.
Print Assumptions C49_reencode_refuted.
Example C49_reencode_nonvacuous : forall e, let f := gate GX [] 0 ket0 in isOne 0 f /\ zeros 1 1 (e_red e) f /\ (0 < e_red e -> cleanAncillas e 1 f) /\ f 1%N = aone.
Proof.
  intros e f. assert (Q : forall q, q <> 0%nat -> gate GZ [] q f == f).
  { intros q Hq x. unfold f. rewrite (gate_comm GZ [] q GX [] 0 ket0) by (unfold apart; rewrite (proj2 (Nat.eqb_neq _ _) Hq); reflexivity). apply (after_ext [Gate GX [] 0]). intros y. apply ket0_gateZ. }
  split; [|split; [|split; [|vm_compute; reflexivity]]].
  - intros x. unfold f. pose proof (opposite_ok 1 idn (idn_inj 1) [(GX, 0); (GZ, 0)] [(GZ, 0); (GX, 0)] ket0 ltac:(vm_compute; reflexivity) x) as G.
    change (gate GZ [] 0 (gate GX [] 0 ket0) x = scale (- aone) (gate GX [] 0 (gate GZ [] 0 ket0)) x) in G. rewrite G. unfold scale. f_equal. apply (after_ext [Gate GX [] 0]). intros y. apply ket0_gateZ.
  - intros i j Hi H1 H2. apply Q. lia.
  - intros H q Hq. apply Q. unfold ancillas in Hq. apply in_map_iff in Hq. destruct Hq as [j [<- _]]. lia.
Qed.

(** ** C50: when the rounds happen *)
Local Open Scope nat_scope.
(** the mapped circuit is the first encoding and the pieces of the schedule *)
Theorem C50_schedule : forall e n ncb freq gates, In e properCodes -> 0 < n ->
  apply e freq n ncb gates = (let* c := piecesOf e n ncb (schedule freq 0 false gates) in Ok (encodeOf e n ncb (mkFl true false) ++ c)).
Proof. intros e n ncb freq gates He Hn. apply apply_ok. now apply reg_all. Qed.
Print Assumptions C50_schedule.
(** without measurements: a round after every freq-th gate and one at the end, one decoding, no further encoding *)
Theorem C50_count : forall freq gates, 0 < freq -> forallb (fun g => negb (isMeas g)) gates = true ->
  countP isRound (schedule freq 0 false gates) = length gates / freq + 1 /\ countP isDec (schedule freq 0 false gates) = 1 /\ countP isEnc (schedule freq 0 false gates) = 0.
Proof. intros freq gates Hf Hg. destruct (rounds_count freq gates Hf Hg 0) as [H1 [H2 H3]]. split; [|split; assumption]. rewrite H1. rewrite Nat.div_0_l by lia. cbn [Nat.add]. lia. Qed.
Print Assumptions C50_count.
(** frequency 0 means no rounds in between *)
Theorem C50_frequency_zero : forall gates k, forallb (fun g => negb (isMeas g)) gates = true -> countP isRound (schedule 0 k false gates) = 1.
Proof. induction gates as [|g gates IH]; intros k H; [reflexivity|]. cbn [forallb] in H. apply andb_true_iff in H. destruct H as [H1 H2]. apply negb_true_iff in H1. cbn [schedule]. rewrite H1. cbn [negb andb app Nat.ltb Nat.leb]. exact (IH (k + 1) H2). Qed.
Print Assumptions C50_frequency_zero.
(** with measurements: rounds happen only in the encoded state, measurements only in the decoded state, and the circuit ends decoded *)
Theorem C50_alternates : forall freq gates, alternates false (schedule freq 0 false gates). Proof. intros. apply schedule_alternates. Qed.
Print Assumptions C50_alternates.
(** each gate of the input circuit occurs once, in order *)
Theorem C50_gates_kept : forall freq gates k d, flat_map (fun p => match p with PGate g => [g] | _ => [] end) (schedule freq k d gates) = gates.
Proof.
  intros freq gates. induction gates as [|g gates IH]; intros k d; [destruct d; reflexivity|]. cbn [schedule]. rewrite !flat_map_app, IH. destruct (isMeas g), d; cbn [flat_map app]; try reflexivity; cbn [negb andb]; destruct (0 <? freq); try reflexivity; cbn [andb]; destruct ((k + 1) mod freq =? 0); reflexivity.
Qed.
Print Assumptions C50_gates_kept.
(** the identity code leaves the circuit as it is *)
Theorem C50_identity : forall freq n ncb gates, apply idEcc freq n ncb gates = Ok (flat_map copyGate gates).
Proof.
  intros freq n ncb gates. unfold apply, idEcc. cbn [e_enc]. set (e := mkEcc _ _ _ _ _ _).
  assert (H : forall k fl, applyGates e freq n ncb k fl gates = Ok (fl, flat_map copyGate gates)).
  { induction gates as [|g gates IH]; intros k fl; [reflexivity|]. cbn [applyGates]. change (e_map e n ncb fl g) with (@Ok (flags * list op) (fl, copyGate g)). cbn [bind].
    change (e_mc e n ncb fl) with (fl, @nil op). destruct ((0 <? freq) && (S k mod freq =? 0)); rewrite IH; reflexivity. }
  rewrite H. cbn [bind isDecoded]. cbn. now rewrite !app_nil_r.
Qed.
Print Assumptions C50_identity.
Example C50_nonvacuous : schedule 2 0 false [IGate GX [] [0]; IGate GX [] [1]; IMeas [0] [0]; IGate GZ [] [1]; INone] =
  [PGate (IGate GX [] [0]); PGate (IGate GX [] [1]); PRound; PRound; PDec; PGate (IMeas [0] [0]); PEnc; PGate (IGate GZ [] [1]); PRound; PGate INone; PRound; PDec].
Proof. reflexivity. Qed.

(** ** C57: logical operations *)
Local Open Scope amp_scope.
Theorem C57_good : goodLogicals q3stabs q3log /\ goodLogicals s9stabs s9log /\ goodLogicals l5stabs l5log /\ goodLogicals s7stabs s7log /\ goodLogicals f9stabs f9log.
Proof. split; [exact q3_good|]. split; [exact s9_good|]. split; [exact l5_good|]. split; [exact s7_good|exact f9_good]. Qed.
Print Assumptions C57_good.
Theorem C57_paulis : forall g, In g [GX; GY; GZ] ->
  implements q3Shor q3stabs q3log g /\ implements q9Shor s9stabs s9log g /\ implements q5Laflamme l5stabs l5log g /\ implements q7Steane s7stabs s7log g /\ implements q9Surface f9stabs f9log g.
Proof.
  intros g [<-|[<-|[<-|[]]]].
  - split; [exact q3_X|]. split; [exact s9_X|]. split; [exact l5_X|]. split; [exact s7_X|exact f9_X_].
  - split; [exact q3_Y|]. split; [exact s9_Y|]. split; [exact l5_Y|]. split; [exact s7_Y|exact f9_Y_].
  - split; [exact q3_Z|]. split; [exact s9_Z|]. split; [exact l5_Z|]. split; [exact s7_Z|exact f9_Z_].
Qed.
Print Assumptions C57_paulis.
Theorem C57_steane : forall g, In g [GH; GS; GSdg; GT; GTdg] -> implements q7Steane s7stabs s7log g.
Proof. intros g [<-|[<-|[<-|[<-|[<-|[]]]]]]; [exact s7_H|exact s7_S|exact s7_Sdg|exact s7_T_|exact s7_Tdg]. Qed.
Print Assumptions C57_steane.
Theorem C57_controlled : implementsC q3Shor q3stabs q3log GX /\ implementsC q3Shor q3stabs q3log GZ /\ implementsC q7Steane s7stabs s7log GX /\ implementsC q7Steane s7stabs s7log GZ /\ implementsC q9Shor s9stabs s9log GX.
Proof. split; [exact q3_CX|]. split; [exact q3_CZ|]. split; [exact s7_CX|]. split; [exact s7_CZ|exact s9_CX]. Qed.
Print Assumptions C57_controlled.
(** what else the documentation ticks: Q3Shor's S, S-dagger, T, T-dagger are diag(1, -i), diag(1, i), diag(1, w^3), diag(1, w^-3) *)
Theorem C57_q3_phases : acts q3Shor q3stabs q3log GS (phase (- aI)) /\ acts q3Shor q3stabs q3log GSdg (phase aI) /\ acts q3Shor q3stabs q3log GT (phase (aW * aI)) /\ acts q3Shor q3stabs q3log GTdg (phase (- aW)).
Proof. split; [exact q3_S|]. split; [exact q3_Sdg|]. split; [exact q3_T|exact q3_Tdg]. Qed.
Print Assumptions C57_q3_phases.
Theorem C57_q3_phases_refuted : forall g, In g [GS; GSdg; GT; GTdg] -> ~ implements q3Shor q3stabs q3log g.
Proof. intros g [<-|[<-|[<-|[<-|[]]]]]; [exact q3_not_S|exact q3_not_Sdg|exact q3_not_T|exact q3_not_Tdg]. Qed.
Print Assumptions C57_q3_phases_refuted.
(** controlled Y of Q3Shor and Q7Steane is controlled -Y *)
Theorem C57_controlled_y_refuted : (actsC q3Shor q3stabs q3log GY mY /\ ~ implementsC q3Shor q3stabs q3log GY) /\ (actsC q7Steane s7stabs s7log GY mY /\ ~ implementsC q7Steane s7stabs s7log GY).
Proof. split; split; [exact q3_CY|exact q3_not_CY|exact s7_CY|exact s7_not_CY]. Qed.
Print Assumptions C57_controlled_y_refuted.
(** Q9Shor's controlled Y and Z and Q9Surface's Hadamard take every encoded state out of the code *)
Theorem C57_leaves_code_refuted : leavesCodeC q9Shor s9stabs GZ /\ leavesCodeC q9Shor s9stabs GY /\ leavesCode q9Surface f9stabs GH.
Proof. split; [exact s9_CZ_leaves|]. split; [exact s9_CY_leaves|exact f9_H_leaves]. Qed.
Print Assumptions C57_leaves_code_refuted.
(** Q9Surface throws for every controlled gate, Q3Shor for the Hadamard gate *)
Theorem C57_unavailable_refuted : forall n ncb g p ctl ts, gateOf q9Surface n ncb (IGate g (p :: ctl) ts) = unavailable /\ gateOf q3Shor n ncb (IGate GH [] ts) = unavailable.
Proof. intros. split; [destruct g; reflexivity|reflexivity]. Qed.
Print Assumptions C57_unavailable_refuted.
(** Q18Surface: X and Z act on different qubits and commute, so there is no code with a non-zero state for which they are logical X and Z *)
Theorem C57_q18_refuted : ~ exists stabs L, goodLogicals stabs L /\ (exists n f, 0 < n /\ encoded n stabs f /\ nz f) /\ implements q18Surface stabs L GX /\ implements q18Surface stabs L GZ.
Proof.
  intros [stabs [L [Hg [[n [f [Hn [He Hf]]]] [[c1 [k1 [Hc1 [Hk1 A1]]]] [c2 [k2 [Hc2 [Hk2 A2]]]]]]]]].
  set (X := flat_map (fun i => surfGate g18data g18LX g18LZ g18swaps GX (fun j => i + j * n)%nat) [0%nat]). set (Z := flat_map (fun i => surfGate g18data g18LX g18LZ g18swaps GZ (fun j => i + j * n)%nat) [0%nat]).
  destruct (Hg n 0%nat f Hn He) as [Ex [Ez [XX [ZZ XZ]]]].
  assert (Bx : forall g, encoded n stabs g -> scale c1 (after X g) == scale (k1 * a2) (onBlock n 0 (LX L) g)).
  { intros g Eg. destruct (A1 n 0%nat 0%nat g Hn Eg) as [circ [Em H]]. assert (Ec : circ = X) by (apply (f_equal (fun r => match r with Ok (_, c) => c | Err _ => [] end)) in Em; symmetry; exact Em). rewrite Ec in H. intros x. rewrite (H x). unfold scale, logical, mat, a2. transitivity (k1 * ((azero + azero) * g x + (aone + aone) * onBlock n 0 (LX L) g x + (aone - aone) * onBlock n 0 (LX L) (onBlock n 0 (LZ L) g) x + (azero - azero) * onBlock n 0 (LZ L) g x)); [reflexivity|ring]. }
  assert (Bz : forall g, encoded n stabs g -> scale c2 (after Z g) == scale (k2 * a2) (onBlock n 0 (LZ L) g)).
  { intros g Eg. destruct (A2 n 0%nat 0%nat g Hn Eg) as [circ [Em H]]. assert (Ec : circ = Z) by (apply (f_equal (fun r => match r with Ok (_, c) => c | Err _ => [] end)) in Em; symmetry; exact Em). rewrite Ec in H. intros x. rewrite (H x). unfold scale, logical, mat, a2. transitivity (k2 * ((aone - aone) * g x + (azero + azero) * onBlock n 0 (LX L) g x + (azero - azero) * onBlock n 0 (LX L) (onBlock n 0 (LZ L) g) x + (aone - - aone) * onBlock n 0 (LZ L) g x)); [reflexivity|ring]. }
  assert (C : after X (after Z f) == after Z (after X f)).
  { apply circ_comm; [reflexivity|]. unfold X, Z. cbn [flat_map surfGate g18LX g18LZ map app forallb z_ x_ apartOp apart fst]. unfold apart. cbn [forallb]. rewrite !andb_true_r, !andb_true_iff. repeat split; apply negb_true_iff, Nat.eqb_neq; lia. }
  assert (P1 : scale (c1 * c2) (after X (after Z f)) == scale (k1 * a2 * (k2 * a2)) (onBlock n 0 (LX L) (onBlock n 0 (LZ L) f))).
  { intros x. transitivity (c1 * after X (scale c2 (after Z f)) x); [rewrite (after_scale X c2 _ x); unfold scale; ring|]. rewrite (after_ext X _ _ (Bz f He) x), (after_scale X _ _ x). pose proof (Bx _ Ez x) as G. unfold scale in *. transitivity (k2 * a2 * (c1 * after X (onBlock n 0 (LZ L) f) x)); [ring|]. rewrite G. ring. }
  assert (P2 : scale (c1 * c2) (after Z (after X f)) == scale (k1 * a2 * (k2 * a2)) (onBlock n 0 (LZ L) (onBlock n 0 (LX L) f))).
  { intros x. transitivity (c2 * after Z (scale c1 (after X f)) x); [rewrite (after_scale Z c1 _ x); unfold scale; ring|]. rewrite (after_ext Z _ _ (Bx f He) x), (after_scale Z _ _ x). pose proof (Bz _ Ex x) as G. unfold scale in *. transitivity (k1 * a2 * (c2 * after Z (onBlock n 0 (LX L) f) x)); [ring|]. rewrite G. ring. }
  assert (N1 : nz (onBlock n 0 (LZ L) (onBlock n 0 (LX L) f))) by (apply word_nz, word_nz, Hf). destruct N1 as [x Hx]. apply Hx. set (v := onBlock n 0 (LZ L) (onBlock n 0 (LX L) f) x) in *.
  assert (E : k1 * a2 * (k2 * a2) * (a2 * v) = azero).
  { pose proof (P1 x) as Q1. pose proof (P2 x) as Q2. pose proof (XZ x) as Q3. unfold scale in Q1, Q2, Q3. fold v in Q2, Q3. rewrite Q3 in Q1. rewrite (C x) in Q1. rewrite Q2 in Q1. unfold a2 at 3. transitivity (k1 * a2 * (k2 * a2) * v - k1 * a2 * (k2 * a2) * (- aone * v)); [ring|]. rewrite <- Q1. ring. }
  apply amul_integral in E. destruct E as [E|E].
  - exfalso. apply amul_integral in E. destruct E as [E|E]; apply amul_integral in E; destruct E as [E|E]; try contradiction; discriminate.
  - apply amul_integral in E. destruct E as [E|E]; [discriminate|exact E].
Qed.
Print Assumptions C57_q18_refuted.
