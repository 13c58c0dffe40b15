(** * EccStruct: the shape of the mapped circuit (C47, C50) *)
From Verif Require Export EccSpec.
Local Open Scope nat_scope.

(** ** Specification: which pieces the mapped circuit consists of *)
Inductive piece := PEnc | PRound | PDec | PGate (g : iop).
Definition isMeas (g : iop) : bool := match g with IMeas _ _ => true | _ => false end.
(** [d]: the qubits are decoded at the moment; [k]: number of gates before *)
Fixpoint schedule (freq k : nat) (d : bool) (gates : list iop) : list piece :=
  match gates with
  | [] => if d then [] else [PRound; PDec]
  | g :: gates' =>
      (if isMeas g then (if d then [] else [PRound; PDec]) else (if d then [PEnc] else [])) ++ [PGate g] ++
      (if negb (isMeas g) && (0 <? freq) && ((k + 1) mod freq =? 0) then [PRound] else []) ++ schedule freq (k + 1) (isMeas g) gates'
  end.
(** the circuits of the pieces; a gate is mapped in the encoded, a measurement in the decoded state *)
Definition gateOf (e : ecc) (n ncb : nat) (g : iop) : result (list op) := let* (_, c) := e_map e n ncb (mkFl (isMeas g) true) g in Ok c.
Definition pieceOf (e : ecc) (n ncb : nat) (p : piece) : result (list op) :=
  match p with
  | PEnc => Ok (encodeOf e n ncb (mkFl true true))
  | PRound => Ok (roundOf e n ncb)
  | PDec => Ok (decodeOf e n ncb)
  | PGate g => gateOf e n ncb g
  end.
Fixpoint piecesOf (e : ecc) (n ncb : nat) (ps : list piece) : result (list op) :=
  match ps with [] => Ok [] | p :: ps' => let* c := pieceOf e n ncb p in let* c' := piecesOf e n ncb ps' in Ok (c ++ c') end.
Definition properCodes : list ecc := [q3Shor; q9Shor; q5Laflamme; q7Steane; q9Surface; q18Surface].

(** ** Proofs *)
Lemma piecesOf_app e n ncb ps qs : piecesOf e n ncb (ps ++ qs) = (let* c := piecesOf e n ncb ps in let* c' := piecesOf e n ncb qs in Ok (c ++ c')).
Proof.
  induction ps as [|p ps IHp]; [cbn [app piecesOf]; destruct (piecesOf e n ncb qs); reflexivity|]. cbn [app piecesOf]. destruct (pieceOf e n ncb p) as [c|er]; cbn [bind]; [|reflexivity]. rewrite IHp.
  destruct (piecesOf e n ncb ps) as [c'|er]; cbn [bind]; [|reflexivity]. destruct (piecesOf e n ncb qs) as [c''|er]; cbn [bind]; [|reflexivity]. now rewrite app_assoc.
Qed.
(** what the codes have in common *)
Record regular (e : ecc) (n ncb : nat) : Prop := {
  r_enc0 : fst (e_enc e n ncb (mkFl true false)) = mkFl (isDecoded (fst (e_enc e n ncb (mkFl true false)))) true;
  r_mc : e_mc e n ncb (mkFl false true) = (mkFl false true, roundOf e n ncb);
  r_mcD : e_mc e n ncb (mkFl true true) = (mkFl true true, []);
  r_dec : e_dec e n ncb (mkFl false true) = (mkFl true true, decodeOf e n ncb);
  r_gate : forall g, isMeas g = false -> e_map e n ncb (mkFl false true) g = (let* c := gateOf e n ncb g in Ok (mkFl false true, c));
  r_gateD : forall g, isMeas g = false -> e_map e n ncb (mkFl true true) g = (let* c := gateOf e n ncb g in Ok (mkFl false true, encodeOf e n ncb (mkFl true true) ++ c));
  r_meas : forall g, isMeas g = true -> e_map e n ncb (mkFl true true) g = (let* c := gateOf e n ncb g in Ok (mkFl true true, c));
  r_measD : forall g, isMeas g = true -> e_map e n ncb (mkFl false true) g = (let* c := gateOf e n ncb g in Ok (mkFl true true, roundOf e n ncb ++ decodeOf e n ncb ++ c)) }.
Ltac reg := constructor; [try reflexivity|try reflexivity|try reflexivity|try reflexivity|
  intros g Hg; destruct g as [t ctl ts|qs cs| |]; try discriminate Hg; unfold gateOf; cbn [isMeas]; try reflexivity; destruct t; try reflexivity; destruct ctl; try reflexivity; destruct ts; reflexivity|
  intros g Hg; destruct g as [t ctl ts|qs cs| |]; try discriminate Hg; unfold gateOf; cbn [isMeas]; try reflexivity; try (destruct t; try reflexivity; destruct ctl; try reflexivity; destruct ts; reflexivity); cbn; f_equal; f_equal; now rewrite app_nil_r|
  intros g Hg; destruct g as [t ctl ts|qs cs| |]; try discriminate Hg; reflexivity|
  intros g Hg; destruct g as [t ctl ts|qs cs| |]; try discriminate Hg; unfold gateOf; cbn; f_equal; f_equal; now rewrite <- ?app_assoc].
Lemma reg_q3 n ncb : regular q3Shor n ncb. Proof. reg. Qed.
Lemma reg_s9 n ncb : regular q9Shor n ncb. Proof. reg. Qed.
Lemma reg_l5 n ncb : regular q5Laflamme n ncb. Proof. reg. Qed.
Lemma reg_s7 n ncb : regular q7Steane (S n) ncb. Proof. reg. Qed.
Lemma reg_f9 n ncb : regular q9Surface (S n) ncb. Proof. reg. Qed.
Lemma reg_g18 n ncb : regular q18Surface (S n) ncb. Proof. reg. Qed.
Lemma reg_all e n ncb : In e properCodes -> 0 < n -> regular e n ncb.
Proof.
  intros He Hn. destruct n as [|n]; [lia|]. cbn [properCodes In] in He. destruct He as [<-|[<-|[<-|[<-|[<-|[<-|[]]]]]]];
    [apply reg_q3|apply reg_s9|apply reg_l5|apply reg_s7|apply reg_f9|apply reg_g18].
Qed.
Section Sched.
Variables (e : ecc) (n ncb freq : nat).
Hypothesis R : regular e n ncb.
Definition close (r : result (flags * list op)) : result (list op) :=
  let* (fl, c) := r in if isDecoded fl then Ok c else let '(fl, c3) := e_mc e n ncb fl in let '(_, c4) := e_dec e n ncb fl in Ok (c ++ c3 ++ c4).
Lemma sched_ok gates : forall k d, close (applyGates e freq n ncb k (mkFl d true) gates) = piecesOf e n ncb (schedule freq k d gates).
Proof.
  induction gates as [|g gates IHg]; intros k d.
  - cbn [applyGates schedule]. unfold close. cbn [bind isDecoded]. destruct d; [reflexivity|]. rewrite (r_mc e n ncb R), (r_dec e n ncb R). cbn [piecesOf pieceOf bind app]. now rewrite app_nil_r.
  - cbn [applyGates schedule]. rewrite piecesOf_app.
    set (pre := if isMeas g then if d then [] else [PRound; PDec] else if d then [PEnc] else []).
    assert (Hm : exists cp, piecesOf e n ncb pre = Ok cp /\ e_map e n ncb (mkFl d true) g = (let* c := gateOf e n ncb g in Ok (mkFl (isMeas g) true, cp ++ c))).
    { unfold pre. destruct (isMeas g) eqn:Eg, d.
      - exists []. split; [reflexivity|]. now apply (r_meas e n ncb R).
      - exists (roundOf e n ncb ++ decodeOf e n ncb). split; [cbn [piecesOf pieceOf bind]; now rewrite app_nil_r|]. rewrite (r_measD e n ncb R g Eg). destruct (gateOf e n ncb g); cbn [bind]; [|reflexivity]. now rewrite app_assoc.
      - exists (encodeOf e n ncb (mkFl true true)). split; [cbn [piecesOf pieceOf bind]; now rewrite app_nil_r|]. now apply (r_gateD e n ncb R).
      - exists []. split; [reflexivity|]. now apply (r_gate e n ncb R). }
    destruct Hm as [cp [Hp Hm]]. rewrite Hp, Hm. cbn [bind]. rewrite piecesOf_app. cbn [piecesOf pieceOf]. destruct (gateOf e n ncb g) as [c|er]; cbn [bind]; [|reflexivity].
    rewrite piecesOf_app. replace (k + 1) with (S k) by lia.
    set (rd := if negb (isMeas g) && (0 <? freq) && (S k mod freq =? 0) then [PRound] else []).
    assert (Hr : exists cr, piecesOf e n ncb rd = Ok cr /\ (if (0 <? freq) && (S k mod freq =? 0) then e_mc e n ncb (mkFl (isMeas g) true) else (mkFl (isMeas g) true, [])) = (mkFl (isMeas g) true, cr)).
    { unfold rd. destruct (isMeas g); cbn [negb andb].
      - exists []. split; [reflexivity|]. destruct ((0 <? freq) && (S k mod freq =? 0)); [exact (r_mcD e n ncb R)|reflexivity].
      - destruct ((0 <? freq) && (S k mod freq =? 0)); [|exists []; split; reflexivity]. exists (roundOf e n ncb). split; [cbn [piecesOf pieceOf bind]; now rewrite app_nil_r|]. exact (r_mc e n ncb R). }
    destruct Hr as [cr [Hr1 Hr2]]. rewrite Hr1, Hr2. cbn [bind]. rewrite <- (IHg (S k) (isMeas g)). unfold close. destruct (applyGates e freq n ncb (S k) (mkFl (isMeas g) true) gates) as [[fl c3]|er]; cbn [bind]; [|reflexivity].
    destruct (isDecoded fl); cbn [bind]; [now rewrite app_nil_r, <- !app_assoc|]. destruct (e_mc e n ncb fl) as [fl2 c4]. destruct (e_dec e n ncb fl2) as [fl3 c5]. cbn [bind]. now rewrite app_nil_r, <- !app_assoc.
Qed.
Theorem apply_ok gates : apply e freq n ncb gates = (let* c := piecesOf e n ncb (schedule freq 0 false gates) in Ok (encodeOf e n ncb (mkFl true false) ++ c)).
Proof.
  rewrite <- sched_ok. unfold apply, encodeOf. pose proof (r_enc0 e n ncb R) as E. destruct (e_enc e n ncb (mkFl true false)) as [fl c1]. cbn [fst snd] in *. rewrite E. cbn [gatesWritten]. unfold close.
  destruct (applyGates e freq n ncb 0 (mkFl false true) gates) as [[fl2 c2]|er]; cbn [bind]; [|reflexivity]. destruct (isDecoded fl2); cbn [bind]; [reflexivity|].
  destruct (e_mc e n ncb fl2) as [fl3 c3]. destruct (e_dec e n ncb fl3) as [fl4 c4]. reflexivity.
Qed.
End Sched.
(** ** Counting *)
Definition countP (f : piece -> bool) (ps : list piece) : nat := length (filter f ps).
Definition isRound (p : piece) : bool := match p with PRound => true | _ => false end.
Definition isDec (p : piece) : bool := match p with PDec => true | _ => false end.
Definition isEnc (p : piece) : bool := match p with PEnc => true | _ => false end.
Lemma countP_app f a b : countP f (a ++ b) = countP f a + countP f b. Proof. unfold countP. now rewrite filter_app, app_length. Qed.
Lemma div_succ k freq : 0 < freq -> S k / freq = k / freq + (if S k mod freq =? 0 then 1 else 0).
Proof.
  intros Hf. pose proof (Nat.div_mod k freq ltac:(lia)) as E. pose proof (Nat.mod_upper_bound k freq ltac:(lia)) as B. set (q := k / freq) in *. set (r := k mod freq) in *.
  destruct (Nat.eq_dec (S r) freq) as [Es|Es].
  - assert (E1 : S k = (q + 1) * freq) by nia. rewrite E1, Nat.mod_mul, Nat.div_mul by lia. reflexivity.
  - rewrite <- (Nat.mod_unique (S k) freq q (S r)) by nia. rewrite <- (Nat.div_unique (S k) freq q (S r)) by nia. cbn [Nat.eqb]. lia.
Qed.
(** without measurements: a round after every freq-th gate and one at the end *)
Theorem rounds_count freq gates : 0 < freq -> forallb (fun g => negb (isMeas g)) gates = true -> forall k,
  countP isRound (schedule freq k false gates) = (k + length gates) / freq - k / freq + 1 /\ countP isDec (schedule freq k false gates) = 1 /\ countP isEnc (schedule freq k false gates) = 0.
Proof.
  intros Hf. induction gates as [|g gates IHg]; intros Hg k.
  - cbn [length schedule]. rewrite Nat.add_0_r, Nat.sub_diag. repeat split.
  - cbn [forallb] in Hg. apply andb_true_iff in Hg. destruct Hg as [H1 H2]. apply negb_true_iff in H1. destruct (IHg H2 (k + 1)) as [I1 [I2 I3]]. cbn [schedule]. rewrite H1. cbn [negb andb app].
    rewrite (proj2 (Nat.ltb_lt 0 freq) Hf). cbn [andb]. change (PGate g :: ?l) with ([PGate g] ++ l). rewrite !countP_app, I1, I2, I3. cbn [length]. replace (k + 1 + length gates) with (k + S (length gates)) by lia.
    assert (Hle : (k + 1) / freq <= (k + S (length gates)) / freq) by (apply Nat.div_le_mono; lia).
    replace (k + 1) with (S k) in * by lia. rewrite (div_succ k freq Hf) in *. destruct (S k mod freq =? 0); cbn [countP filter isRound isDec isEnc length]; unfold countP; cbn [filter isRound isDec isEnc length]; repeat split; lia.
Qed.
(** with measurements: decodings and encodings alternate *)
Fixpoint alternates (d : bool) (ps : list piece) : Prop :=
  match ps with
  | [] => d = true
  | PEnc :: ps' => d = true /\ alternates false ps'
  | PDec :: ps' => d = false /\ alternates true ps'
  | PRound :: ps' => d = false /\ alternates d ps'
  | PGate g :: ps' => d = isMeas g /\ alternates d ps'
  end.
Theorem schedule_alternates freq gates : forall k d, alternates d (schedule freq k d gates).
Proof.
  induction gates as [|g gates IHg]; intros k d; [destruct d; cbn; auto|]. cbn [schedule]. specialize (IHg (k + 1) (isMeas g)). destruct (isMeas g) eqn:Eg, d; cbn [app negb andb alternates]; rewrite ?Eg; auto.
  - destruct ((0 <? freq) && _); cbn [app alternates]; auto.
  - destruct ((0 <? freq) && _); cbn [app alternates]; auto.
Qed.
