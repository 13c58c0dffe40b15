(** * EccProg3: whole programs (C58), piece by piece *)
From Coq Require Import NArith ZArith Ring.
From Verif Require Export EccProg2.
Local Open Scope amp_scope.

Lemma physC g b i f x : unit_of g = aone -> b <> i ->
  (aone + aone) * (f x + gate GZ [] b f x) + (scale a2 (u2 (mat g) i f) x - gate GZ [] b (scale a2 (u2 (mat g) i f)) x) = scale (a2 * a2) (gate g [(b, true)] i f) x.
Proof.
  intros Hu Hb. assert (GZf : forall f, gate GZ [] b f x = if bit x b then - f x else f x).
  { intros h. unfold gate. cbn [active forallb mat u2]. pose proof (upd_same x b) as Ex. destruct (bit x b); rewrite Ex; ring. }
  rewrite !GZf. unfold scale, gate. cbn [active forallb fst snd]. rewrite Hu, andb_true_r. set (h := u2 (mat g) i f x). unfold a2. destruct (bit x b); cbn [Bool.eqb]; ring.
Qed.
Lemma zeros_ext n a nd f g : f == g -> zeros n a nd f -> zeros n a nd g.
Proof. intros H Z i j Hi Ha Hj x. rewrite (gate_ext GZ [] _ g f (fun y => eq_sym (H y)) x), (Z i j Hi Ha Hj x). apply H. Qed.
Lemma zeros_after n a nd os f : (forall i j, i < n -> a <= j -> j < nd -> forallb (avoids (i + j * n)%nat) os = true) -> zeros n a nd f -> zeros n a nd (after os f).
Proof. intros Ha Hz i j Hi Hj Hj'. apply stays_Z; auto. Qed.

Section Prog.
Variables (e : ecc) (stabs : list stabilizer) (L : logicals) (S1 S2 : list gt) (lv : Prop) (n ncb : nat).
Notation nd := (e_red e).
Notation anc := (ancillas e n).
Notation enc := (encodeOf e n ncb (mkFl true true)).
Notation dec := (decodeOf e n ncb).
Notation Ef := (after enc).
Notation r0 := (repeat false (length anc)).
Hypothesis Hn : 1 <= n.
Hypothesis Hnd : 1 <= nd.
Hypothesis Henc : encodes e stabs L.
Hypothesis Hde : decodesEncoded e.
Hypothesis Genc : forallb isGate enc = true.
Hypothesis Gdec : forallb isGate dec = true.
Hypothesis Aenc : forall q, (n * nd)%nat <= q -> forallb (avoids q) enc = true.
Hypothesis Adec : forall q, (n * nd)%nat <= q -> forallb (avoids q) dec = true.
Hypothesis Hst : forall l, In l stabs -> forall p, In p l -> snd p < nd.
Hypothesis Him : forall t, In t S1 -> implements e stabs L t.
Hypothesis HimC : forall t, In t S2 -> implementsC e stabs L t /\ unit_of t = aone.
Hypothesis Hgr : forall g c, isMeas g = false -> supported S1 S2 n ncb g -> gateOf e n ncb g = Ok c -> forallb isGate c = true /\ forall q, (n * nd)%nat <= q -> forallb (avoids q) c = true.
Hypothesis Hnil : forall t ctl, In t S1 \/ In t S2 -> gateOf e n ncb (IGate t ctl []) = Ok [].
Hypothesis Hmulti : forall t ctl i ts, In t S1 \/ In t S2 -> gateOf e n ncb (IGate t ctl (i :: ts)) = (let* c := gateOf e n ncb (IGate t ctl [i]) in let* c' := gateOf e n ncb (IGate t ctl ts) in Ok (c ++ c')).
Hypothesis HNone : gateOf e n ncb INone = Ok [].
Hypothesis HMeas : forall qs cs, gateOf e n ncb (IMeas qs cs) = Ok (measAll qs cs).
Hypothesis Hbits : forallb (bitsFrom ncb) (roundOf e n ncb) = true.

Lemma anc_ge q : In q anc -> (n * nd)%nat <= q.
Proof. unfold ancillas. intros H. apply in_map_iff in H. destruct H as [j [<- _]]. lia. Qed.
Lemma anc_len : length anc = e_cor e.
Proof. unfold ancillas. now rewrite map_length, seq_length. Qed.
Lemma Ef_lin4 a b c d f1 f2 f3 f4 x : a * Ef f1 x + b * Ef f2 x + c * Ef f3 x + d * Ef f4 x = Ef (fun x => a * f1 x + b * f2 x + c * f3 x + d * f4 x) x.
Proof. apply after_lin4'. Qed.
Lemma zeros_gate g ctl i f : i < n -> Forall (fun p => fst p < n) ctl -> zeros n 1 nd f -> zeros n 1 nd (gate g ctl i f).
Proof.
  intros Hi Hc Hz. change (gate g ctl i f) with (after [Gate g ctl i] f). apply zeros_after; [|exact Hz]. intros i' j Hi' Hj _. cbn [forallb avoids]. rewrite andb_true_r.
  rewrite (proj2 (Nat.eqb_neq i (i' + j * n)%nat)) by nia. cbn [negb andb]. apply forallb_forall. rewrite Forall_forall in Hc. intros p Hp. specialize (Hc p Hp). apply negb_true_iff, Nat.eqb_neq. nia.
Qed.
Lemma zeros_scale c f : zeros n 1 nd f -> zeros n 1 nd (scale c f).
Proof. intros Hz i j Hi H1 Hj x. change (gate GZ [] (i + j * n)%nat (scale c f) x) with (after [Gate GZ [] (i + j * n)%nat] (scale c f) x). rewrite after_scale. unfold scale. f_equal. exact (Hz i j Hi H1 Hj x). Qed.
Lemma enc_X i f : i < n -> zeros n 1 nd f -> onBlock n i (LX L) (Ef f) == Ef (gate GX [] i f).
Proof. intros Hi Hz. exact (proj1 (proj2 (Henc n ncb f Hz) i Hi)). Qed.
Lemma enc_Z i f : i < n -> zeros n 1 nd f -> onBlock n i (LZ L) (Ef f) == Ef (gate GZ [] i f).
Proof. intros Hi Hz. exact (proj2 (proj2 (Henc n ncb f Hz) i Hi)). Qed.
Lemma onBlock_ext i l f g : f == g -> onBlock n i l f == onBlock n i l g.
Proof. intros H. now apply after_ext. Qed.
Lemma enc_logical m i f : i < n -> zeros n 1 nd f -> logical n L m i (Ef f) == Ef (scale a2 (u2 m i f)).
Proof.
  intros Hi Hz x. assert (Hz2 : zeros n 1 nd (gate GZ [] i f)) by (apply zeros_gate; auto).
  rewrite <- (after_ext enc _ _ (phys m i f) x). destruct m as [[[m00 m01] m10] m11]. unfold logical.
  rewrite (enc_X i f Hi Hz x), (enc_Z i f Hi Hz x), (onBlock_ext i (LX L) _ _ (enc_Z i f Hi Hz) x), (enc_X i _ Hi Hz2 x). apply Ef_lin4.
Qed.
Lemma enc_logicalC g b i f : i < n -> b < n -> b <> i -> unit_of g = aone -> zeros n 1 nd f -> logicalC n L (mat g) b i (Ef f) == Ef (scale (a2 * a2) (gate g [(b, true)] i f)).
Proof.
  intros Hi Hb Hne Hu Hz x. set (h := scale a2 (u2 (mat g) i f)).
  assert (Hz2 : zeros n 1 nd h) by (apply zeros_scale; change (u2 (mat g) i f) with (gate g [] i f); apply zeros_gate; auto).
  rewrite <- (after_ext enc _ _ (fun y => physC g b i f y Hu Hne) x). fold h. unfold logicalC.
  rewrite (enc_Z b f Hb Hz x), (enc_logical (mat g) i f Hi Hz x). rewrite (onBlock_ext b (LZ L) _ _ (enc_logical (mat g) i f Hi Hz) x). fold h. rewrite (enc_Z b h Hb Hz2 x).
  transitivity ((aone + aone) * Ef f x + (aone + aone) * Ef (gate GZ [] b f) x + aone * Ef h x + (- aone) * Ef (gate GZ [] b h) x); [ring|]. rewrite Ef_lin4. apply after_ext. intros y. ring.
Qed.
(** gates: the circuit [c] does on the encoded state what [og] does on the state *)
Definition gateOK (c og : list op) : Prop :=
  forallb isGate c = true /\ forallb isGate og = true /\ (forall q, (n * nd)%nat <= q -> forallb (avoids q) c = true) /\
  exists C k, C <> azero /\ k <> azero /\ forall f, zeros n 1 nd f -> scale C (after c (Ef f)) == scale k (Ef (after og f)) /\ zeros n 1 nd (after og f).
Lemma gateOK_nil : gateOK [] [].
Proof. split; [reflexivity|]. split; [reflexivity|]. split; [reflexivity|]. exists aone, aone. split; [discriminate|]. split; [discriminate|]. intros f Hz. split; [intros x; reflexivity|exact Hz]. Qed.
Lemma gateOK_app c1 o1 c2 o2 : gateOK c1 o1 -> gateOK c2 o2 -> gateOK (c1 ++ c2) (o1 ++ o2).
Proof.
  intros [G1 [O1 [A1 [C1 [k1 [HC1 [Hk1 H1]]]]]]] [G2 [O2 [A2 [C2 [k2 [HC2 [Hk2 H2]]]]]]]. split; [now rewrite forallb_app, G1, G2|]. split; [now rewrite forallb_app, O1, O2|]. split; [intros q Hq; now rewrite forallb_app, A1, A2|].
  exists (C1 * C2), (k1 * k2). split; [intros Hz; apply amul_integral in Hz; tauto|]. split; [intros Hz; apply amul_integral in Hz; tauto|]. intros f Hz. destruct (H1 f Hz) as [E1 Z1]. destruct (H2 _ Z1) as [E2 Z2]. split.
  - intros x. unfold scale. rewrite (after_app c1 c2 _ G1 x). transitivity (C2 * after c2 (scale C1 (after c1 (Ef f))) x); [rewrite after_scale; unfold scale; ring|].
    rewrite (after_ext c2 _ _ E1 x), after_scale. unfold scale. transitivity (k1 * (scale C2 (after c2 (Ef (after o1 f))) x)); [unfold scale; ring|]. rewrite E2. unfold scale.
    rewrite (after_ext enc _ _ (after_app o1 o2 f O1) x). ring.
  - apply (zeros_ext n 1 nd (after o2 (after o1 f))); [intros y; symmetry; now apply after_app|exact Z2].
Qed.
Lemma stab0 : encoded n stabs zero.
Proof. intros i l _ _ x. unfold zero at 2. transitivity (zero x); [|reflexivity]. apply run_zero. intros y. reflexivity. Qed.
Lemma a2_nz : a2 <> azero. Proof. discriminate. Qed.
Lemma gate1OK t i : In t S1 -> i < n -> exists c, gateOf e n ncb (IGate t [] [i]) = Ok c /\ gateOK c [Gate t [] i].
Proof.
  intros Ht Hi. destruct (Him t Ht) as [C [k [HC [Hk H]]]]. destruct (H n ncb i zero Hi stab0) as [c [Ec _]]. exists c. assert (Eg : gateOf e n ncb (IGate t [] [i]) = Ok c) by (unfold gateOf; cbn [isMeas]; now rewrite Ec). split; [exact Eg|].
  destruct (Hgr (IGate t [] [i]) c eq_refl) as [G1 G2]; [cbn [supported]; auto|exact Eg|]. split; [exact G1|]. split; [reflexivity|]. split; [exact G2|].
  exists C, (k * a2). split; [exact HC|]. split; [intros Hz; apply amul_integral in Hz; destruct Hz as [Hz|Hz]; [contradiction|now apply a2_nz]|]. intros f Hz. split; [|apply (zeros_gate t [] i f Hi (Forall_nil _) Hz)].
  intros x. destruct (H n ncb i (Ef f) Hi (proj1 (Henc n ncb f Hz))) as [c' [Ec' E]]. rewrite Ec in Ec'. injection Ec' as <-. rewrite (E x). unfold scale. rewrite (enc_logical (mat t) i f Hi Hz x), after_scale. unfold scale. change (after [Gate t [] i] f) with (u2 (mat t) i f). ring.
Qed.
Lemma gateCOK t b i : In t S2 -> i < n -> b < n -> b <> i -> exists c, gateOf e n ncb (IGate t [(b, true)] [i]) = Ok c /\ gateOK c [Gate t [(b, true)] i].
Proof.
  intros Ht Hi Hb Hbi. destruct (HimC t Ht) as [[C [k [HC [Hk H]]]] Hu]. destruct (H n ncb b i zero Hi Hb Hbi stab0) as [c [Ec _]]. exists c. assert (Eg : gateOf e n ncb (IGate t [(b, true)] [i]) = Ok c) by (unfold gateOf; cbn [isMeas]; now rewrite Ec). split; [exact Eg|].
  destruct (Hgr (IGate t [(b, true)] [i]) c eq_refl) as [G1 G2]; [cbn [supported]; auto|exact Eg|]. split; [exact G1|]. split; [reflexivity|]. split; [exact G2|].
  exists C, (k * (a2 * a2)). split; [exact HC|]. split; [intros Hz; apply amul_integral in Hz; destruct Hz as [Hz|Hz]; [contradiction|discriminate]|]. intros f Hz.
  split; [|apply (zeros_gate t [(b, true)] i f Hi); [constructor; [exact Hb|constructor]|exact Hz]].
  intros x. destruct (H n ncb b i (Ef f) Hi Hb Hbi (proj1 (Henc n ncb f Hz))) as [c' [Ec' E]]. rewrite Ec in Ec'. injection Ec' as <-. rewrite (E x). unfold scale. rewrite (enc_logicalC t b i f Hi Hb Hbi Hu Hz x), after_scale. unfold scale. change (after [Gate t [(b, true)] i] f) with (gate t [(b, true)] i f). ring.
Qed.
Lemma gatesOK g : isMeas g = false -> supported S1 S2 n ncb g -> exists c, gateOf e n ncb g = Ok c /\ gateOK c (copyGate g).
Proof.
  destruct g as [t ctl ts|qs cs| |]; cbn [isMeas]; intros Hm Hs; try discriminate.
  - destruct ctl as [|[b []] [|]]; cbn [supported] in Hs; try contradiction.
    + destruct Hs as [Ht Hts]. induction Hts as [|i ts Hi Hts IHt]; [exists []; split; [apply Hnil; auto|apply gateOK_nil]|]. destruct IHt as [c' [E' G']]. destruct (gate1OK t i Ht Hi) as [c [E G]].
      exists (c ++ c'). split; [rewrite Hmulti, E, E' by auto; reflexivity|]. exact (gateOK_app _ _ _ _ G G').
    + destruct Hs as [Ht [Hb Hts]]. induction Hts as [|i ts [Hi Hbi] Hts IHt]; [exists []; split; [apply Hnil; auto|apply gateOK_nil]|]. destruct IHt as [c' [E' G']]. destruct (gateCOK t b i Ht Hi Hb Hbi) as [c [E G]].
      exists (c ++ c'). split; [rewrite Hmulti, E, E' by auto; reflexivity|]. exact (gateOK_app _ _ _ _ G G').
  - exists []. split; [exact HNone|apply gateOK_nil].
  - destruct Hs.
Qed.
(** *** Pieces *)
Definition isDecAt (d : bool) (f : state) : state := if d then f else Ef f.
Definition copyP (p : piece) : list op := match p with PGate g => copyGate g | _ => [] end.
Definition after_ (d : bool) (p : piece) : bool := match p with PEnc => false | PDec => true | _ => d end.
Definition startP (p : piece) (E : blockErr) (g : state) : state := match p with PRound => noise n E g | _ => g end.
Definition stepOK (p : piece) (E : blockErr) (d : bool) : Prop := exists C (K : list bool -> list bool -> amp) (M : list bool -> list bool -> list bool),
  C <> azero /\ (forall m t, length m = e_cor e -> length (M m t) = e_cor e) /\ (lv -> forall m, length m = e_cor e -> exists t, (if isUser p then t = [] else length t = nrand (circOf e n ncb p)) /\ K m t <> azero) /\
  forall m t u cr cr' c0 k0 g f, length m = e_cor e -> agree ncb cr cr' -> zeros n 1 nd f -> scale c0 g == restored anc k0 r0 m (isDecAt d f) ->
  let fin := run (circOf e n ncb p) (mkConf cr (if isUser p then u else t) (startP p E g)) in let orig := run (copyP p) (mkConf cr' u f) in
  scale (C * c0) (st fin) == restored anc (K m t * k0) r0 (M m t) (isDecAt (after_ d p) (st orig)) /\ agree ncb (creg fin) (creg orig) /\ zeros n 1 nd (st orig).
Lemma simple_gives os k m c0 g h cr rec : forallb plain os = true -> (forall q, (n * nd)%nat <= q -> forallb (avoids q) os = true) -> scale c0 g == restored anc k r0 m h ->
  scale c0 (st (run os (mkConf cr rec g))) == restored anc k r0 m (st (run os (mkConf cr rec h))).
Proof.
  intros Hp Ha Hg x. rewrite <- run_scale. rewrite (run_ext os cr rec _ _ Hg x). apply restored_run; [exact Hp|]. intros q Hq. apply Ha. now apply anc_ge.
Qed.
Lemma gate_plain os : forallb isGate os = true -> forallb plain os = true.
Proof. rewrite !forallb_forall. intros H o Ho. specialize (H o Ho). now destruct o. Qed.
Lemma step_enc E : stepOK PEnc E true.
Proof.
  exists aone, (fun _ _ => aone), (fun m _ => m). split; [discriminate|]. split; [auto|]. split.
  { intros _ m _. exists []. split; [|discriminate]. cbn [isUser]. unfold circOf. cbn [pieceOf]. now rewrite nrand_gates. }
  intros m t u cr cr' c0 k0 g f Hm Hag Hz Hg. cbn [isUser startP copyP]. unfold circOf. cbn [pieceOf]. cbn zeta. cbn [after_ isDecAt] in *. unfold run at 2 4 5. cbn [fold_left st creg]. destruct (run_gates enc cr t g Genc) as [E1 _]. split; [|split; [|exact Hz]].
  - intros x. unfold scale. rewrite amul_1_l. pose proof (simple_gives enc k0 m c0 g f cr t (gate_plain _ Genc) Aenc Hg x) as G. unfold scale in G. rewrite G. rewrite (restored_ext anc k0 r0 m _ _ (proj2 (proj2 (run_gates enc cr t f Genc))) x). now rewrite amul_1_l.
  - now rewrite E1.
Qed.
Lemma step_dec E : stepOK PDec E false.
Proof.
  destruct (Hde n) as [k [Hk Hd]]. exists aone, (fun _ _ => k), (fun m _ => m). split; [discriminate|]. split; [auto|]. split.
  { intros _ m _. exists []. split; [|exact Hk]. cbn [isUser]. unfold circOf. cbn [pieceOf]. now rewrite nrand_gates. }
  intros m t u cr cr' c0 k0 g f Hm Hag Hz Hg. cbn [isUser startP copyP]. unfold circOf. cbn [pieceOf]. cbn zeta. cbn [after_ isDecAt] in *. unfold run at 2 4 5. cbn [fold_left st creg]. destruct (run_gates dec cr t g Gdec) as [E1 _]. split; [|split; [|exact Hz]].
  - intros x. unfold scale. rewrite amul_1_l. pose proof (simple_gives dec k0 m c0 g (Ef f) cr t (gate_plain _ Gdec) Adec Hg x) as G. unfold scale in G. rewrite G. rewrite (restored_ext anc k0 r0 m _ _ (proj2 (proj2 (run_gates dec cr t (Ef f) Gdec))) x).
    rewrite (restored_ext anc k0 r0 m _ _ (Hd ncb f Hz) x), restored_scale_in. now replace (k0 * k) with (k * k0) by ring.
  - now rewrite E1.
Qed.
Lemma step_round E : roundOK e stabs lv E -> stepOK PRound E false.
Proof.
  intros R. destruct (R n ncb Hn) as [K [M [HM [HK HL]]]]. exists (two n), (fun m t => if beql m (taken (resets e n) t) then K t else azero), (fun _ t => M t). split; [apply two_nz|]. split; [intros m t _; apply HM|]. split.
  { intros Hlv m Hm. destruct (HL Hlv m Hm) as [t [H1 H2]]. exists (m ++ t). cbn [isUser]. split; [exact H1|]. unfold resets. rewrite taken_rst by (now rewrite anc_len). now rewrite beql_refl. }
  intros m t u cr cr' c0 k0 g f Hm Hag Hz Hg. cbn [isUser startP copyP]. unfold circOf. cbn [pieceOf]. cbn zeta. cbn [after_ isDecAt] in *. unfold run at 2 4 5. cbn [fold_left st creg].
  split; [|split; [|exact Hz]].
  - assert (Henc' : encoded n stabs (restored anc k0 r0 m (Ef f))).
    { intros i l Hi Hl x. change (gatesOf (fun j => i + j * n)%nat l) with (word (dq n i) l). rewrite word_restored.
      - apply restored_ext. exact (proj1 (Henc n ncb f Hz) i l Hi Hl).
      - intros p Hp. apply (dq_notin n nd (e_cor e)); [exact Hi|]. now apply (Hst l). }
    intros x. transitivity (scale (two n) (st (run (roundOf e n ncb) (mkConf cr t (noise n E (scale c0 g))))) x).
    { unfold scale at 1 2. rewrite (run_ext (roundOf e n ncb) cr t _ _ (noise_scale n E c0 g) x), run_scale. unfold scale. ring. }
    unfold scale at 1. rewrite (run_ext (roundOf e n ncb) cr t _ _ (noise_ext n E _ _ Hg) x).
    pose proof (HK (restored anc k0 r0 m (Ef f)) cr t Henc' x) as G. unfold scale in G. rewrite G. rewrite restored_restored; [|apply ancillas_nodup|now rewrite anc_len|apply repeat_length|unfold resets; apply taken_rst_len].
    destruct (beql m (taken (resets e n) t)); [reflexivity|]. unfold restored. destruct (reads _ _ x); [ring|reflexivity].
  - intros b Hb. rewrite <- (Hag b Hb). symmetry. exact (bits_keep ncb (roundOf e n ncb) Hbits (mkConf cr t (noise n E g)) b Hb).
Qed.
Lemma copy_isGate g : isMeas g = false -> forallb isGate (copyGate g) = true.
Proof. destruct g as [t ctl ts| | |]; intros H; try discriminate; try reflexivity. cbn [copyGate]. apply forallb_forall. intros o Ho. apply in_map_iff in Ho. destruct Ho as [i [<- _]]. reflexivity. Qed.
Lemma step_gate g E : isMeas g = false -> supported S1 S2 n ncb g -> stepOK (PGate g) E false.
Proof.
  intros Hm0 Hs. destruct (gatesOK g Hm0 Hs) as [c [Ec [Gc [Go [Ac [C [k [HC [Hk H]]]]]]]]]. exists C, (fun _ _ => k), (fun m _ => m). split; [exact HC|]. split; [auto|].
  assert (Eci : circOf e n ncb (PGate g) = c) by (unfold circOf; cbn [pieceOf]; now rewrite Ec). rewrite Eci. cbn [isUser]. rewrite Hm0. split.
  { intros _ m _. exists []. split; [now rewrite nrand_gates|exact Hk]. }
  intros m t u cr cr' c0 k0 g0 f Hm Hag Hz Hg. cbn [startP copyP]. cbn zeta. cbn [after_ isDecAt] in *. destruct (run_gates c cr t g0 Gc) as [E1 _]. destruct (run_gates (copyGate g) cr' u f Go) as [E2 [_ E3]].
  destruct (H f Hz) as [H1 H2]. split; [|split].
  - intros x. pose proof (simple_gives c k0 m c0 g0 (Ef f) cr t (gate_plain _ Gc) Ac Hg x) as G. transitivity (C * restored anc k0 r0 m (after c (Ef f)) x).
    { rewrite <- (restored_ext anc k0 r0 m _ _ (proj2 (proj2 (run_gates c cr t (Ef f) Gc))) x). rewrite <- G. unfold scale. ring. }
    transitivity (restored anc k0 r0 m (scale C (after c (Ef f))) x); [unfold restored, scale; destruct (reads _ _ x); [ring|apply amul_0_r]|].
    rewrite (restored_ext anc k0 r0 m _ _ H1 x), restored_scale_in. replace (k0 * k) with (k * k0) by ring. apply restored_ext. apply after_ext. intros y. symmetry. apply E3.
  - now rewrite E1, E2.
  - apply (zeros_ext n 1 nd _ _ (fun y => eq_sym (E3 y))). exact H2.
Qed.
Lemma step_meas qs cs E : supported S1 S2 n ncb (IMeas qs cs) -> stepOK (PGate (IMeas qs cs)) E true.
Proof.
  intros [Hq _]. exists aone, (fun _ _ => aone), (fun m _ => m). split; [discriminate|]. split; [auto|]. split.
  { intros _ m _. exists []. split; [reflexivity|discriminate]. }
  assert (Eci : circOf e n ncb (PGate (IMeas qs cs)) = measAll qs cs) by (unfold circOf; cbn [pieceOf]; now rewrite HMeas). rewrite Eci. cbn [isUser isMeas copyP copyGate startP after_ isDecAt].
  assert (Hin : forall o, In o (measAll qs cs) -> exists q c, o = Meas q c /\ q < n).
  { intros o Ho. unfold measAll in Ho. apply in_map_iff in Ho. destruct Ho as [[q c] [<- Ho]]. exists q, c. split; [reflexivity|]. rewrite Forall_forall in Hq. apply Hq. exact (in_combine_l _ _ _ _ Ho). }
  assert (Av : forall q, n <= q -> forallb (avoids q) (measAll qs cs) = true).
  { intros q Hge. apply forallb_forall. intros o Ho. destruct (Hin o Ho) as [q' [c [-> Hl]]]. cbn [avoids]. apply negb_true_iff, Nat.eqb_neq. lia. }
  intros m t u cr cr' c0 k0 g f Hm Hag Hz Hg. cbn zeta. split; [|split].
  - intros x. unfold scale. rewrite amul_1_l. pose proof (simple_gives (measAll qs cs) k0 m c0 g f cr u) as G. unfold scale in G. rewrite G; [|apply forallb_forall; intros o Ho; destruct (Hin o Ho) as [q' [c [-> _]]]; reflexivity|intros q Hge; apply Av; nia|exact Hg].
    rewrite amul_1_l. apply restored_ext. intros y. apply (f_equal (fun s : state => s y)). clear. revert cr cr' u f. unfold run, measAll. induction (combine qs cs) as [|[q c] l IHl]; intros cr cr' u f; [reflexivity|]. cbn [map fold_left step creg outs st fst snd]. apply IHl.
  - now apply meas_agree.
  - intros i j Hi Hj Hj'. apply stays_Z; [|now apply Hz]. apply Av. nia.
Qed.
(** *** All pieces *)
Lemma orig_outs p cr u f : outs (run (copyP p) (mkConf cr u f)) = if isUser p then skipn (nrand (circOf e n ncb p)) u else u.
Proof.
  rewrite run_outs. cbn [outs]. destruct p as [| | |g]; try reflexivity. cbn [isUser copyP]. destruct (isMeas g) eqn:Eg.
  - destruct g; try discriminate. unfold circOf. cbn [pieceOf copyGate]. now rewrite HMeas.
  - rewrite nrand_gates; [reflexivity|]. now apply copy_isGate.
Qed.
Lemma exec_cons p ps errs c : exec e n ncb (p :: ps) errs c =
  exec e n ncb ps (match p with PRound => tl errs | _ => errs end) (run (circOf e n ncb p) (mkConf (creg c) (outs c) (startP p (hd noErr errs) (st c)))).
Proof. destruct p, c; reflexivity. Qed.
Definition okHere (d : bool) (p : piece) : Prop := match p with PEnc => d = true | PDec => d = false | PRound => d = false | PGate g => d = isMeas g end.
Lemma alternates_cons d p ps : alternates d (p :: ps) <-> okHere d p /\ alternates (after_ d p) ps.
Proof. destruct p; cbn [alternates okHere after_]; tauto. Qed.
Lemma step_all d p E : okHere d p -> (forall g, p = PGate g -> supported S1 S2 n ncb g) -> roundOK e stabs lv E -> stepOK p E d.
Proof.
  intros Hp Hs HE. destruct p as [| | |g]; cbn [okHere] in Hp; subst d.
  - apply step_enc.
  - now apply step_round.
  - apply step_dec.
  - specialize (Hs g eq_refl). destruct (isMeas g) eqn:Eg; [destruct g; try discriminate; now apply step_meas|now apply step_gate].
Qed.
Lemma pieces_ok : roundOK e stabs lv noErr -> forall ps d errs, alternates d ps -> (forall g, In (PGate g) ps -> supported S1 S2 n ncb g) -> Forall (roundOK e stabs lv) errs ->
  exists C (K : list bool -> list bool -> amp) (M : list bool -> list bool -> list bool),
  C <> azero /\ (lv -> forall m, length m = e_cor e -> exists a, K m a <> azero) /\
  forall m a u cr cr' c0 k0 g f, length m = e_cor e -> agree ncb cr cr' -> zeros n 1 nd f -> scale c0 g == restored anc k0 r0 m (isDecAt d f) ->
  let fin := exec e n ncb ps errs (mkConf cr (weave e n ncb ps a u) g) in let orig := run (flat_map copyP ps) (mkConf cr' u f) in
  scale (C * c0) (st fin) == restored anc (K m a * k0) r0 (M m a) (st orig) /\ agree ncb (creg fin) (creg orig).
Proof.
  intros HE0. induction ps as [|p ps IHp]; intros d errs Hal Hs Her.
  - cbn [alternates] in Hal. subst d. exists aone, (fun _ _ => aone), (fun m _ => m). split; [discriminate|]. split; [intros _ m _; exists []; discriminate|]. intros m a u cr cr' c0 k0 g f Hm Hag Hz Hg. cbn zeta. cbn [exec weave flat_map isDecAt] in *. unfold run. cbn [fold_left st creg]. split; [|exact Hag].
    intros x. rewrite !amul_1_l. apply Hg.
  - apply alternates_cons in Hal. destruct Hal as [Hp Hal].
    assert (HE : roundOK e stabs lv (hd noErr errs)) by (destruct Her; [exact HE0|assumption]).
    destruct (step_all d p (hd noErr errs) Hp (fun g Eg => Hs g (or_introl Eg)) HE) as [C1 [K1 [M1 [HC1 [HM1 [HL1 H1]]]]]].
    destruct (IHp (after_ d p) (match p with PRound => tl errs | _ => errs end) Hal (fun g Hg => Hs g (or_intror Hg))) as [C2 [K2 [M2 [HC2 [HL2 H2]]]]].
    { destruct p; try assumption. destruct Her; [constructor|assumption]. }
    set (c := circOf e n ncb p) in *.
    pose (T := fun a : list bool => if isUser p then [] else taken c a). pose (A := fun a : list bool => if isUser p then a else skipn (nrand c) a).
    exists (C2 * C1), (fun m a => K2 (M1 m (T a)) (A a) * K1 m (T a)), (fun m a => M2 (M1 m (T a)) (A a)). split; [intros Hz; apply amul_integral in Hz; tauto|]. split.
    + intros Hlv m Hm. destruct (HL1 Hlv m Hm) as [t [Ht Hk]]. destruct (HL2 Hlv (M1 m t) (HM1 m t Hm)) as [a Ha]. exists (if isUser p then a else t ++ a).
      assert (ET : T (if isUser p then a else t ++ a) = t) by (unfold T; destruct (isUser p); [now symmetry|now apply taken_app]).
      assert (EA : A (if isUser p then a else t ++ a) = a) by (unfold A; destruct (isUser p); [reflexivity|rewrite <- Ht, skipn_app, skipn_all, Nat.sub_diag; reflexivity]).
      rewrite ET, EA. intros Hz. apply amul_integral in Hz. tauto.
    + intros m a u cr cr' c0 k0 g f Hm Hag Hz Hg. cbn zeta. rewrite exec_cons. cbn [creg outs st]. fold c.
      set (u' := if isUser p then skipn (nrand c) u else u).
      assert (Ew : weave e n ncb (p :: ps) a u = taken c (if isUser p then u else a) ++ weave e n ncb ps (A a) u') by (cbn [weave]; unfold A, u'; fold c; destruct (isUser p); reflexivity).
      rewrite Ew. set (rec := if isUser p then u else T a).
      assert (Er : run c (mkConf cr (taken c (if isUser p then u else a) ++ weave e n ncb ps (A a) u') (startP p (hd noErr errs) g)) =
                   mkConf (creg (run c (mkConf cr rec (startP p (hd noErr errs) g)))) (weave e n ncb ps (A a) u') (st (run c (mkConf cr rec (startP p (hd noErr errs) g))))).
      { unfold rec, T. destruct (isUser p); [apply run_taken|]. apply run_rec. apply taken_length. }
      rewrite Er. destruct (H1 m (T a) u cr cr' c0 k0 g f Hm Hag Hz Hg) as [G1 [G2 G3]]. fold rec in G1, G2.
      cbn [flat_map]. rewrite run_app. pose proof (orig_outs p cr' u f) as Eo. fold c in Eo. fold u' in Eo. set (o := run (copyP p) (mkConf cr' u f)) in *. destruct o as [cro recO fo]. cbn [creg outs st] in *. subst recO.
      destruct (H2 (M1 m (T a)) (A a) u' _ cro (C1 * c0) (K1 m (T a) * k0) _ fo (HM1 m (T a) Hm) G2 G3 G1) as [F1 F2]. split; [|exact F2].
      intros x. replace (C2 * C1 * c0) with (C2 * (C1 * c0)) by ring. replace (K2 (M1 m (T a)) (A a) * K1 m (T a) * k0) with (K2 (M1 m (T a)) (A a) * (K1 m (T a) * k0)) by ring. apply F1.
Qed.
End Prog.
