(** * EccProg4: whole programs (C58), the codes *)
From Coq Require Import NArith ZArith Ring.
From Verif Require Export EccProg3 EccRange EccBits.
Local Open Scope amp_scope.

(** ** Specification: the states from which the claim holds *)
(** any state of the input qubits; all other qubits are 0 *)
Definition anyInput (e : ecc) (n : nat) (f : state) : Prop := zeros n 1 (e_red e) f /\ cleanAncillas e n f.
(** all qubits are 0 *)
Definition allZero (e : ecc) (n : nat) (f : state) : Prop := zeros n 0 (e_red e) f /\ cleanAncillas e n f.

(** ** Proofs *)
Lemma fixedZ q f x : gate GZ [] q f == f -> bit x q = true -> f x = azero.
Proof.
  intros H Hb. specialize (H x). unfold gate in H. cbn [active forallb mat u2] in H. pose proof (upd_same x q) as Ex. rewrite Hb in *. rewrite Ex in H.
  assert (E : f x = - f x) by (rewrite <- H at 1; ring). destruct (f x) as [a b c d]. unfold aopp in E. injection E as E1 E2 E3 E4. unfold azero. f_equal; lia.
Qed.
Lemma setTo_reads anc : forall m x, length m = length anc -> reads anc m x = true -> setTo anc m x = x.
Proof.
  induction anc as [|q anc IHa]; intros [|b m] x Hl Hr; try discriminate; [reflexivity|]. unfold reads in *. cbn [combine forallb setTo fst snd] in *. apply andb_true_iff in Hr. destruct Hr as [H1 H2].
  rewrite IHa; [|cbn [length] in Hl; lia|exact H2]. apply eqb_prop in H1. rewrite <- H1. apply upd_same.
Qed.
Lemma clean_restored anc f : (forall q, In q anc -> gate GZ [] q f == f) -> f == restored anc aone (repeat false (length anc)) (repeat false (length anc)) f.
Proof.
  intros H x. unfold restored. destruct (reads anc (repeat false (length anc)) x) eqn:Er.
  - rewrite setTo_reads; [ring|apply repeat_length|exact Er].
  - assert (Hex : exists q, In q anc /\ bit x q = true).
    { clear H. induction anc as [|q anc IHa]; [discriminate|]. unfold reads in *. cbn [length repeat combine forallb fst snd] in Er. apply andb_false_iff in Er. destruct Er as [Er|Er].
      - exists q. split; [now left|]. now destruct (bit x q).
      - destruct (IHa Er) as [q' [H1 H2]]. exists q'. split; [now right|exact H2]. }
    destruct Hex as [q [H1 H2]]. apply (fixedZ q); auto.
Qed.
Lemma noise_none n f : noise n noErr f = f.
Proof. unfold noise. induction (seq 0 n) as [|i l IHl]; [reflexivity|]. exact IHl. Qed.
Lemma exec_none e n ncb ps : forall circ c, piecesOf e n ncb ps = Ok circ -> run circ c = exec e n ncb ps [] c.
Proof.
  induction ps as [|p ps IHp]; intros circ c H; [injection H as <-; reflexivity|]. cbn [piecesOf] in H. destruct (pieceOf e n ncb p) as [c1|] eqn:E1; cbn [bind] in H; [|discriminate]. destruct (piecesOf e n ncb ps) as [c2|] eqn:E2; cbn [bind] in H; [|discriminate]. injection H as <-.
  rewrite exec_cons, run_app. rewrite (IHp c2 _ eq_refl). f_equal; [|unfold circOf; rewrite E1; destruct p, c; unfold startP; cbn [hd EccSem.creg EccSem.outs EccSem.st]; rewrite ?noise_none; reflexivity]. now destruct p.
Qed.
Lemma pieces_all e n ncb ps : (forall g, In (PGate g) ps -> exists c, gateOf e n ncb g = Ok c) -> exists circ, piecesOf e n ncb ps = Ok circ.
Proof.
  induction ps as [|p ps IHp]; intros H; [exists []; reflexivity|]. destruct IHp as [c2 E2]; [intros g Hg; apply H; now right|]. cbn [piecesOf]. rewrite E2.
  destruct p as [| | |g]; cbn [pieceOf bind]; try (eexists; reflexivity). destruct (H g (or_introl eq_refl)) as [c Ec]. rewrite Ec. cbn [bind]. eexists; reflexivity.
Qed.
Lemma copy_schedule freq gates : forall k d, flat_map copyP (schedule freq k d gates) = original gates.
Proof.
  unfold original. induction gates as [|g gates IHg]; intros k d; [destruct d; reflexivity|]. cbn [schedule flat_map]. rewrite !flat_map_app. cbn [flat_map copyP]. rewrite app_nil_r, IHg.
  replace (flat_map copyP (if isMeas g then if d then [] else [PRound; PDec] else if d then [PEnc] else [])) with (@nil op) by (destruct (isMeas g), d; reflexivity).
  destruct (negb (isMeas g) && (0 <? freq) && ((k + 1)%nat mod freq =? 0)); reflexivity.
Qed.

Section Whole.
Variables (e : ecc) (stabs : list stabilizer) (L : logicals) (S1 S2 : list gt) (start : nat -> state -> Prop) (kind : matrix -> Prop) (lv : Prop).
Hypothesis Hnd : 1 <= e_red e.
Hypothesis Hreg : forall n ncb, regular e n ncb.
Hypothesis Henc : encodes e stabs L.
Hypothesis Hde : decodesEncoded e.
Hypothesis Genc : forall n ncb, forallb isGate (encodeOf e n ncb (mkFl true true)) = true.
Hypothesis Gdec : forall n ncb, forallb isGate (decodeOf e n ncb) = true.
Hypothesis Aenc : forall n ncb q, (n * e_red e)%nat <= q -> forallb (avoids q) (encodeOf e n ncb (mkFl true true)) = true.
Hypothesis Adec : forall n ncb q, (n * e_red e)%nat <= q -> forallb (avoids q) (decodeOf e n ncb) = true.
Hypothesis Hst : forall l, In l stabs -> forall p, In p l -> snd p < e_red e.
Hypothesis Him : forall t, In t S1 -> implements e stabs L t.
Hypothesis HimC : forall t, In t S2 -> implementsC e stabs L t /\ unit_of t = aone.
Hypothesis Hgr : forall n ncb g c, isMeas g = false -> supported S1 S2 n ncb g -> gateOf e n ncb g = Ok c -> forallb isGate c = true /\ forall q, (n * e_red e)%nat <= q -> forallb (avoids q) c = true.
Hypothesis Hnil : forall n ncb t ctl, In t S1 \/ In t S2 -> gateOf e n ncb (IGate t ctl []) = Ok [].
Hypothesis Hmulti : forall n ncb t ctl i ts, In t S1 \/ In t S2 -> gateOf e n ncb (IGate t ctl (i :: ts)) = (let* c := gateOf e n ncb (IGate t ctl [i]) in let* c' := gateOf e n ncb (IGate t ctl ts) in Ok (c ++ c')).
Hypothesis HNone : forall n ncb, gateOf e n ncb INone = Ok [].
Hypothesis HMeas : forall n ncb qs cs, gateOf e n ncb (IMeas qs cs) = Ok (measAll qs cs).
Hypothesis Hbits : forall n ncb, forallb (bitsFrom ncb) (roundOf e n ncb) = true.
Hypothesis Hround : forall E, (forall i m j, E i = Some (m, j) -> kind m /\ j < e_red e) -> roundOK e stabs lv E.
(** the first encoding: gates; it gives what the later encodings give *)
Hypothesis Gfirst : forall n ncb, forallb isGate (encodeOf e n ncb (mkFl true false)) = true.
Hypothesis Hstart : forall n ncb f, start n f -> zeros n 1 (e_red e) f /\ cleanAncillas e n f /\ after (encodeOf e n ncb (mkFl true false)) f == after (encodeOf e n ncb (mkFl true true)) f.
Theorem whole : faithful e start S1 S2 kind lv.
Proof.
  intros n ncb freq gates errs Hn Hg Her. split.
  - destruct (pieces_all e n ncb (schedule freq 0 false gates)) as [c Ec].
    { intros g Hi. apply sched_gates in Hi. rewrite Forall_forall in Hg. specialize (Hg g Hi). destruct (isMeas g) eqn:Em; [destruct g; try discriminate; eexists; apply HMeas|].
      destruct (gatesOK e stabs L S1 S2 n ncb Hn Hnd Henc Him HimC (Hgr n ncb) (Hnil n ncb) (Hmulti n ncb) (HNone n ncb) g Em Hg) as [c [Ec _]]. now exists c. }
    rewrite (apply_ok e n ncb freq (Hreg n ncb)), Ec. cbn [bind]. eexists. split; [reflexivity|]. intros c0. rewrite run_app. unfold execAll. now apply exec_none.
  - assert (Hr0 : roundOK e stabs lv noErr) by (apply Hround; discriminate).
    assert (Hrs : Forall (roundOK e stabs lv) errs) by (unfold errsOfKind in Her; rewrite Forall_forall in *; intros E HE; apply Hround; now apply (Her E)).
    destruct (pieces_ok e stabs L S1 S2 lv n ncb Hn Hnd Henc Hde (Genc n ncb) (Gdec n ncb) (Aenc n ncb) (Adec n ncb) Hst Him HimC (Hgr n ncb) (Hnil n ncb) (Hmulti n ncb) (HNone n ncb) (HMeas n ncb) (Hbits n ncb)
      Hr0 (schedule freq 0 false gates) false errs (schedule_alternates freq gates 0 false)) as [C [K [M [HC [HL H]]]]]; [|exact Hrs|].
    { intros g Hi. apply sched_gates in Hi. rewrite Forall_forall in Hg. now apply Hg. }
    set (m0 := repeat false (e_cor e)). assert (Hm0 : length m0 = e_cor e) by apply repeat_length.
    exists C, (K m0), (M m0). split; [exact HC|]. split; [intros Hlv; now apply HL|]. intros a u cr f Hs. cbn zeta. destruct (Hstart n ncb f Hs) as [Hz [Hc Hf]].
    unfold execAll. set (rec := weave e n ncb (schedule freq 0 false gates) a u). set (first := encodeOf e n ncb (mkFl true false)). destruct (run_gates first cr rec f (Gfirst n ncb)) as [E1 [E2 E3]].
    replace (run first (mkConf cr rec f)) with (mkConf cr rec (st (run first (mkConf cr rec f)))) by (destruct (run first (mkConf cr rec f)) as [cr1 rec1 f1]; cbn [creg outs st] in *; congruence).
    destruct (H m0 a u cr cr aone aone (st (run first (mkConf cr rec f))) f Hm0 (fun i _ => eq_refl) Hz) as [F1 F2].
    { intros x. unfold scale. rewrite amul_1_l, E3. unfold first. rewrite (Hf x). unfold isDecAt.
      assert (Hca : forall q, In q (ancillas e n) -> gate GZ [] q (after (encodeOf e n ncb (mkFl true true)) f) == after (encodeOf e n ncb (mkFl true true)) f) by (intros q Hq; apply stays_Z; [apply Aenc; now apply (anc_ge e n)|now apply Hc]).
      pose proof (clean_restored (ancillas e n) _ Hca x) as G. rewrite G at 1. unfold m0. rewrite <- (anc_len e n). reflexivity. }
    rewrite copy_schedule in F1, F2. split; [|exact F2]. intros x. specialize (F1 x). unfold scale in F1. replace (C * aone) with C in F1 by ring. etransitivity; [exact F1|]. unfold restored. destruct (reads _ _ x); [ring|reflexivity].
Qed.
End Whole.

(** ** The codes *)
Lemma cx_fixed c t f : gate GZ [] c f == f -> c <> t -> gate GX [(c, true)] t f == f.
Proof.
  intros Hc Ht x. unfold gate. cbn [active forallb fst snd]. rewrite andb_true_r. destruct (bit x c) eqn:Eb; cbn [Bool.eqb]; [|cbn [unit_of]; ring]. rewrite (fixedZ c f x Hc Eb).
  cbn [mat u2]. rewrite !(fixedZ c f) by (try exact Hc; rewrite bit_upd, (proj2 (Nat.eqb_neq t c)) by auto; exact Eb). destruct (bit x t); ring.
Qed.
Lemma after_fixed os f : (forall o, In o os -> isGate o = true /\ after [o] f == f) -> after os f == f.
Proof.
  induction os as [|o os IHo]; intros H x; [reflexivity|]. destruct (H o (or_introl eq_refl)) as [H1 H2]. rewrite (after_cons o os f H1 x), (after_ext os _ _ H2 x). apply IHo. intros o' Ho'. apply H. now right.
Qed.
Lemma bits_from ncb nb os : Forall (bitsOp ncb (ncb + nb)%nat) os -> forallb (bitsFrom ncb) os = true.
Proof. intros H. apply forallb_forall. rewrite Forall_forall in H. intros o Ho. specialize (H o Ho). destruct o; try reflexivity. cbn [bitsOp bitsFrom] in *. apply Nat.leb_le. lia. Qed.
Lemma in_data n nd os : Forall (opIn (n * nd + 0)%nat) os -> forall q, (n * nd)%nat <= q -> forallb (avoids q) os = true.
Proof. intros H q Hq. apply (opsIn_avoids (n * nd + 0)%nat); [exact H|lia]. Qed.
Ltac dat := intros; first [apply (d_lt _ _ 0); auto | apply d_ne; auto | lia].
Lemma supp_ctl S1 S2 n ncb t ctl ts : supported S1 S2 n ncb (IGate t ctl ts) -> Forall (fun i => i < n /\ Forall (fun p : nat * bool => fst p < n /\ fst p <> i) ctl) ts.
Proof.
  destruct ctl as [|[b []] [|]]; cbn [supported]; intros H; try contradiction.
  - destruct H as [_ H]. apply Forall_impl with (2 := H). intros i Hi. auto.
  - destruct H as [_ [Hb H]]. apply Forall_impl with (2 := H). intros i [Hi Hbi]. split; [exact Hi|]. constructor; [cbn [fst]; auto|constructor].
Qed.
Lemma flat_isGate {A} (f : A -> list op) l : (forall a, forallb isGate (f a) = true) -> forallb isGate (flat_map f l) = true.
Proof. intros H. apply forallb_forall. intros o Ho. apply in_flat_map in Ho. destruct Ho as [a [_ Ho]]. specialize (H a). rewrite forallb_forall in H. now apply H. Qed.
Lemma trans_gate k n g ctl ts : forallb isGate (transversal k n g ctl ts) = true.
Proof. apply flat_isGate. intros t. apply forallb_forall. intros o Ho. apply in_map_iff in Ho. destruct Ho as [j [<- _]]. reflexivity. Qed.
Lemma stab_chk stabs nd : forallb (forallb (fun p : gt * nat => snd p <? nd)) stabs = true -> forall l, In l stabs -> forall p, In p l -> snd p < nd.
Proof. intros Q l Hl p Hp. rewrite forallb_forall in Q. specialize (Q l Hl). rewrite forallb_forall in Q. now apply Nat.ltb_lt, Q. Qed.
Definition q3S1 := [GX; GY; GZ]. Definition q3S2 := [GX; GZ]. Definition s9S1 := [GX; GY; GZ]. Definition s9S2 := [GX].
Lemma q3_whole (kind : matrix -> Prop) (lv : Prop) : (forall E, (forall i m j, E i = Some (m, j) -> kind m /\ j < 3) -> roundOK q3Shor q3stabs lv E) -> faithful q3Shor (allZero q3Shor) q3S1 q3S2 kind lv.
Proof.
  intros HE. apply (whole q3Shor q3stabs q3log).
  - cbn; lia.
  - exact reg_q3.
  - exact (proj1 q3_encdec).
  - exact q3_comp.
  - intros n ncb. apply flat_isGate. reflexivity.
  - intros n ncb. apply flat_isGate. reflexivity.
  - intros n ncb. apply in_data. apply loop_in. intros i Hi. apply (in_q3enc _ _ (fun j => j) 3 0); auto; dat.
  - intros n ncb. apply in_data. apply loop_in. intros i Hi. apply (in_q3dec _ _ (fun j => j) 3 0); auto; dat.
  - now apply stab_chk.
  - intros t [<-|[<-|[<-|[]]]]; [exact q3_X|exact q3_Y|exact q3_Z].
  - intros t [<-|[<-|[]]]; (split; [|reflexivity]); [exact q3_CX|exact q3_CZ].
  - intros n ncb g c Hm Hs Eg. destruct g as [t ctl ts| | |]; try discriminate Hm; [|injection Eg as <-; split; reflexivity|destruct Hs].
    assert (Ec : c = transversal 3 n t ctl ts) by (destruct t; try discriminate Eg; injection Eg as <-; reflexivity). subst c. split; [apply trans_gate|]. apply in_data. apply trans_in; [reflexivity|]. exact (supp_ctl _ _ _ _ _ _ _ Hs).
  - intros n ncb t ctl Ht. destruct t; try reflexivity. destruct Ht as [[H|[H|[H|[]]]]|[H|[H|[]]]]; discriminate H.
  - intros n ncb t ctl i ts Ht. destruct t; try reflexivity; cbn [gateOf]; unfold gateOf; cbn [isMeas e_map q3Shor q3map isDecoded andb bind]; unfold transversal; cbn [flat_map]; rewrite app_nil_r; reflexivity.
  - reflexivity.
  - reflexivity.
  - intros n ncb. apply (bits_from ncb 2). exact (proj2 (proj2 (proj1 q3_bits n ncb))).
  - exact HE.
  - reflexivity.
  - intros n ncb f [Hz Hc]. split; [intros i j Hi Hj Hj'; apply Hz; auto; lia|]. split; [exact Hc|]. change (encodeOf q3Shor n ncb (mkFl true false)) with (@nil op). intros x. symmetry. change (after [] f x) with (f x). apply after_fixed.
    intros o Ho. change (encodeOf q3Shor n ncb (mkFl true true)) with (loop n (fun i => q3encBlock (fun j => i + j * n)%nat)) in Ho. unfold loop in Ho. apply in_flat_map in Ho. destruct Ho as [i [Hi Ho]]. apply in_seq in Hi.
    assert (H0 : gate GZ [] (i + 0 * n)%nat f == f) by (apply Hz; cbn; lia). destruct Ho as [<-|[<-|[]]]; (split; [reflexivity|]); (apply cx_fixed; [exact H0|lia]).
Qed.
Lemma s9gate_gate n g ctl ts : forallb isGate (s9gate n g ctl ts) = true.
Proof.
  apply flat_isGate. intros t. destruct ctl as [|p ctl]; [reflexivity|]. apply flat_isGate. intros j. rewrite !forallb_app. cbn [forallb isGate].
  assert (H : forall l : list (nat * bool), forallb isGate (map (fun p => h_ (fst p)) l) = true) by (induction l; auto). now rewrite !H.
Qed.
Lemma s9_whole (kind : matrix -> Prop) (lv : Prop) : (forall E, (forall i m j, E i = Some (m, j) -> kind m /\ j < 9) -> roundOK q9Shor s9stabs lv E) -> faithful q9Shor (anyInput q9Shor) s9S1 s9S2 kind lv.
Proof.
  intros HE. apply (whole q9Shor s9stabs s9log).
  - cbn; lia.
  - exact reg_s9.
  - exact (proj1 s9_encdec).
  - exact s9_comp.
  - intros n ncb. apply flat_isGate. reflexivity.
  - intros n ncb. apply flat_isGate. reflexivity.
  - intros n ncb. apply in_data. apply loop_in. intros i Hi. apply (in_s9enc _ _ (fun j => j) 9 0); auto; dat.
  - intros n ncb. apply in_data. apply loop_in. intros i Hi. apply (in_s9dec _ _ (fun j => j) 9 0); auto; dat.
  - now apply stab_chk.
  - intros t [<-|[<-|[<-|[]]]]; [exact s9_X|exact s9_Y|exact s9_Z].
  - intros t [<-|[]]; split; [exact s9_CX|reflexivity].
  - intros n ncb g c Hm Hs Eg. destruct g as [t ctl ts| | |]; try discriminate Hm; [|injection Eg as <-; split; reflexivity|destruct Hs].
    assert (Ec : exists t', c = s9gate n t' ctl ts) by (destruct t; try discriminate Eg; injection Eg as <-; eexists; reflexivity). destruct Ec as [t' ->]. split; [apply s9gate_gate|]. apply in_data. apply (s9gate_in 0). exact (supp_ctl _ _ _ _ _ _ _ Hs).
  - intros n ncb t ctl Ht. destruct t; try reflexivity; destruct Ht as [[H|[H|[H|[]]]]|[H|[]]]; discriminate H.
  - intros n ncb t ctl i ts Ht. destruct t; try reflexivity; unfold gateOf; cbn [isMeas e_map q9Shor s9map isDecoded andb bind]; unfold s9gate; cbn [flat_map]; rewrite app_nil_r; reflexivity.
  - reflexivity.
  - reflexivity.
  - intros n ncb. apply (bits_from ncb 8). exact (proj2 (proj2 (proj1 s9_bits n ncb))).
  - exact HE.
  - intros n ncb. apply flat_isGate. reflexivity.
  - intros n ncb f [Hz Hc]. split; [exact Hz|]. split; [exact Hc|]. intros x. reflexivity.
Qed.
