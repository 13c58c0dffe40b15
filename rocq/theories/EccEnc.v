(** * EccEnc: encoding and decoding *)
From Coq Require Import NArith ZArith Ring.
From Verif Require Export EccLogical.
Local Open Scope amp_scope.

Section Loop.
Variables (n nd : nat) (B : nat -> list op).
Hypothesis Bav : forall i i' j', i < n -> i' < n -> i <> i' -> j' < nd -> forallb (avoids (dq n i' j')) (B i) = true.
Definition bd (l : list (gt * nat)) : Prop := forall p, In p l -> snd p < nd.
Definition fixesB (i : nat) (words : list (list (gt * nat))) (f : state) : Prop := forall l, In l words -> after (word (dq n i) l) f == f.
Lemma loop_avoids i j L : i < n -> j < nd -> (forall i', In i' L -> i' < n) -> ~ In i L -> forallb (avoids (dq n i j)) (flat_map B L) = true.
Proof.
  intros Hi Hj. induction L as [|h L IHL]; intros HL Hn; [reflexivity|]. cbn [flat_map]. rewrite forallb_app. apply andb_true_iff. split.
  - apply Bav; auto; [apply HL; now left|]. intros ->. apply Hn. now left.
  - apply IHL; [intros i' Hi'; apply HL; now right|]. intros Hi'. apply Hn. now right.
Qed.
Lemma loop_comm i l L : i < n -> bd l -> (forall i', In i' L -> i' < n) -> ~ In i L -> forall cr rec f,
  st (run (flat_map B L) (mkConf cr rec (after (word (dq n i) l) f))) == after (word (dq n i) l) (st (run (flat_map B L) (mkConf cr rec f))).
Proof. intros Hi Hb HL Hn. apply word_comm. intros p Hp. apply loop_avoids; auto. Qed.
Lemma frame i l L : i < n -> bd l -> (forall i', In i' L -> i' < n) -> ~ In i L -> forall cr rec f,
  after (word (dq n i) l) f == f -> after (word (dq n i) l) (st (run (flat_map B L) (mkConf cr rec f))) == st (run (flat_map B L) (mkConf cr rec f)).
Proof. intros Hi Hb HL Hn cr rec f Hf x. rewrite <- loop_comm by auto. now apply run_ext. Qed.
Lemma run_st os c : run os c = mkConf (creg (run os c)) (outs (run os c)) (st (run os c)). Proof. now destruct (run os c). Qed.
Variables (Pre Post : list (list (gt * nat))).
Hypothesis Pbd : forall l, In l Pre -> bd l.
Hypothesis Qbd : forall l, In l Post -> bd l.
Lemma loop_fixes L : NoDup L -> (forall i, In i L -> i < n) -> (forall i cr rec f, In i L -> fixesB i Pre f -> fixesB i Post (st (run (B i) (mkConf cr rec f)))) -> forall f, (forall i, In i L -> fixesB i Pre f) ->
  forall cr rec i, In i L -> fixesB i Post (st (run (flat_map B L) (mkConf cr rec f))).
Proof.
  induction L as [|h L IHL]; intros Hnd HL Bfix f Hf cr rec i Hi; [destruct Hi|]. inversion Hnd as [|h0 L0 Hh HndL]; subst h0 L0. cbn [flat_map]. rewrite run_app.
  assert (HLt : forall i, In i L -> i < n) by (intros i' Hi'; apply HL; now right). assert (Hhn : h < n) by (apply HL; now left).
  rewrite (run_st (B h)). destruct Hi as [<-|Hi].
  - intros l Hl. apply frame; auto. apply Bfix; [now left|apply Hf; now left|exact Hl].
  - apply IHL; auto; [intros i' cr' rec' g Hi'; apply Bfix; now right|]. intros i' Hi' l Hl. assert (Hne : ~ In i' [h]) by (intros [->|[]]; contradiction).
    pose proof (frame i' l [h] (HLt i' Hi') (Pbd l Hl) (fun x Hx => match Hx with or_introl E => eq_ind h (fun z => z < n) Hhn x E | or_intror F => match F with end end) Hne cr rec f (Hf i' (or_intror Hi') l Hl)) as G.
    cbn [flat_map] in G. rewrite app_nil_r in G. exact G.
Qed.
(** a word before block i is another after it *)
Variables (wA wB : list (gt * nat)).
Hypothesis Abd : bd wA.
Hypothesis Bbd : bd wB.
Hypothesis Bcar : forall i cr rec f, i < n -> fixesB i Pre f -> after (word (dq n i) wB) (st (run (B i) (mkConf cr rec f))) == st (run (B i) (mkConf cr rec (after (word (dq n i) wA) f))).
Lemma loop_carry L : NoDup L -> (forall i, In i L -> i < n) -> forall f, (forall i, In i L -> fixesB i Pre f) ->
  forall cr rec i, In i L -> after (word (dq n i) wB) (st (run (flat_map B L) (mkConf cr rec f))) == st (run (flat_map B L) (mkConf cr rec (after (word (dq n i) wA) f))).
Proof.
  induction L as [|h L IHL]; intros Hnd HL f Hf cr rec i Hi; [destruct Hi|]. inversion Hnd as [|h0 L0 Hh HndL]; subst h0 L0. cbn [flat_map]. rewrite !run_app.
  assert (HLt : forall i, In i L -> i < n) by (intros i' Hi'; apply HL; now right). assert (Hhn : h < n) by (apply HL; now left).
  assert (H1 : forall x, In x [h] -> x < n) by (intros x [<-|[]]; exact Hhn).
  set (c1 := run (B h) (mkConf cr rec f)). set (c2 := run (B h) (mkConf cr rec (after (word (dq n i) wA) f))).
  assert (Ec : creg c1 = creg c2 /\ outs c1 = outs c2) by (destruct (run_cr (B h) (mkConf cr rec (after (word (dq n i) wA) f)) f) as [E1 E2]; split; [exact E1|exact E2]). destruct Ec as [Ec1 Ec2].
  intros x. destruct Hi as [<-|Hi].
  - assert (Hc1 : c1 = mkConf (creg c1) (outs c1) (st c1)) by now destruct c1. rewrite Hc1 at 1. rewrite <- loop_comm by auto. rewrite (run_at _ c2 (after (word (dq n h) wB) (st c1))).
    + rewrite Ec1, Ec2. reflexivity.
    + intros y. symmetry. apply Bcar; auto. apply Hf. now left.
  - assert (Hne : ~ In i [h]) by (intros [->|[]]; contradiction). rewrite (run_at _ c2 (after (word (dq n i) wA) (st c1))).
    + rewrite <- Ec1, <- Ec2. rewrite <- IHL; auto; [now destruct c1|]. intros i' Hi' l Hl. assert (Hne' : ~ In i' [h]) by (intros [->|[]]; contradiction).
      pose proof (frame i' l [h] (HLt i' Hi') (Pbd l Hl) H1 Hne' cr rec f (Hf i' (or_intror Hi') l Hl)) as G. cbn [flat_map] in G. rewrite app_nil_r in G. exact G.
    + intros y. pose proof (loop_comm i wA [h] (HLt i Hi) Abd H1 Hne cr rec f y) as G. cbn [flat_map] in G. rewrite app_nil_r in G. exact G.
Qed.
End Loop.
Lemma in_all n i : In i (seq 0 n) <-> i < n. Proof. rewrite in_seq. lia. Qed.
Lemma tpl_avoids n w rho off tp i i' j' : forallb (inT w) tp = true -> (forall j, j < w -> rho j <> dq n i' j') -> i < n -> forallb (avoids (dq n i' j')) (map (ren rho off) tp) = true.
Proof.
  intros Hi Hr _. apply forallb_forall. intros o Ho. apply in_map_iff in Ho. destruct Ho as [o' [<- Ho]]. rewrite forallb_forall in Hi. apply (inT_avoids w); [now apply Hi|exact Hr].
Qed.
Lemma dq_other n i i' j j' : i < n -> i' < n -> i <> i' -> dq n i j <> dq n i' j'.
Proof. intros Hi Hi' Hn E. apply dq_inj in E; auto. destruct E; congruence. Qed.
Definition bdB (nd : nat) (words : list (list (gt * nat))) : bool := stBd nd words.
Lemma pure_after os cr rec f : forallb (fun o => match o with Gate _ _ _ | Swap _ _ => true | _ => false end) os = true -> st (run os (mkConf cr rec f)) == after os f.
Proof.
  unfold after, run. revert cr rec f. induction os as [|o os IHo]; intros cr rec f Hp x; [reflexivity|]. cbn [forallb] in Hp. apply andb_true_iff in Hp. destruct Hp as [H1 H2]. cbn [fold_left].
  destruct o; try discriminate; cbn [step st creg outs]; rewrite (IHo cr rec _ H2); symmetry; apply IHo; exact H2.
Qed.
(** ** Circuits of gates only, on the qubits of the block *)
Section Pure.
Variables (n nd : nat) (tp : list op) (Pre Post : list (list (gt * nat))).
Hypothesis Hin : forallb (inT nd) tp = true.
Hypothesis Hpre : stBd nd Pre = true.
Hypothesis Hpost : stBd nd Post = true.
Notation B := (fun i => map (ren (dq n i) 0) tp).
Lemma pure_av i i' j' : i < n -> i' < n -> i <> i' -> j' < nd -> forallb (avoids (dq n i' j')) (B i) = true.
Proof. intros Hi Hi' Hn Hj. apply (tpl_avoids n nd _ _ _ i); auto. intros j _. now apply dq_other. Qed.
Lemma pure_fixes : ends nd Pre Post tp = true -> forall f, (forall i, i < n -> fixesB n i Pre f) -> forall cr rec i, i < n -> fixesB n i Post (st (run (flat_map B (seq 0 n)) (mkConf cr rec f))).
Proof.
  intros He f Hf cr rec i Hi. apply (loop_fixes n nd B pure_av Pre Post); auto.
  - intros l Hl p Hp. exact (stBd_ok nd Pre l p Hpre Hl Hp).
  - intros l Hl p Hp. exact (stBd_ok nd Post l p Hpost Hl Hp).
  - apply seq_NoDup.
  - intros i' Hi'. now apply in_all.
  - intros i' cr' rec' g Hi' Hg l Hl. apply in_all in Hi'. exact (ends_sound nd (dq n i') (dq_inj1 n i' nd Hi') 0 g Pre Hg Post tp He cr' rec' l Hl).
  - intros i' Hi'. apply Hf. now apply in_all.
  - now apply in_all.
Qed.
Lemma pure_carry wA wB : bd nd wA -> bd nd wB -> sameW nd Pre (tp ++ word (fun j => j) wB) (word (fun j => j) wA ++ tp) = true ->
  forall f, (forall i, i < n -> fixesB n i Pre f) -> forall cr rec i, i < n ->
  after (word (dq n i) wB) (st (run (flat_map B (seq 0 n)) (mkConf cr rec f))) == st (run (flat_map B (seq 0 n)) (mkConf cr rec (after (word (dq n i) wA) f))).
Proof.
  intros HA HB He f Hf cr rec i Hi. apply (loop_carry n nd B pure_av Pre); auto.
  - intros l Hl p Hp. exact (stBd_ok nd Pre l p Hpre Hl Hp).
  - intros i' cr' rec' g Hi' Hg x. pose proof (sameW_sound nd (dq n i') (dq_inj1 n i' nd Hi') 0 g Pre Hg _ _ He cr' rec' x) as G. rewrite !map_app, !run_app, !ren_word in G.
    rewrite run_word in G. rewrite (run_st (map (ren (dq n i') 0) tp) _) in G at 1. change (fun j => dq n i' j) with (dq n i') in G. rewrite st_word in G. rewrite G. apply run_ext. apply st_word.
  - apply seq_NoDup.
  - intros i' Hi'. now apply in_all.
  - intros i' Hi'. apply Hf. now apply in_all.
  - now apply in_all.
Qed.
End Pure.
Lemma flat_pure n tp : forallb (fun o => match o with Gate _ _ _ | Swap _ _ => true | _ => false end) tp = true ->
  forallb (fun o => match o with Gate _ _ _ | Swap _ _ => true | _ => false end) (flat_map (fun i => map (ren (dq n i) 0) tp) (seq 0 n)) = true.
Proof.
  intros H. rewrite forallb_forall in *. intros o Ho. apply in_flat_map in Ho. destruct Ho as [i [_ Ho]]. apply in_map_iff in Ho. destruct Ho as [o' [<- Ho]]. specialize (H o' Ho). destruct o'; auto.
Qed.
Definition redW (nd : nat) : list (list (gt * nat)) := map (fun j => [(GZ, j)]) (seq 1 (nd - 1)).
Lemma zeros_redW n nd f : zeros n 1 nd f <-> forall i, i < n -> fixesB n i (redW nd) f.
Proof.
  unfold zeros, fixesB, redW. split.
  - intros H i Hi l Hl. apply in_map_iff in Hl. destruct Hl as [j [<- Hj]]. apply in_seq in Hj. intros x. exact (H i j Hi ltac:(lia) ltac:(lia) x).
  - intros H i j Hi H1 Hj x. refine (H i Hi [(GZ, j)] _ x). apply in_map_iff. exists j. split; [reflexivity|]. apply in_seq. lia.
Qed.
Section EncDec.
Variables (e : ecc) (stabs : list stabilizer) (L : logicals) (et dt : list op).
Notation nd := (e_red e).
Definition encDecChk : bool :=
  forallb (inT nd) et && forallb (inT nd) dt && stBd nd stabs && lgBd nd L && (0 <? nd) &&
  forallb (fun o => match o with Gate _ _ _ | Swap _ _ => true | _ => false end) (et ++ dt) &&
  ends nd (redW nd) stabs et && ends nd stabs (redW nd) dt &&
  sameW nd (redW nd) (et ++ word (fun j => j) (LX L)) (word (fun j => j) [(GX, 0)] ++ et) && sameW nd (redW nd) (et ++ word (fun j => j) (LZ L)) (word (fun j => j) [(GZ, 0)] ++ et) &&
  sameW nd stabs (dt ++ word (fun j => j) [(GX, 0)]) (word (fun j => j) (LX L) ++ dt) && sameW nd stabs (dt ++ word (fun j => j) [(GZ, 0)]) (word (fun j => j) (LZ L) ++ dt).
Hypothesis Hchk : encDecChk = true.
Hypothesis He : forall n ncb, encodeOf e n ncb (mkFl true true) = flat_map (fun i => map (ren (dq n i) 0) et) (seq 0 n).
Hypothesis Hd : forall n ncb, decodeOf e n ncb = flat_map (fun i => map (ren (dq n i) 0) dt) (seq 0 n).
Lemma redW_bd : stBd nd (redW nd) = true.
Proof. unfold stBd, redW. apply forallb_forall. intros l Hl. apply in_map_iff in Hl. destruct Hl as [j [<- Hj]]. apply in_seq in Hj. cbn [forallb snd]. rewrite andb_true_r. apply Nat.ltb_lt. lia. Qed.
Lemma one_dq n i g f : gate g [] i f == after (word (dq n i) [(g, 0)]) f.
Proof. intros x. unfold dq. cbn [word map fst snd]. rewrite Nat.mul_0_l, Nat.add_0_r. reflexivity. Qed.
Lemma encDec_ok : encodes e stabs L /\ decodes e stabs L.
Proof.
  unfold encDecChk in Hchk. rewrite !andb_true_iff in Hchk. destruct Hchk as [[[[[[[[[[[H1 H2] H3] H4] H0] H5] H6] H7] H8] H9] H10] H11].
  apply Nat.ltb_lt in H0. rewrite forallb_app in H5. apply andb_true_iff in H5. destruct H5 as [H5e H5d].
  assert (BX : bd nd (LX L)) by (intros p Hp; apply (lgBd_ok nd L p H4); now left). assert (BZ : bd nd (LZ L)) by (intros p Hp; apply (lgBd_ok nd L p H4); now right).
  assert (B0 : forall g, bd nd [(g, 0)]) by (intros g p [<-|[]]; exact H0).
  split.
  - intros n ncb f Hf. cbv zeta. rewrite He. pose proof (proj1 (zeros_redW n nd f) Hf) as Hf0; clear Hf; rename Hf0 into Hf. split.
    + intros i l Hi Hl. exact (pure_fixes n nd et (redW nd) stabs H1 redW_bd H3 H6 f Hf 0%N [] i Hi l Hl).
    + intros i Hi. unfold onBlock. change (gatesOf (fun j => i + j * n)%nat) with (word (dq n i)).
      split; intros x; [rewrite (after_ext _ _ _ (one_dq n i GX f))|rewrite (after_ext _ _ _ (one_dq n i GZ f))].
      * exact (pure_carry n nd et (redW nd) H1 redW_bd _ _ (B0 GX) BX H8 f Hf 0%N [] i Hi x).
      * exact (pure_carry n nd et (redW nd) H1 redW_bd _ _ (B0 GZ) BZ H9 f Hf 0%N [] i Hi x).
  - intros n ncb f Hf. cbv zeta. rewrite Hd.
    assert (Hf' : forall i, i < n -> fixesB n i stabs f) by (intros i Hi l Hl; exact (Hf i l Hi Hl)). split.
    + apply (proj2 (zeros_redW n nd _)). intros i Hi. exact (pure_fixes n nd dt stabs (redW nd) H2 H3 redW_bd H7 f Hf' 0%N [] i Hi).
    + intros i Hi. unfold onBlock. change (gatesOf (fun j => i + j * n)%nat) with (word (dq n i)). split; intros x; rewrite (one_dq n i).
      * exact (pure_carry n nd dt stabs H2 H3 _ _ BX (B0 GX) H10 f Hf' 0%N [] i Hi x).
      * exact (pure_carry n nd dt stabs H2 H3 _ _ BZ (B0 GZ) H11 f Hf' 0%N [] i Hi x).
Qed.
End EncDec.
Lemma q3_encdec : encodes q3Shor q3stabs q3log /\ decodes q3Shor q3stabs q3log.
Proof. apply (encDec_ok q3Shor q3stabs q3log (q3encBlock idq) (q3decBlock idq)); [vm_compute; reflexivity|intros n ncb; reflexivity|intros n ncb; reflexivity]. Qed.
Lemma s9_encdec : encodes q9Shor s9stabs s9log /\ decodes q9Shor s9stabs s9log.
Proof. apply (encDec_ok q9Shor s9stabs s9log (s9encBlock idq) (s9decBlock idq)); [vm_compute; reflexivity|intros n ncb; reflexivity|intros n ncb; reflexivity]. Qed.
