(** * EccEnc3: the encoders and decoders of the codes *)
From Coq Require Import NArith ZArith Ring.
From Verif Require Export EccEnds.
Local Open Scope amp_scope.

(** ** Rounds *)
Lemma q3_roundEnc : roundEncodes q3Shor q3stabs.
Proof.
  apply (roundEnc_of q3Shor q3stabs q3rest); [reflexivity|reflexivity|vm_compute; reflexivity|]. intros n ncb c. unfold roundOf. cbn [e_mc e_red e_cor q3Shor q3mc isDecoded gatesWritten orb negb snd]. unfold loop.
  apply ceq_flat. intros i c' _. rewrite q3_template. apply ceq_refl.
Qed.
Lemma s9_roundEnc : roundEncodes q9Shor s9stabs.
Proof.
  apply (roundEnc_of q9Shor s9stabs s9rest); [reflexivity|reflexivity|exact s9_ends|]. intros n ncb c. unfold roundOf. cbn [e_mc e_red e_cor q9Shor s9mc isDecoded gatesWritten orb negb snd]. unfold loop.
  apply ceq_flat. intros i c' _. rewrite (Nat.mul_comm 9 n), s9_template. apply ceq_refl.
Qed.
Lemma l5_roundEnc : roundEncodes q5Laflamme l5stabs.
Proof.
  apply (roundEnc_of q5Laflamme l5stabs l5rest); [reflexivity|reflexivity|vm_compute; reflexivity|]. intros n ncb c. unfold roundOf. cbn [e_mc e_red e_cor q5Laflamme l5mc isDecoded gatesWritten orb negb snd]. unfold loop.
  apply ceq_flat. intros i c' _. apply l5_template. unfold aq. lia.
Qed.
Lemma s7_single x n ncb : s7single x n ncb true = flat_map (blockC n 7 3 ncb (s7rest x)) (seq 0 n).
Proof. unfold s7single, loop. apply flat_map_ext. intros i. apply s7_template. Qed.
Lemma s7_x_fixes n ncb f cr rec i : i < n -> fixesB n i (map Xs hamming) (st (run (s7single true n ncb true) (mkConf cr rec f))).
Proof.
  intros Hi. rewrite s7_single. apply (blocks_fix n 7 3 ncb (s7rest true) [] (map Xs hamming) eq_refl eq_refl eq_refl ltac:(vm_compute; reflexivity)).
  - apply seq_NoDup.
  - intros j Hj. now apply in_all.
  - intros j _ l [].
  - now apply in_all.
Qed.
Lemma s7_roundEnc : roundEncodes q7Steane s7stabs.
Proof.
  intros n ncb f cr rec i l Hi Hl. change (gatesOf (fun j => i + j * n)%nat) with (word (dq n i)). unfold roundOf. cbn [e_mc q7Steane s7mc isDecoded gatesWritten orb negb snd]. rewrite run_app, (run_st (s7single true n ncb true)).
  rewrite (s7_single false). apply (blocks_fix n 7 3 ncb (s7rest false) (map Xs hamming) s7stabs eq_refl eq_refl eq_refl ltac:(vm_compute; reflexivity)).
  - apply seq_NoDup.
  - intros j Hj. now apply in_all.
  - intros j Hj. apply s7_x_fixes. now apply in_all.
  - now apply in_all.
  - exact Hl.
Qed.
(** ** Encoding 0 *)
Definition allZ (nd : nat) : list (list (gt * nat)) := map (fun j => [(GZ, j)]) (seq 0 nd).
Lemma zeros_allZ n nd f : zeros n 0 nd f -> forall i, i < n -> fixesB n i (allZ nd) f.
Proof. unfold zeros, fixesB, allZ. intros H i Hi l Hl. apply in_map_iff in Hl. destruct Hl as [j [<- Hj]]. apply in_seq in Hj. intros x. exact (H i j Hi ltac:(lia) ltac:(lia) x). Qed.
Lemma allZ_bd nd : stBd nd (allZ nd) = true.
Proof. unfold stBd, allZ. apply forallb_forall. intros l Hl. apply in_map_iff in Hl. destruct Hl as [j [<- Hj]]. apply in_seq in Hj. cbn [forallb snd]. rewrite andb_true_r. apply Nat.ltb_lt. lia. Qed.
(** the outcome from what fixes the blocks *)
Lemma zero_of n stabs L f' : (forall i, i < n -> fixesB n i (stabs ++ [LZ L]) f') -> encoded n stabs f' /\ forall i, i < n -> onBlock n i (LZ L) f' == f'.
Proof. intros H. split; [intros i l Hi Hl; apply (H i Hi l); apply in_app_iff; now left|]. intros i Hi. apply (H i Hi (LZ L)). apply in_app_iff. right. now left. Qed.
Lemma q3_zero n : encodesZero q3Shor q3stabs q3log n.
Proof.
  intros ncb f Hz _ cr rec. cbv zeta. change (st (run (encodeOf q3Shor n ncb (mkFl true false)) (mkConf cr rec f))) with f. apply zero_of. intros i Hi l Hl. pose proof (zeros_allZ n 3 f Hz i Hi) as Hf.
  pose proof (ends_sound 3 (dq n i) (dq_inj1 n i 3 Hi) 0 f (allZ 3) Hf (q3stabs ++ [LZ q3log]) [] ltac:(vm_compute; reflexivity) cr rec l Hl) as G. exact G.
Qed.
Lemma s9_zero n : encodesZero q9Shor s9stabs s9log n.
Proof.
  intros ncb f Hz _ cr rec. cbv zeta. apply zero_of. intros i Hi. pose proof (zeros_allZ n 9 f Hz) as Hf.
  exact (pure_fixes n 9 (s9encBlock idq) (allZ 9) (s9stabs ++ [LZ s9log]) eq_refl eq_refl eq_refl ltac:(vm_compute; reflexivity) f Hf cr rec i Hi).
Qed.
Lemma s7_zero n : encodesZero q7Steane s7stabs s7log n.
Proof.
  intros ncb f Hz Ha cr rec. cbv zeta. apply zero_of. intros i Hi. pose proof (zeros_allZ n 7 f Hz) as Hf.
  replace (encodeOf q7Steane n ncb (mkFl true false)) with (flat_map (fun i => (if 0 <? i then map Reset (ancs 3 (aq n 7)) else []) ++ map (ren (place 7 (dq n i) (aq n 7)) ncb) (s7rest true)) (seq 0 n)).
  - refine (first_fixes n 7 3 ncb (s7rest true) (allZ 7) (s7stabs ++ [LZ s7log]) eq_refl eq_refl eq_refl _ f Ha Hf cr rec i Hi). vm_compute. reflexivity.
  - unfold encodeOf. cbn [e_enc q7Steane s7enc isDecoded gatesWritten snd app]. unfold s7single, loop. apply flat_map_ext. intros j. cbn [orb]. destruct (0 <? j).
    + symmetry. apply (s7_template true (fun k => j + k * n)%nat (fun k => n * 7 + k)%nat ncb).
    + pose proof (s7_template true (fun k => j + k * n)%nat (fun k => n * 7 + k)%nat ncb) as G. unfold s7Block in *. cbn [app] in *. apply (f_equal (skipn 3)) in G. symmetry. exact G.
Qed.
Lemma l5_zero : encodesZero q5Laflamme l5stabs l5log 1.
Proof.
  intros ncb f Hz _ cr rec. cbv zeta. apply zero_of. intros i Hi l Hl. 
  change (encodeOf q5Laflamme 1 ncb (mkFl true false)) with (roundOf q5Laflamme 1 ncb ++ [Reset 5] ++ loop 1 (fun i => l5encBlock (fun j => i + j * 1)%nat 5 (ncb + 4))).
  rewrite run_app. rewrite (run_st (roundOf q5Laflamme 1 ncb)). set (c1 := run (roundOf q5Laflamme 1 ncb) (mkConf cr rec f)).
  assert (Hc : forall l', In l' l5stabs -> after (word (dq 1 i) l') (st c1) == st c1) by (intros l' Hl'; exact (l5_roundEnc 1 ncb f cr rec i l' Hi Hl')).
  assert (i = 0)%nat by lia. subst i.
  assert (Hrho : forall j, j < 6 -> j = dq 1 0 j) by (intros; unfold dq; lia).
  pose proof (ends_sound 6 (fun j => j) (fun a b _ _ E => E) ncb (st c1) l5stabs) as G.
  assert (Hw : forall l', stBd 5 [l'] = true -> word (fun j => j) l' = word (dq 1 0) l').
  { intros l' Hb. unfold word. apply map_ext_in. intros p Hp. f_equal. apply Hrho. assert (snd p < 5); [|lia]. apply (stBd_ok 5 [l'] l' p Hb); [now left|exact Hp]. }
  assert (Hall : forall l', In l' (l5stabs ++ [LZ l5log]) -> stBd 5 [l'] = true).
  { intros l' Hl'. assert (Q : forallb (fun l' => stBd 5 [l']) (l5stabs ++ [LZ l5log]) = true) by reflexivity. rewrite forallb_forall in Q. now apply Q. }
  specialize (G (fun l' Hl' => eq_ind_r (fun o => after o (st c1) == st c1) (Hc l' Hl') (Hw l' (Hall l' (proj2 (in_app_iff _ _ _) (or_introl Hl')))))).
  specialize (G (l5stabs ++ [LZ l5log]) ([Reset 5] ++ l5encBlock idq 5 4) ltac:(vm_compute; reflexivity) (creg c1) (outs c1) l Hl).
  rewrite (Hw l (Hall l Hl)) in G. exact G.
Qed.
(** ** Decoding by measurement *)
Section MeasDec.
Variables (e : ecc) (stabs : list stabilizer) (L : logicals) (dt : list op) (off : nat -> nat -> nat).
Notation nd := (e_red e).
Hypothesis Hin : forallb (inT nd) dt = true.
Hypothesis Hst : stBd nd stabs = true.
Hypothesis Hl : lgBd nd L = true.
Hypothesis H0 : 0 < nd.
Hypothesis Hsame : sameW nd stabs (dt ++ word (fun j => j) [(GZ, 0)]) (word (fun j => j) (LZ L) ++ dt) = true.
Hypothesis Hd : forall n ncb, decodeOf e n ncb = flat_map (fun i => map (ren (dq n i) (off ncb i)) dt) (seq 0 n).
Lemma decodesZ_of : decodesZ e stabs L.
Proof.
  intros n ncb f Hf cr rec i Hi. cbv zeta. rewrite Hd. intros x. rewrite (one_dq n i). unfold onBlock. change (gatesOf (fun j => i + j * n)%nat) with (word (dq n i)).
  apply (loop_carry n nd (fun i => map (ren (dq n i) (off ncb i)) dt)) with (Pre := stabs); auto.
  - intros i1 i2 j' Hi1 Hi2 Hn Hj. apply (tpl_avoids n nd _ _ _ i1); auto. intros j _. now apply dq_other.
  - intros l Hl' p Hp. exact (stBd_ok nd stabs l p Hst Hl' Hp).
  - intros p Hp. apply (lgBd_ok nd L p Hl). now right.
  - intros p [<-|[]]. exact H0.
  - intros i' cr' rec' g Hi' Hg y. pose proof (sameW_sound nd (dq n i') (dq_inj1 n i' nd Hi') (off ncb i') g stabs Hg _ _ Hsame cr' rec' y) as G. rewrite !map_app, !run_app, !ren_word in G.
    rewrite run_word in G. rewrite (run_st (map (ren (dq n i') (off ncb i')) dt) _) in G at 1. change (fun j => dq n i' j) with (dq n i') in G. rewrite st_word in G. rewrite G. apply run_ext. apply st_word.
  - apply seq_NoDup.
  - intros i' Hi'. now apply in_all.
  - intros i' Hi' l Hl'. apply in_all in Hi'. exact (Hf i' l Hi' Hl').
  - now apply in_all.
Qed.
End MeasDec.
Lemma s7_decZ : decodesZ q7Steane s7stabs s7log.
Proof.
  apply (decodesZ_of q7Steane s7stabs s7log (s7decBlock idq 0) (fun ncb _ => ncb) eq_refl eq_refl eq_refl ltac:(cbn; lia) ltac:(vm_compute; reflexivity)).
  intros n ncb. unfold decodeOf. cbn [e_dec q7Steane s7dec isDecoded gatesWritten snd]. unfold loop. apply flat_map_ext. intros i. unfold s7decBlock. cbn [map app ren Nat.add]. unfold dq, idq. rewrite (Nat.add_0_r ncb). reflexivity.
Qed.
Lemma l5_decZ : decodesZ q5Laflamme l5stabs l5log.
Proof.
  apply (decodesZ_of q5Laflamme l5stabs l5log (l5decBlock idq 0) (fun ncb _ => ncb) eq_refl eq_refl eq_refl ltac:(cbn; lia) ltac:(vm_compute; reflexivity)).
  intros n ncb. unfold decodeOf. cbn [e_dec q5Laflamme l5dec isDecoded gatesWritten snd]. unfold loop. apply flat_map_ext. intros i. unfold l5decBlock. cbn [map seq app ren Nat.add Nat.sub]. unfold dq, idq. rewrite !(Nat.add_comm ncb). replace (1 + ncb - 1)%nat with (0 + ncb)%nat by lia. replace (2 + ncb - 1)%nat with (1 + ncb)%nat by lia. replace (3 + ncb - 1)%nat with (2 + ncb)%nat by lia. replace (4 + ncb - 1)%nat with (3 + ncb)%nat by lia. reflexivity.
Qed.
Lemma f9_decZ : decodesZ q9Surface f9stabs f9log.
Proof.
  apply (decodesZ_of q9Surface f9stabs f9log (f9decBlock idq 0) (fun _ i => i) eq_refl eq_refl eq_refl ltac:(cbn; lia) ltac:(vm_compute; reflexivity)).
  intros n ncb. unfold decodeOf. cbn [e_dec q9Surface f9dec isDecoded gatesWritten snd]. unfold loop. apply flat_map_ext. intros i. unfold f9decBlock. cbn [map ren cx fst snd]. unfold dq, idq. rewrite (Nat.add_0_r i). reflexivity.
Qed.
Lemma decodesZ_pure e stabs L : (forall n ncb, forallb (fun o => match o with Gate _ _ _ | Swap _ _ => true | _ => false end) (decodeOf e n ncb) = true) -> decodes e stabs L -> decodesZ e stabs L.
Proof.
  intros Hp Hd n ncb f Hf cr rec i Hi. cbv zeta. destruct (Hd n ncb f Hf) as [_ H]. destruct (H i Hi) as [_ Hz]. intros x.
  rewrite (gate_ext GZ [] i _ _ (pure_after _ cr rec f (Hp n ncb))), (Hz x). symmetry. now apply pure_after.
Qed.
Lemma q3_decZ : decodesZ q3Shor q3stabs q3log.
Proof. apply decodesZ_pure; [|apply q3_encdec]. intros n ncb. exact (flat_pure n (q3decBlock idq) eq_refl). Qed.
Lemma s9_decZ : decodesZ q9Shor s9stabs s9log.
Proof. apply decodesZ_pure; [|apply s9_encdec]. intros n ncb. exact (flat_pure n (s9decBlock idq) eq_refl). Qed.
