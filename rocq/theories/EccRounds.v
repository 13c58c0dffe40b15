(** * EccRounds: a round of correction on every logical qubit *)
From Coq Require Import NArith ZArith Ring.
From Verif Require Export EccRound.
Local Open Scope amp_scope.

Definition inT (w : nat) (o : op) : bool :=
  match o with
  | Gate _ ctl t => (t <? w) && forallb (fun p => fst p <? w) ctl
  | Swap a b => (a <? w) && (b <? w)
  | Reset p | Meas p _ => p <? w
  | If _ t _ _ _ => t <? w
  end.
Lemma inT_avoids w rho off q o : inT w o = true -> (forall j, j < w -> rho j <> q) -> avoids q (ren rho off o) = true.
Proof.
  intros Hi Hq. assert (G : forall j, j < w -> negb (rho j =? q) = true) by (intros j Hj; apply negb_true_iff, Nat.eqb_neq; now apply Hq).
  destruct o; cbn [inT ren avoids] in *; rewrite ?andb_true_iff, ?Nat.ltb_lt in *; try (now apply G); [|destruct Hi; split; now apply G].
  destruct Hi as [Ht Hc]. split; [now apply G|]. rewrite forallb_forall in *. intros p Hp. apply in_map_iff in Hp. destruct Hp as [p0 [<- Hp]]. cbn [fst].
  apply G. apply Nat.ltb_lt. now apply Hc.
Qed.
(** words on absolute qubits *)
Notation W := (word (fun q => q)).
Definition shiftW (d : nat -> nat) (l : list (gt * nat)) : list (gt * nat) := map (fun p => (fst p, d (snd p))) l.
Lemma W_shift d l : W (shiftW d l) = word d l. Proof. unfold word, shiftW. rewrite map_map. reflexivity. Qed.
Lemma after_W_app l1 l2 f : after (W (l1 ++ l2)) f == after (W l2) (after (W l1) f).
Proof. unfold word. rewrite map_app. fold (W l1). fold (W l2). intros x. unfold after. rewrite run_app, run_word. reflexivity. Qed.
Lemma W_comm l1 l2 f : (forall p q, In p l1 -> In q l2 -> snd p <> snd q) -> after (W l1) (after (W l2) f) == after (W l2) (after (W l1) f).
Proof.
  intros H x. unfold after at 1. rewrite (word_comm (W l1) (fun q => q) l2); [reflexivity|].
  intros q Hq. apply forallb_forall. intros o Ho. unfold word in Ho. apply in_map_iff in Ho. destruct Ho as [p [<- Hp]]. cbn [avoids forallb]. rewrite andb_true_r.
  apply negb_true_iff, Nat.eqb_neq. now apply H.
Qed.

Section Rounds.
Variables (n nd na off : nat).
Definition dq (i j : nat) : nat := (i + j * n)%nat.
Definition aq (j : nat) : nat := (n * nd + j)%nat.
Lemma dq_inj i i' j j' : i < n -> i' < n -> dq i j = dq i' j' -> i = i' /\ j = j'.
Proof.
  unfold dq. intros Hi Hi' E. assert (Ej : j = j').
  { replace j with ((i + j * n) / n)%nat by (rewrite Nat.div_add by lia; rewrite Nat.div_small; lia). rewrite E. rewrite Nat.div_add by lia. rewrite Nat.div_small; lia. }
  subst. split; lia.
Qed.
Lemma dq_lt i j : i < n -> j < nd -> dq i j < n * nd.
Proof. unfold dq. intros Hi Hj. assert (j * n <= (nd - 1) * n)%nat by (apply Nat.mul_le_mono_r; lia). nia. Qed.
Lemma dq_aq i j k : i < n -> j < nd -> dq i j <> aq k.
Proof. intros Hi Hj. pose proof (dq_lt i j Hi Hj). unfold aq. lia. Qed.
Notation anc := (ancs na aq).
Lemma anc_nodup : NoDup anc. Proof. apply ancs_nodup. unfold aq. lia. Qed.
Lemma dq_notin i j : i < n -> j < nd -> ~ In (dq i j) anc.
Proof. intros Hi Hj H. unfold ancs in H. apply in_map_iff in H. destruct H as [k [E _]]. symmetry in E. revert E. now apply dq_aq. Qed.

Variable stabs : list (list (gt * nat)).
Variable rest : list op.
Variables (res : perr -> option nat) (synd : perr -> list bool).
(** how the ancillas read after the outcomes of the measurements *)
Variable mu : list bool -> list bool.
Hypothesis Hmu : forall t, length (mu t) = na.
Notation mo := (fun e => mu (synd e)).
Hypothesis Hin : forallb (inT (nd + na)) rest = true.
Definition blockC (i : nat) : list op := map Reset anc ++ map (ren (place nd (dq i) aq) off) rest.
(** the block of logical qubit i is in the code *)
Definition inCode (i : nat) (f : state) : Prop := forall l, In l stabs -> after (word (dq i) l) f == f.
Definition rese (e : perr) : perr := option_map (fun j => (GX, j)) (res e).
Variable E : nat -> perr.
Definition errW (L : list nat) : list (gt * nat) := flat_map (fun i => shiftW (dq i) (eword (E i))) L.
Definition resW (L : list nat) : list (gt * nat) := flat_map (fun i => shiftW (dq i) (eword (rese (E i)))) L.
(** the records in which every measurement finds the syndrome of the error *)
Fixpoint good (L : list nat) (rec : list bool) : Prop :=
  match L with
  | [] => True
  | i :: L' => taken rest (skipn na rec) = synd (E i) /\
               match L' with [] => True | _ => taken (map Reset anc) (skipn (na + nrand rest) rec) = mu (synd (E i)) end /\ good L' (skipn (na + nrand rest) rec)
  end.
Lemma good_exists L : (forall i, length (synd (E i)) = nrand rest) -> forall r, length r = na ->
  exists t, forall t', good L (r ++ t ++ t') /\ taken (map Reset anc) (r ++ t ++ t') = r.
Proof.
  intros Hl. induction L as [|i L IHL]; intros r Hr.
  - exists []. intros t'. split; [exact I|]. cbn [app]. apply taken_app. now rewrite nrand_resets, ancs_length.
  - pose proof (Hl i) as Hs. pose proof (Hmu (synd (E i))) as Hm. destruct (IHL (mu (synd (E i))) Hm) as [t Ht]. exists (synd (E i) ++ mu (synd (E i)) ++ t). intros t'.
    assert (E1 : skipn na (r ++ (synd (E i) ++ mu (synd (E i)) ++ t) ++ t') = synd (E i) ++ mu (synd (E i)) ++ t ++ t').
    { rewrite <- Hr, skipn_app, skipn_all, Nat.sub_diag. cbn [app skipn]. now rewrite <- !app_assoc. }
    assert (E2 : skipn (na + nrand rest) (r ++ (synd (E i) ++ mu (synd (E i)) ++ t) ++ t') = mu (synd (E i)) ++ t ++ t').
    { rewrite <- !app_assoc, app_assoc. replace (na + nrand rest)%nat with (length (r ++ synd (E i))) by (rewrite app_length; lia).
      rewrite skipn_app, skipn_all, Nat.sub_diag. reflexivity. }
    destruct (Ht t') as [G1 G2]. split.
    + cbn [good]. rewrite E1, E2. split; [now apply taken_app|]. split; [destruct L; auto|exact G1].
    + apply taken_app. now rewrite nrand_resets, ancs_length.
Qed.
Lemma blockC_nrand i : nrand (blockC i) = (na + nrand rest)%nat.
Proof. unfold blockC, nrand. rewrite filter_app, app_length. fold (nrand (map Reset anc)). fold (nrand (map (ren (place nd (dq i) aq) off) rest)). now rewrite nrand_ren, nrand_resets, ancs_length. Qed.

Hypothesis Hchk : forall i, roundChk nd na stabs rest (E i) (res (E i)) (synd (E i)) (mu (synd (E i))) = true.
Lemma chk_bounds i : (forall p, In p (eword (E i)) -> snd p < nd) /\ (forall p, In p (eword (rese (E i))) -> snd p < nd) /\ (forall l, In l stabs -> forall p, In p l -> snd p < nd) /\ length (synd (E i)) = nrand rest.
Proof.
  specialize (Hchk i). unfold roundChk in Hchk. rewrite !andb_true_iff in Hchk. destruct Hchk as [[[[_ Hl] Hr] Hs] He]. repeat split.
  - intros p Hp. destruct (E i) as [p0|]; [|destruct Hp]. destruct Hp as [<-|[]]. now apply Nat.ltb_lt.
  - intros p Hp. unfold rese in Hp. destruct (res (E i)) as [j|]; [|destruct Hp]. destruct Hp as [<-|[]]. now apply Nat.ltb_lt.
  - intros l Hl' p Hp. rewrite forallb_forall in Hs. specialize (Hs l Hl'). rewrite forallb_forall in Hs. now apply Nat.ltb_lt, Hs.
  - now apply Nat.eqb_eq.
Qed.
Lemma block_avoids i i' j' : i < n -> i' < n -> j' < nd -> i <> i' -> forallb (avoids (dq i' j')) (blockC i) = true.
Proof.
  intros Hi Hi' Hj Hn. unfold blockC. rewrite forallb_app. apply andb_true_iff. split.
  - apply forallb_forall. intros o Ho. apply in_map_iff in Ho. destruct Ho as [q [<- Hq]]. cbn [avoids]. apply negb_true_iff, Nat.eqb_neq. intros ->. revert Hq. now apply dq_notin.
  - apply forallb_forall. intros o Ho. apply in_map_iff in Ho. destruct Ho as [o' [<- Ho]]. rewrite forallb_forall in Hin. apply (inT_avoids (nd + na)); [now apply Hin|].
    intros j Hjw. unfold place. destruct (Nat.ltb_spec j nd); [intros Eq; apply dq_inj in Eq; auto; destruct Eq; congruence|]. intros Eq. symmetry in Eq. revert Eq. now apply dq_aq.
Qed.
Lemma in_errW p L : In p (errW L) -> exists i j, In i L /\ snd p = dq i j /\ j < nd.
Proof.
  unfold errW. rewrite in_flat_map. intros [i [Hi Hp]]. apply in_map_iff in Hp. destruct Hp as [p0 [<- Hp]]. exists i, (snd p0). split; [exact Hi|]. split; [reflexivity|]. exact (proj1 (chk_bounds i) p0 Hp).
Qed.
Lemma in_resW p L : In p (resW L) -> exists i j, In i L /\ snd p = dq i j /\ j < nd.
Proof.
  unfold resW. rewrite in_flat_map. intros [i [Hi Hp]]. apply in_map_iff in Hp. destruct Hp as [p0 [<- Hp]]. exists i, (snd p0). split; [exact Hi|]. split; [reflexivity|]. exact (proj1 (proj2 (chk_bounds i)) p0 Hp).
Qed.
(** what the ancillas read in the end *)
Fixpoint lastm (L : list nat) (rec : list bool) : list bool :=
  match L with [] => [] | [i] => mu (taken rest (skipn na rec)) | i :: L' => lastm L' (skipn (na + nrand rest) rec) end.
(** words on other blocks keep a block in the code *)
Lemma inCode_W i l f : i < n -> inCode i f -> (forall p, In p l -> exists i' j', i' < n /\ i' <> i /\ j' < nd /\ snd p = dq i' j') -> inCode i (after (W l) f).
Proof.
  intros Hi Hc Hl s Hs. rewrite <- W_shift. intros x. rewrite W_comm.
  - apply after_ext. intros y. rewrite W_shift. now apply Hc.
  - intros p q Hp Hq Epq. apply Hl in Hq. destruct Hq as [i' [j' [Hi' [Hn [Hj' Eq]]]]]. apply in_map_iff in Hp. destruct Hp as [p0 [<- Hp]]. cbn [snd] in Epq. rewrite Eq in Epq.
    apply dq_inj in Epq; auto. destruct Epq; congruence.
Qed.
Lemma inCode_restored i k r m f : i < n -> inCode i f -> inCode i (restored anc k r m f).
Proof.
  intros Hi Hc s Hs x. rewrite word_restored.
  - now apply restored_ext, Hc.
  - intros p Hp. apply dq_notin; [exact Hi|]. now apply (proj1 (proj2 (proj2 (chk_bounds i))) s Hs).
Qed.
Theorem rounds_L L : L <> [] -> NoDup L -> (forall i, In i L -> i < n) -> exists K : list bool -> amp, forall f, (forall i, In i L -> inCode i f) -> forall cr rec,
  st (run (flat_map blockC L) (mkConf cr rec (after (W (errW L)) f))) == restored anc (K rec) (taken (map Reset anc) rec) (lastm L rec) (after (W (resW L)) f) /\
  (good L rec -> K rec <> azero).
Proof.
  induction L as [|i L IHL]; intros HL Hnd Hlt; [congruence|]. clear HL. inversion Hnd as [|i0 L0 Hni HndL E1]; subst i0 L0.
  assert (Hi : i < n) by (apply Hlt; now left). destruct (chk_bounds i) as [He [Hr [Hst Hsl]]].
  assert (Hoth : forall p, In p (errW L) -> exists i' j', i' < n /\ i' <> i /\ j' < nd /\ snd p = dq i' j').
  { intros p Hp. apply in_errW in Hp. destruct Hp as [i' [j' [Hi' [Ep Hj']]]]. exists i', j'. split; [apply Hlt; now right|]. split; [intros ->; contradiction|]. auto. }
  destruct (round_block nd na (dq i) aq off (fun j j' Hj Hj' Eq => proj2 (dq_inj i i j j' Hi Hi Eq)) (fun j j' _ _ Eq => proj1 (Nat.add_cancel_l j j' (n * nd)) Eq) (fun j j' Hj Hj' => dq_aq i j j' Hi Hj)
              stabs rest (E i) (res (E i)) (synd (E i)) (mu (synd (E i))) (Hchk i)) as [K1 HK1].
  assert (HK2 : exists K2 : list bool -> amp, L <> [] -> forall f, (forall i, In i L -> inCode i f) -> forall cr rec,
    st (run (flat_map blockC L) (mkConf cr rec (after (W (errW L)) f))) == restored anc (K2 rec) (taken (map Reset anc) rec) (lastm L rec) (after (W (resW L)) f) /\
    (good L rec -> K2 rec <> azero)).
  { destruct L as [|i2 L2]; [exists (fun _ => azero); congruence|]. destruct (IHL ltac:(discriminate) HndL (fun i' Hi' => Hlt i' (or_intror Hi'))) as [K2 HK2]. exists K2. intros _. exact HK2. }
  clear IHL. destruct HK2 as [K2 HK2].
  exists (fun rec => match L with [] => K1 rec | _ => if beql (mu (taken rest (skipn na rec))) (taken (map Reset anc) (skipn (na + nrand rest) rec)) then K2 (skipn (na + nrand rest) rec) * K1 rec else azero end).
  intros f Hc cr rec. set (g := after (W (errW L)) f).
  assert (Hcg : inCode i g) by (apply inCode_W; auto; apply Hc; now left).
  destruct (HK1 g Hcg cr rec) as [Hk1 [Hk0 _]]. set (k := K1 rec) in *.
  set (m1 := mu (taken rest (skipn na rec))).
  assert (Hk : st (run (map Reset anc ++ map (ren (place nd (dq i) aq) off) rest) (mkConf cr rec (after (eops (dq i) (E i)) g))) ==
               restored anc k (taken (map Reset anc) rec) m1 (after (eops (dq i) (rese (E i))) g)).
  { intros x. rewrite Hk1. unfold rese. destruct (aeqb k azero) eqn:Ek.
    - apply aeqb_eq in Ek. rewrite Ek. unfold restored. destruct (reads anc _ x), (reads anc _ x); rewrite ?amul_0_l; reflexivity.
    - unfold m1. rewrite (proj1 Hk0); [reflexivity|]. intros Ez. rewrite Ez in Ek. discriminate Ek. }
  clear Hk1. assert (Hmo : length m1 = na) by apply Hmu.
  assert (Estart : after (W (errW (i :: L))) f == after (eops (dq i) (E i)) g).
  { intros x. change (errW (i :: L)) with (shiftW (dq i) (eword (E i)) ++ errW L). rewrite after_W_app. unfold g, eops. rewrite <- (W_shift (dq i) (eword (E i))). rewrite W_comm; [reflexivity|].
    intros p q Hp Hq. apply Hoth in Hp. destruct Hp as [i' [j' [Hi' [Hn [Hj' Ep]]]]]. apply in_map_iff in Hq. destruct Hq as [q0 [<- Hq]]. cbn [snd]. rewrite Ep. intros Eq.
    apply dq_inj in Eq; auto. destruct Eq; congruence. }
  set (r := taken (map Reset anc) rec) in *.
  set (f1 := restored anc k r m1 (after (W (shiftW (dq i) (eword (rese (E i))))) f)).
  set (c1 := run (blockC i) (mkConf cr rec (after (W (errW (i :: L))) f))).
  assert (Eone : st c1 == after (W (errW L)) f1).
  { intros x. unfold c1. rewrite (run_ext (blockC i) cr rec _ _ Estart). unfold blockC. rewrite Hk. unfold f1. rewrite (word_restored anc k r m1 (fun q => q) (errW L)).
    - apply restored_ext. intros y. unfold g. rewrite W_comm; [unfold eops; rewrite W_shift; reflexivity|].
      intros p q Hp Hq. apply Hoth in Hp. destruct Hp as [i' [j' [Hi' [Hn [Hj' Ep]]]]]. apply in_map_iff in Hq. destruct Hq as [q0 [<- Hq]]. cbn [snd]. rewrite Ep. intros Eq.
      apply dq_inj in Eq; auto. destruct Eq; congruence.
    - intros p Hp. apply Hoth in Hp. destruct Hp as [i' [j' [Hi' [Hn [Hj' Ep]]]]]. rewrite Ep. now apply dq_notin. }
  assert (Eouts : outs c1 = skipn (na + nrand rest) rec). { unfold c1. rewrite run_outs, blockC_nrand. reflexivity. }
  assert (Hrl : length r = na) by (unfold r; now rewrite taken_length, nrand_resets, ancs_length).
  cbn [flat_map]. rewrite run_app. fold c1. destruct L as [|i2 L2].
  - split.
    + intros x. unfold run. cbn [flat_map fold_left]. rewrite Eone. unfold f1. cbn [errW flat_map]. rewrite after_nil. apply restored_ext. intros y.
      cbn [resW flat_map]. now rewrite app_nil_r.
    + intros [Hg _]. now apply Hk0.
  - assert (Hc1 : forall i', In i' (i2 :: L2) -> inCode i' f1).
    { intros i' Hi'. unfold f1. apply inCode_restored; [apply Hlt; now right|]. apply inCode_W; [apply Hlt; now right|apply Hc; now right|].
      intros p Hp. apply in_map_iff in Hp. destruct Hp as [p0 [<- Hp]]. exists i, (snd p0). split; [exact Hi|]. split; [intros ->; contradiction|]. split; [now apply Hr|reflexivity]. }
    rewrite <- Eouts. fold m1. destruct (HK2 ltac:(discriminate) f1 Hc1 (creg c1) (outs c1)) as [Hrun Hg']. set (k' := K2 (outs c1)) in *. set (m := lastm (i2 :: L2) (outs c1)) in *.
    assert (Em : lastm (i :: i2 :: L2) rec = m) by (unfold m; rewrite Eouts; reflexivity).
    rewrite Em. split.
    + intros x. transitivity (st (run (flat_map blockC (i2 :: L2)) (mkConf (creg c1) (outs c1) (after (W (errW (i2 :: L2))) f1))) x).
      { destruct c1 as [cr1 rec1 g1]. cbn [creg outs st] in *. apply run_ext. exact Eone. }
      rewrite Hrun. set (r' := taken (map Reset anc) (outs c1)).
      transitivity (restored anc k' r' m (restored anc k r m1 (after (W (resW (i :: i2 :: L2))) f)) x).
      { apply restored_ext. intros y. unfold f1. rewrite (word_restored anc k r m1 (fun q => q) (resW (i2 :: L2))).
        - apply restored_ext. intros z. change (resW (i :: i2 :: L2)) with (shiftW (dq i) (eword (rese (E i))) ++ resW (i2 :: L2)). now rewrite after_W_app.
        - intros p Hp. apply in_resW in Hp. destruct Hp as [i' [j' [Hi' [Ep Hj']]]]. rewrite Ep. apply dq_notin; [apply Hlt; now right|exact Hj']. }
      apply restored_restored; [exact anc_nodup|now rewrite ancs_length|now rewrite ancs_length|]. unfold r'. rewrite taken_length, nrand_resets. reflexivity.
    + intros [Hg1 [Hg2 Hg3]]. rewrite Eouts, Hg2. unfold m1. rewrite Hg1, beql_refl. assert (Hk' : k' <> azero) by (apply Hg'; now rewrite Eouts).
      assert (Hkk : k <> azero) by (now apply Hk0). intros Hz. apply amul_integral in Hz. tauto.
Qed.
End Rounds.
