(** * EccCorrect2: the rounds of the codes with ancillas of their own *)
From Coq Require Import NArith ZArith Ring.
From Verif Require Export EccCorrect.
Local Open Scope amp_scope.

Lemma skipn_skipn_ {A} a b (l : list A) : skipn a (skipn b l) = skipn (b + a)%nat l.
Proof. revert l. induction b as [|b IHb]; intros l; [reflexivity|]. destruct l; cbn [skipn Nat.add]; [now rewrite !skipn_nil|apply IHb]. Qed.
Section Gives.
Variable anc : list nat.
Hypothesis Hnd : NoDup anc.
Notation rst := (map Reset anc).
(** from g the circuit gives f, but for the ancillas *)
Definition gives (os : list op) (g f : state) : Prop :=
  (forall cr rec, exists k m, length m = length anc /\ st (run os (mkConf cr rec g)) == restored anc k (taken rst rec) m f) /\
  (forall r, length r = length anc -> exists t m, length m = length anc /\ forall cr t', exists k, k <> azero /\
     st (run os (mkConf cr (r ++ t ++ t') g)) == restored anc k r m f /\ outs (run os (mkConf cr (r ++ t ++ t') g)) = t').
Lemma taken_rst r t : length r = length anc -> taken rst (r ++ t) = r.
Proof. intros H. apply taken_app. now rewrite nrand_resets. Qed.
Lemma taken_rst_len rec : length (taken rst rec) = length anc.
Proof. now rewrite taken_length, nrand_resets. Qed.
Lemma restored_zero r m f : restored anc azero r m f == zero.
Proof. intros x. unfold restored, zero. destruct (reads anc m x); [apply amul_0_l|reflexivity]. Qed.
Lemma run_at os c g : st c == g -> st (run os c) == st (run os (mkConf (creg c) (outs c) g)).
Proof. destruct c as [cr rec f]. apply run_ext. Qed.
Lemma outs_at os cr rec f g : outs (run os (mkConf cr rec f)) = outs (run os (mkConf cr rec g)).
Proof. rewrite !run_outs. reflexivity. Qed.
Lemma gives_seq os1 os2 g f1 f2 : gives os1 g f1 -> (forall k r m, gives os2 (restored anc k r m f1) (restored anc k r m f2)) -> gives (os1 ++ os2) g f2.
Proof.
  intros [S1 L1] G2. split.
  - intros cr rec. destruct (S1 cr rec) as [k [m [Hm Hk]]]. set (c1 := run os1 (mkConf cr rec g)) in *. destruct (G2 k (taken rst rec) m) as [S2 _].
    destruct (S2 (creg c1) (outs c1)) as [k2 [m2 [Hm2 Hk2]]]. eexists _, m2. split; [exact Hm2|]. intros x. rewrite run_app. fold c1. rewrite (run_at os2 c1 _ Hk x), Hk2.
    apply restored_restored; auto using taken_rst_len.
  - intros r Hr. destruct (L1 r Hr) as [t [m [Hm Ht]]].
    (* the second circuit finds the ancillas as the first left them *)
    destruct (Ht 0%N []) as [k0 _].
    destruct (proj2 (G2 aone r m) m Hm) as [t2 [m2 [Hm2 _]]].
    (* the tail may not depend on the factor: take the one for the factor 1 and scale *)
    destruct (proj2 (G2 aone r m) m Hm) as [t3 [m3 [Hm3 H3]]]. exists (t ++ m ++ t3), m3. split; [exact Hm3|]. intros cr t'. rewrite <- !app_assoc.
    destruct (Ht cr (m ++ t3 ++ t')) as [k [Hk [Hs Ho]]]. set (c1 := run os1 (mkConf cr (r ++ t ++ m ++ t3 ++ t') g)) in *.
    destruct (H3 (creg c1) t') as [k3 [Hk3 [Hs3 Ho3]]]. exists (k * k3). split; [intros Hz; apply amul_integral in Hz; tauto|]. split.
    + intros x. rewrite run_app. fold c1. rewrite (run_at os2 c1 (scale k (restored anc aone r m f1))).
      * rewrite Ho, run_scale. unfold scale. rewrite Hs3. rewrite restored_restored by auto. rewrite beql_refl. unfold restored. destruct (reads anc m3 x); [ring|apply amul_0_r].
      * intros y. rewrite Hs. unfold scale, restored. destruct (reads anc m y); [ring|now rewrite amul_0_r].
    + rewrite run_app. fold c1. destruct c1 as [cr1 rec1 g1]. cbn [creg outs] in *. rewrite Ho. rewrite (outs_at os2 cr1 _ g1 (restored anc aone r m f1)). exact Ho3.
Qed.
(** with the resets of the ancillas *)
Lemma resets_form cr rec f : st (run rst (mkConf cr rec f)) == restored anc aone (taken rst rec) (repeat false (length anc)) f.
Proof. exact (proj2 (resets_ok anc Hnd cr rec f)). Qed.
Lemma gives_safe os g f : gives os g f -> forall cr rec, exists k, st (run (os ++ rst) (mkConf cr rec g)) == scale k (st (run rst (mkConf cr rec f))).
Proof.
  intros [S _] cr rec. destruct (S cr rec) as [k [m [Hm Hk]]]. set (c1 := run os (mkConf cr rec g)) in *.
  exists (if beql m (taken rst (outs c1)) then aone * k else azero). intros x. rewrite run_app. fold c1. rewrite (run_at rst c1 _ Hk x), resets_form.
  rewrite restored_restored by auto using taken_rst_len. unfold scale. rewrite resets_form. unfold restored. destruct (reads _ _ x); [ring|now rewrite amul_0_r].
Qed.
Lemma gives_live os g f : gives os g f -> forall r, length r = length anc -> exists t, forall cr, exists k, k <> azero /\ st (run (os ++ rst) (mkConf cr (r ++ t) g)) == scale k (st (run rst (mkConf cr (r ++ t) f))).
Proof.
  intros [_ L] r Hr. destruct (L r Hr) as [t [m [Hm Ht]]]. exists (t ++ m). intros cr. destruct (Ht cr m) as [k [Hk [Hs Ho]]]. exists k. split; [exact Hk|]. intros x.
  set (c1 := run os (mkConf cr (r ++ t ++ m) g)) in *. rewrite run_app. fold c1. rewrite (run_at rst c1 _ Hs x), resets_form, Ho.
  assert (Em : taken rst m = m) by (rewrite <- (taken_rst m [] Hm) at 2; now rewrite app_nil_r). rewrite Em.
  rewrite restored_restored by auto. rewrite beql_refl. unfold scale. rewrite resets_form, taken_rst by auto. unfold restored. destruct (reads _ _ x); [ring|now rewrite amul_0_r].
Qed.
End Gives.

(** ** The rounds of EccRounds *)
Section Round.
Variables (n nd na off : nat) (stabs : list (list (gt * nat))) (rest : list op) (res : perr -> option nat) (tab : list (perr * list bool)) (mu : list bool -> list bool) (gts : list gt).
Hypothesis Hmu : forall t, length (mu t) = na.
Hypothesis Hchk : chkAll nd na stabs rest res tab mu (errsOf gts (seq 0 nd)) = true.
Variable P : nat -> perr.
Hypothesis HP : valid nd gts P.
Notation anc := (ancs na (aq n nd)).
Notation circ := (flat_map (blockC n nd na off rest) (seq 0 n)).
Lemma chk_at i : roundChk nd na stabs rest (P i) (res (P i)) (lookupS tab (P i)) (mu (lookupS tab (P i))) = true.
Proof.
  unfold chkAll in Hchk. apply andb_true_iff in Hchk. destruct Hchk as [_ H]. rewrite forallb_forall in H. apply H. apply in_errsOf. destruct (P i) as [[g j]|] eqn:Ei; [right|now left].
  exists g, j. destruct (HP i g j Ei) as [H1 H2]. split; [reflexivity|]. split; [exact H1|]. apply in_seq. lia.
Qed.
Lemma good_lastm L : L <> [] -> (forall i, length (lookupS tab (P i)) = nrand rest) -> forall r, length r = na ->
  exists t m, length m = na /\ forall t', good n nd na rest (lookupS tab) mu P L (r ++ t ++ t') /\ lastm na rest mu L (r ++ t ++ t') = m /\ skipn (length L * (na + nrand rest)) (r ++ t ++ t') = t'.
Proof.
  intros HL Hl. induction L as [|i L IHL]; [congruence|]. intros r Hr. pose proof (Hl i) as Hs. pose proof (Hmu (lookupS tab (P i))) as Hm. clear HL.
  assert (E1 : forall t, skipn na (r ++ lookupS tab (P i) ++ t) = lookupS tab (P i) ++ t).
  { intros t. rewrite <- Hr, skipn_app, skipn_all, Nat.sub_diag. reflexivity. }
  assert (E2 : forall t, skipn (na + nrand rest) (r ++ lookupS tab (P i) ++ t) = t).
  { intros t. rewrite app_assoc. replace (na + nrand rest)%nat with (length (r ++ lookupS tab (P i))) by (rewrite app_length; lia). rewrite skipn_app, skipn_all, Nat.sub_diag. reflexivity. }
  destruct L as [|i2 L2].
  - exists (lookupS tab (P i)), (mu (lookupS tab (P i))). split; [exact Hm|]. intros t'. cbn [good lastm length]. rewrite Nat.mul_1_l, E1, E2, taken_app by exact Hs. tauto.
  - destruct (IHL ltac:(discriminate) (mu (lookupS tab (P i))) Hm) as [t [m [Hml Ht]]]. exists (lookupS tab (P i) ++ mu (lookupS tab (P i)) ++ t), m. split; [exact Hml|]. intros t'.
    rewrite <- !app_assoc. destruct (Ht t') as [G1 [G2 G3]]. split; [|split].
    + cbn [good]. rewrite E1, E2. split; [now apply taken_app|]. split; [apply taken_app; rewrite nrand_resets, ancs_length; exact Hm|exact G1].
    + cbn [lastm]. rewrite E2. exact G2.
    + change (length (i :: i2 :: L2)) with (S (length (i2 :: L2))). rewrite Nat.mul_succ_l. rewrite (Nat.add_comm (length (i2 :: L2) * _)). rewrite <- skipn_skipn_, E2. exact G3.
Qed.
Lemma circ_nrand L : nrand (flat_map (blockC n nd na off rest) L) = (length L * (na + nrand rest))%nat.
Proof.
  induction L as [|i L IHL]; [reflexivity|]. cbn [flat_map length]. unfold nrand in *. rewrite filter_app, app_length, IHL. fold (nrand (blockC n nd na off rest i)). rewrite blockC_nrand. reflexivity.
Qed.
Lemma gives_round f : 1 <= n -> encoded n stabs f ->
  gives anc circ (after (W (errW n P (seq 0 n))) f) (after (W (resW n res P (seq 0 n))) f).
Proof.
  intros Hn Hf. assert (HL : seq 0 n <> []) by (destruct n; [lia|discriminate]).
  destruct (rounds_L n nd na off stabs rest res (lookupS tab) mu Hmu P chk_at (seq 0 n) HL (seq_NoDup n 0) (fun i Hi => proj2 (proj1 (in_seq n 0 i) Hi))) as [K R0]. pose proof (R0 f) as R. clear R0.
  assert (Hin : forall i, In i (seq 0 n) -> inCode n stabs i f) by (intros i Hi l Hl; apply (Hf i l); [apply in_seq in Hi; lia|exact Hl]). specialize (R Hin).
  assert (Hlast : forall L rec, L <> [] -> length (lastm na rest mu L rec) = na).
  { induction L as [|i [|i2 L] IHL]; intros rec HLn; [congruence|cbn [lastm]; apply Hmu|]. cbn [lastm]. apply IHL. discriminate. }
  split.
  - intros cr rec. destruct (R cr rec) as [Hk _]. exists (K rec), (lastm na rest mu (seq 0 n) rec). split; [rewrite ancs_length; now apply Hlast|exact Hk].
  - rewrite ancs_length. intros r Hr. destruct (good_lastm (seq 0 n) HL (fun i => proj2 (proj2 (proj2 (chk_bounds nd na stabs rest res (lookupS tab) mu P chk_at i)))) r Hr) as [t [m [Hm Ht]]].
    exists t, m. split; [exact Hm|]. intros cr t'. destruct (Ht t') as [G1 [G2 G3]]. destruct (R cr (r ++ t ++ t')) as [Hk Hk0]. exists (K (r ++ t ++ t')). split; [now apply Hk0|]. split.
    + intros x. rewrite Hk, G2, taken_rst by (now rewrite ancs_length). reflexivity.
    + rewrite run_outs, circ_nrand. exact G3.
Qed.
(** the same with a factor that does not depend on the state or on the classical bits *)
Lemma uniform_round : 1 <= n -> exists K : list bool -> amp,
  (forall f, encoded n stabs f -> forall cr rec, st (run circ (mkConf cr rec (after (W (errW n P (seq 0 n))) f))) == restored anc (K rec) (taken (map Reset anc) rec) (lastm na rest mu (seq 0 n) rec) (after (W (resW n res P (seq 0 n))) f)) /\
  (forall r, length r = length anc -> exists t, length (r ++ t) = nrand circ /\ forall t', K (r ++ t ++ t') <> azero).
Proof.
  intros Hn. assert (HL : seq 0 n <> []) by (destruct n; [lia|discriminate]).
  destruct (rounds_L n nd na off stabs rest res (lookupS tab) mu Hmu P chk_at (seq 0 n) HL (seq_NoDup n 0) (fun i Hi => proj2 (proj1 (in_seq n 0 i) Hi))) as [K R].
  assert (Hz : forall i, In i (seq 0 n) -> inCode n stabs i zero).
  { intros i Hi l Hl x. unfold zero at 2. transitivity (zero x); [|reflexivity]. apply run_zero. intros y. reflexivity. }
  exists K. split.
  - intros f Hf cr rec. apply R. intros i Hi l Hl. apply (Hf i l); [apply in_seq in Hi; lia|exact Hl].
  - rewrite ancs_length. intros r Hr. destruct (good_lastm (seq 0 n) HL (fun i => proj2 (proj2 (proj2 (chk_bounds nd na stabs rest res (lookupS tab) mu P chk_at i)))) r Hr) as [t [m [Hm Ht]]].
    exists t. split.
    + rewrite circ_nrand. destruct (Ht [true]) as [_ [_ G]]. set (N := (length (seq 0 n) * (na + nrand rest))%nat) in *.
      assert (L1 : (length (r ++ t ++ [true]) - N)%nat = 1%nat) by (rewrite <- skipn_length, G; reflexivity). rewrite !app_length in *. cbn [length] in *. lia.
    + intros t'. destruct (Ht t') as [G _]. exact (proj2 (R zero Hz 0%N (r ++ t ++ t')) G).
Qed.
End Round.
Lemma lastm_length na rest mu : (forall t, length (mu t) = na) -> forall L rec, L <> [] -> length (lastm na rest mu L rec) = na.
Proof. intros Hmu. induction L as [|i [|i2 L] IHL]; intros rec HLn; [congruence|cbn [lastm]; apply Hmu|]. cbn [lastm]. apply IHL. discriminate. Qed.
Lemma faults_W n nd gts P f : valid nd gts P -> faults n P f == after (W (errW n P (seq 0 n))) f.
Proof.
  intros HP. unfold faults, noise. assert (G : forall L, NoDup L -> (forall i, In i L -> i < n) ->
    fold_right (fun i g => match match P i with Some (g0, j) => Some (mat g0, j) | None => None end with Some (m, j) => u2 m (i + j * n)%nat g | None => g end) f L == after (W (errW n P L)) f).
  { induction L as [|i L IHL]; intros Hnd Hlt x; [reflexivity|]. inversion Hnd as [|i0 L0 Hi HndL]; subst i0 L0. cbn [fold_right].
    specialize (IHL HndL (fun i' Hi' => Hlt i' (or_intror Hi'))). change (errW n P (i :: L)) with (shiftW (dq n i) (eword (P i)) ++ errW n P L). rewrite after_W_app.
    destruct (P i) as [[g j]|]; cbn [eword shiftW map fst snd]; [|apply IHL]. rewrite W_comm.
    - rewrite W_one. fold (dq n i j). transitivity (u2 (mat g) (dq n i j) (after (W (errW n P L)) f) x); [|reflexivity]. now apply u2_ext.
    - intros p q Hp [<-|[]]. cbn [snd]. unfold errW in Hp. apply in_flat_map in Hp. destruct Hp as [i' [Hi' Hp]]. apply in_map_iff in Hp. destruct Hp as [p0 [<- _]]. cbn [snd].
      intros Eq. apply dq_inj in Eq; [destruct Eq; subst; contradiction|apply Hlt; now right|apply Hlt; now left]. }
  apply G; [apply seq_NoDup|]. intros i Hi. apply in_seq in Hi. lia.
Qed.
Lemma ancillas_nodup e n : NoDup (ancillas e n).
Proof. apply (anc_nodup n (e_red e) (e_cor e)). Qed.
Lemma corrects_of e stabs gts (kind : matrix -> Prop) : (forall m, kind m -> expands gts m) ->
  (forall n ncb P f, 1 <= n -> valid (e_red e) gts P -> encoded n stabs f -> gives (ancillas e n) (roundOf e n ncb) (after (W (errW n P (seq 0 n))) f) f) ->
  (forall ncb, roundOf e 0 ncb = []) -> corrects e stabs kind /\ correctsLive e stabs gts.
Proof.
  intros Hkind G G0. split.
  - intros n ncb E f HE Hf cr rec. exists (two n). destruct n as [|n].
    { exists aone. split; [apply two_nz|]. rewrite G0. intros x. reflexivity. }
    destruct (span_all (S n) (e_red e) gts (roundOf e (S n) ncb ++ resets e (S n)) cr rec f (st (run (resets e (S n)) (mkConf cr rec f)))) with (E := E) as [k Hk].
    + intros P HP. apply gives_safe; [apply ancillas_nodup|]. apply G; auto. lia.
    + intros i m j Ei. destruct (HE i m j Ei). split; auto.
    + exists k. split; [apply two_nz|exact Hk].
  - intros n ncb E f HE Hf r Hr. destruct n as [|n].
    { exists []. intros cr. exists aone. split; [discriminate|]. rewrite G0. intros x. unfold scale. rewrite amul_1_l. reflexivity. }
    destruct (gives_live (ancillas e (S n)) (ancillas_nodup e (S n)) (roundOf e (S n) ncb) (after (W (errW (S n) E (seq 0 (S n)))) f) f) with (r := r) as [t Ht].
    + apply G; auto. lia.
    + unfold ancillas. now rewrite map_length, seq_length.
    + exists t. intros cr. destruct (Ht cr) as [k [Hk0 Hk]]. exists k. split; [exact Hk0|]. intros x. rewrite <- Hk. apply run_ext. apply (faults_W (S n) (e_red e) gts). exact HE.
Qed.

(** ** The codes *)
Lemma res_none n P L f : after (W (resW n noRes P L)) f == f.
Proof. unfold resW. induction L as [|i L IHL]; [intros x; reflexivity|]. exact IHL. Qed.
Lemma gives_ext anc os g f f' : f == f' -> gives anc os g f -> gives anc os g f'.
Proof.
  intros E [S1 L1]. split.
  - intros cr rec. destruct (S1 cr rec) as [k [m [Hm Hk]]]. exists k, m. split; [exact Hm|]. intros x. rewrite Hk. now apply restored_ext.
  - intros r Hr. destruct (L1 r Hr) as [t [m [Hm Ht]]]. exists t, m. split; [exact Hm|]. intros cr t'. destruct (Ht cr t') as [k [Hk [Hs Ho]]]. exists k. split; [exact Hk|]. split; [|exact Ho].
    intros x. rewrite Hs. now apply restored_ext.
Qed.
Lemma gives_ext_l anc os g g' f : g == g' -> gives anc os g f -> gives anc os g' f.
Proof.
  intros E [S1 L1]. split.
  - intros cr rec. destruct (S1 cr rec) as [k [m [Hm Hk]]]. exists k, m. split; [exact Hm|]. intros x. rewrite <- Hk. symmetry. now apply run_ext.
  - intros r Hr. destruct (L1 r Hr) as [t [m [Hm Ht]]]. exists t, m. split; [exact Hm|]. intros cr t'. destruct (Ht cr t') as [k [Hk [Hs Ho]]]. exists k. split; [exact Hk|]. split.
    + intros x. rewrite <- Hs. symmetry. now apply run_ext.
    + exact (eq_trans (outs_at os _ _ g' g) Ho).
Qed.
Lemma gives_ceq anc os os' g f : (forall c, ceq (run os c) (run os' c)) -> gives anc os g f -> gives anc os' g f.
Proof.
  intros E [S1 L1]. split.
  - intros cr rec. destruct (S1 cr rec) as [k [m [Hm Hk]]]. exists k, m. split; [exact Hm|]. intros x. rewrite <- Hk. destruct (E (mkConf cr rec g)) as [_ [_ E3]]. now rewrite E3.
  - intros r Hr. destruct (L1 r Hr) as [t [m [Hm Ht]]]. exists t, m. split; [exact Hm|]. intros cr t'. destruct (Ht cr t') as [k [Hk [Hs Ho]]]. exists k. split; [exact Hk|].
    destruct (E (mkConf cr (r ++ t ++ t') g)) as [_ [E2 E3]]. split; [intros x; rewrite <- Hs; now rewrite E3|congruence].
Qed.
(** a round with the operations in another order *)
Lemma sorted_ceq key n nd na ncb rest : forallb (inT (nd + na)) rest = true -> forall c,
  ceq (run (flat_map (blockC n nd na ncb (sortOps key rest)) (seq 0 n)) c) (run (flat_map (blockC n nd na ncb rest) (seq 0 n)) c).
Proof.
  intros Hin. apply ceq_flat. intros i c Hi. apply in_seq in Hi. unfold blockC. rewrite !run_app. apply (sortOps_ok key (nd + na)); [|exact Hin]. apply place_inj.
  - intros j j' _ _ E. exact (proj2 (dq_inj n i i j j' ltac:(lia) ltac:(lia) E)).
  - intros j j' _ _ E. unfold aq in E. lia.
  - intros j j' Hj _. apply dq_aq; lia.
Qed.
Lemma q3_corrects : corrects q3Shor q3stabs xKind /\ correctsLive q3Shor q3stabs [GX].
Proof.
  apply corrects_of; [exact expands_X| |reflexivity]. intros n ncb P f Hn HP Hf.
  replace (roundOf q3Shor n ncb) with (flat_map (blockC n 3 2 ncb q3rest) (seq 0 n)).
  - apply (gives_ext _ _ _ (after (W (resW n noRes P (seq 0 n))) f)); [apply res_none|]. exact (gives_round n 3 2 ncb q3stabs q3rest noRes q3tab (muId 2) [GX] (muId_length 2) q3_chk P HP f Hn Hf).
  - unfold roundOf. cbn [e_mc q3Shor q3mc isDecoded gatesWritten orb negb snd]. unfold loop. apply flat_map_ext. intros i. symmetry. apply q3_template.
Qed.
Lemma s9_corrects : corrects q9Shor s9stabs (fun _ => True) /\ correctsLive q9Shor s9stabs [GX; GY; GZ].
Proof.
  apply corrects_of; [intros m _; apply expands_all| |reflexivity]. intros n ncb P f Hn HP Hf.
  replace (roundOf q9Shor n ncb) with (flat_map (blockC n 9 8 ncb s9rest) (seq 0 n)).
  - apply (gives_ext _ _ _ (after (W (resW n noRes P (seq 0 n))) f)); [apply res_none|]. apply (gives_ceq _ _ _ _ _ (sorted_ceq (ancOf 9) n 9 8 ncb s9rest eq_refl)).
    exact (gives_round n 9 8 ncb s9stabs s9sorted noRes s9tab (muId 8) [GX; GY; GZ] (muId_length 8) s9_chk P HP f Hn Hf).
  - unfold roundOf. cbn [e_mc q9Shor s9mc isDecoded gatesWritten orb negb snd]. unfold loop. apply flat_map_ext. intros i. rewrite (Nat.mul_comm 9 n). symmetry. apply s9_template.
Qed.
Lemma f9_corrects : corrects q9Surface f9stabs (fun _ => True) /\ correctsLive q9Surface f9stabs [GX; GY; GZ].
Proof.
  apply corrects_of; [intros m _; apply expands_all| |reflexivity]. intros n ncb P f Hn HP Hf.
  replace (roundOf q9Surface n ncb) with (flat_map (blockC n 9 8 ncb f9rest) (seq 0 n)).
  - apply (gives_ext _ _ _ (after (W (resW n noRes P (seq 0 n))) f)); [apply res_none|]. apply (gives_ceq _ _ _ _ _ (sorted_ceq f9key n 9 8 ncb f9rest eq_refl)).
    exact (gives_round n 9 8 ncb f9stabs f9sorted noRes f9tab muF9 [GX; GY; GZ] (fun t => eq_refl) f9_chk P HP f Hn Hf).
  - unfold roundOf. cbn [e_mc q9Surface f9mc isDecoded gatesWritten orb negb snd]. unfold loop. apply flat_map_ext. intros i. symmetry. apply f9_template.
Qed.
(** Q7Steane: the first half leaves the X part of the error, the second half corrects it *)
Lemma shiftE n P L : resW n s7res P L = errW n (fun i => rese s7res (P i)) L.
Proof. reflexivity. Qed.
Lemma s7_corrects : corrects q7Steane s7stabs (fun _ => True) /\ correctsLive q7Steane s7stabs [GX; GY; GZ].
Proof.
  apply corrects_of; [intros m _; apply expands_all| |reflexivity]. intros n ncb P f Hn HP Hf.
  assert (E : forall x, s7single x n ncb true = flat_map (blockC n 7 3 ncb (s7rest x)) (seq 0 n)).
  { intros x. unfold s7single, loop. apply flat_map_ext. intros i. apply s7_template. }
  unfold roundOf. cbn [e_mc q7Steane s7mc isDecoded gatesWritten orb negb snd]. rewrite !E.
  set (P2 := fun i => rese s7res (P i)).
  assert (HP2 : valid 7 [GX] P2).
  { intros i g j Ei. unfold P2, rese in Ei. destruct (P i) as [[g0 j0]|] eqn:Ep; [|discriminate]. destruct (HP i g0 j0 Ep) as [Hg Hj].
    destruct g0; cbn [s7res option_map] in Ei; try discriminate; injection Ei as <- <-; (split; [now left|exact Hj]). }
  apply (gives_seq _ (ancillas_nodup q7Steane n) _ _ _ (after (W (resW n s7res P (seq 0 n))) f)).
  - exact (gives_round n 7 3 ncb s7stabs (s7rest true) s7res (s7tab true) (muId 3) [GX; GY; GZ] (muId_length 3) s7x_chk P HP f Hn Hf).
  - intros k r m. rewrite shiftE. fold P2. set (a := ancillas q7Steane n).
    assert (Hst : forall l, In l s7stabs -> forall p, In p l -> snd p < 7).
    { intros l Hl p Hp. assert (Q : forallb (forallb (fun p => snd p <? 7)) s7stabs = true) by reflexivity. rewrite forallb_forall in Q. specialize (Q l Hl). rewrite forallb_forall in Q. now apply Nat.ltb_lt, Q. }
    apply (gives_ext_l _ _ (after (W (errW n P2 (seq 0 n))) (restored a k r m f))).
    { intros x. apply word_restored. intros p Hp. unfold errW in Hp. apply in_flat_map in Hp. destruct Hp as [i [Hi Hp]]. apply in_map_iff in Hp. destruct Hp as [p0 [<- Hp]]. cbn [snd]. apply in_seq in Hi.
      apply (dq_notin n 7 3); [lia|]. destruct (P2 i) as [[g j]|] eqn:Ei; [|destruct Hp]. destruct Hp as [<-|[]]. exact (proj2 (HP2 i g j Ei)). }
    apply (gives_ext _ _ _ (after (W (resW n noRes P2 (seq 0 n))) (restored a k r m f))); [apply res_none|].
    apply (gives_round n 7 3 ncb s7stabs (s7rest false) noRes (s7tab false) (muId 3) [GX] (muId_length 3) s7z_chk P2 HP2 (restored a k r m f) Hn).
    intros i l Hi Hl x. change (gatesOf (fun j => i + j * n)%nat l) with (word (dq n i) l). rewrite word_restored.
    + apply restored_ext. exact (Hf i l Hi Hl).
    + intros p Hp. apply (dq_notin n 7 3); [exact Hi|]. now apply (Hst l).
Qed.
(** Q5Laflamme: resets and Hadamards alternate *)
Lemma l5_template d a cl : (forall i j, i < 4 -> j < 4 -> a i = a j -> i = j) -> forall c,
  ceq (run (map Reset (ancs 4 a) ++ map (ren (place 5 d a) cl) l5rest) c) (run (l5Block d a cl) c).
Proof.
  intros Ha c. assert (Hne : forall i j, i < 4 -> j < 4 -> i <> j -> negb (a i =? a j) = true) by (intros i j Hi Hj Hn; apply negb_true_iff, Nat.eqb_neq; intros E; apply Hn; now apply Ha).
  set (tl := skipn 8 (l5Block d a cl)).
  replace (map Reset (ancs 4 a) ++ map (ren (place 5 d a) cl) l5rest) with ([Reset (a 0); Reset (a 1); Reset (a 2); Reset (a 3); h_ (a 0); h_ (a 1); h_ (a 2); h_ (a 3)] ++ tl)%nat.
  2:{ unfold tl. cbn. rewrite !Nat.add_0_r. reflexivity. }
  replace (l5Block d a cl) with ([Reset (a 0); h_ (a 0); Reset (a 1); h_ (a 1); Reset (a 2); h_ (a 2); Reset (a 3); h_ (a 3)] ++ tl)%nat by reflexivity. clearbody tl.
  assert (Sy : forall x y, ceq x y -> ceq y x) by (intros x y [A [B C]]; repeat split; auto; intros z; now rewrite C). apply Sy.
  change (ceq (run (h_ (a 0) :: [Reset (a 1)] ++ [h_ (a 1); Reset (a 2); h_ (a 2); Reset (a 3); h_ (a 3)] ++ tl) (step c (Reset (a 0)))) (run ([Reset (a 1); Reset (a 2); Reset (a 3)] ++ h_ (a 0) :: [h_ (a 1); h_ (a 2); h_ (a 3)] ++ tl) (step c (Reset (a 0))))).
  eapply ceq_trans; [|apply ceq_push; cbn [forallb avoids]; rewrite !Hne by lia; reflexivity].
  change (ceq (run (h_ (a 1) :: [Reset (a 2)] ++ [h_ (a 2); Reset (a 3); h_ (a 3)] ++ tl) (step (step (step c (Reset (a 0))) (h_ (a 0))) (Reset (a 1)))) (run (h_ (a 0) :: [Reset (a 1); Reset (a 2); Reset (a 3)] ++ [h_ (a 1); h_ (a 2); h_ (a 3)] ++ tl) (step c (Reset (a 0))))).
  change (run (h_ (a 0) :: [Reset (a 1); Reset (a 2); Reset (a 3)] ++ [h_ (a 1); h_ (a 2); h_ (a 3)] ++ tl) (step c (Reset (a 0)))) with (run ([Reset (a 2); Reset (a 3)] ++ h_ (a 1) :: [h_ (a 2); h_ (a 3)] ++ tl) (step (step (step c (Reset (a 0))) (h_ (a 0))) (Reset (a 1)))).
  set (c2 := step (step (step c (Reset (a 0))) (h_ (a 0))) (Reset (a 1))).
  eapply ceq_trans; [|apply ceq_push; cbn [forallb avoids]; rewrite !Hne by lia; reflexivity].
  change (ceq (run (h_ (a 2) :: [Reset (a 3)] ++ [h_ (a 3)] ++ tl) (step (step c2 (h_ (a 1))) (Reset (a 2)))) (run ([Reset (a 3)] ++ h_ (a 2) :: [h_ (a 3)] ++ tl) (step (step c2 (h_ (a 1))) (Reset (a 2))))).
  apply ceq_push. cbn [forallb avoids]. rewrite !Hne by lia. reflexivity.
Qed.
Lemma l5_corrects : corrects q5Laflamme l5stabs (fun _ => True) /\ correctsLive q5Laflamme l5stabs [GX; GY; GZ].
Proof.
  apply corrects_of; [intros m _; apply expands_all| |reflexivity]. intros n ncb P f Hn HP Hf.
  apply (gives_ceq _ (flat_map (blockC n 5 4 ncb l5rest) (seq 0 n))).
  - unfold roundOf. cbn [e_mc q5Laflamme l5mc isDecoded gatesWritten orb negb snd]. unfold loop. apply ceq_flat. intros i c _. apply l5_template. unfold aq. lia.
  - apply (gives_ext _ _ _ (after (W (resW n noRes P (seq 0 n))) f)); [apply res_none|]. exact (gives_round n 5 4 ncb l5stabs l5rest noRes l5tab (muId 4) [GX; GY; GZ] (muId_length 4) l5_chk P HP f Hn Hf).
Qed.
