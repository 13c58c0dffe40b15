(** * EccProg2: whole programs (C58), the rounds *)
From Coq Require Import NArith ZArith Ring.
From Verif Require Export EccProg.
Local Open Scope amp_scope.

Lemma noise_ext n E f g : f == g -> noise n E f == noise n E g.
Proof.
  intros H. unfold noise. induction (seq 0 n) as [|i L IHL]; [exact H|]. cbn [fold_right]. destruct (E i) as [[m j]|]; [now apply u2_ext|exact IHL].
Qed.
Lemma noise_scale n E c f : noise n E (scale c f) == scale c (noise n E f).
Proof.
  unfold noise. induction (seq 0 n) as [|i L IHL]; [intros x; reflexivity|]. cbn [fold_right]. destruct (E i) as [[m j]|]; [|exact IHL]. intros x.
  rewrite (u2_ext m _ _ _ IHL x). set (h := fold_right _ f L).
  transitivity (u2 m (i + j * n)%nat (plus (scale c h) (scale azero h)) x); [apply u2_ext; intros y; unfold plus, scale; ring|]. rewrite u2_lin. unfold plus, scale. ring.
Qed.
Lemma restored_scale anc k r m f : restored anc k r m f == scale k (restored anc aone r m f).
Proof. intros x. unfold scale, restored. destruct (reads anc m x); [ring|now rewrite amul_0_r]. Qed.
Lemma restored_scale_in anc k r m c f : restored anc k r m (scale c f) == restored anc (k * c) r m f.
Proof. intros x. unfold scale, restored. destruct (reads anc m x); [ring|reflexivity]. Qed.

(** what one round does, for errors [E]; [lv]: the factor can be different from 0 *)
Definition roundOK (e : ecc) (stabs : list stabilizer) (lv : Prop) (E : blockErr) : Prop := forall n ncb, 1 <= n ->
  exists (K : list bool -> amp) (M : list bool -> list bool), (forall rec, length (M rec) = e_cor e) /\
  (forall f cr rec, encoded n stabs f ->
    scale (two n) (st (run (roundOf e n ncb) (mkConf cr rec (noise n E f)))) == restored (ancillas e n) (K rec) (taken (resets e n) rec) (M rec) f) /\
  (lv -> forall r, length r = e_cor e -> exists t, length (r ++ t) = nrand (roundOf e n ncb) /\ K (r ++ t) <> azero).
(** the same for Pauli errors *)
Definition roundP (e : ecc) (stabs : list stabilizer) (gts : list gt) : Prop := forall n ncb, 1 <= n -> exists (M : list bool -> list bool), (forall rec, length (M rec) = e_cor e) /\
  forall P, valid (e_red e) gts P -> exists (K : list bool -> amp),
  (forall f cr rec, encoded n stabs f ->
    st (run (roundOf e n ncb) (mkConf cr rec (after (W (errW n P (seq 0 n))) f))) == restored (ancillas e n) (K rec) (taken (resets e n) rec) (M rec) f) /\
  (forall r, length r = e_cor e -> exists t, length (r ++ t) = nrand (roundOf e n ncb) /\ K (r ++ t) <> azero).
Lemma roundP_noise e stabs gts E : roundP e stabs gts -> (forall i m j, E i = Some (m, j) -> expands gts m /\ j < e_red e) -> roundOK e stabs False E.
Proof.
  intros R HE n ncb Hn. destruct (R n ncb Hn) as [M [HM HP]].
  destruct (spanU_all n (e_red e) gts (roundOf e n ncb) (encoded n stabs) (fun rec f => restored (ancillas e n) aone (taken (resets e n) rec) (M rec) f)) with (E := E) as [K HK].
  - intros P Hv. destruct (HP P Hv) as [K [HK _]]. exists K. intros cr rec f Hf x. rewrite (HK f cr rec Hf x). apply restored_scale.
  - exact HE.
  - exists K, M. split; [exact HM|]. split; [|intros []]. intros f cr rec Hf x. rewrite (HK cr rec f Hf x). symmetry. apply restored_scale.
Qed.
Definition asMat (P : nat -> perr) : blockErr := fun i => match P i with Some (g, j) => Some (mat g, j) | None => None end.
Lemma roundP_gates e stabs gts P : roundP e stabs gts -> valid (e_red e) gts P -> roundOK e stabs True (asMat P).
Proof.
  intros R Hv n ncb Hn. destruct (R n ncb Hn) as [M [HM HP]]. destruct (HP P Hv) as [K [HK HL]]. exists (fun rec => two n * K rec), M. split; [exact HM|]. split.
  - intros f cr rec Hf x. transitivity (scale (two n) (restored (ancillas e n) (K rec) (taken (resets e n) rec) (M rec) f) x).
    + unfold scale. f_equal. rewrite <- (HK f cr rec Hf x). apply run_ext. exact (faults_W n (e_red e) gts P f Hv).
    + unfold scale, restored. destruct (reads _ _ x); [ring|apply amul_0_r].
  - intros _ r Hr. destruct (HL r Hr) as [t [H1 H2]]. exists t. split; [exact H1|]. intros Hz. apply amul_integral in Hz. destruct Hz as [Hz|Hz]; [now apply (two_nz n)|contradiction].
Qed.
Lemma gate_errs nd gts E : (forall i m j, E i = Some (m, j) -> gateKind gts m /\ j < nd) -> exists P, valid nd gts P /\ forall i, E i = asMat P i.
Proof.
  intros H. (* the gates are found by comparing the matrices *)
  pose (eqm := fun m m' : matrix => let '(a, b, c, d) := m in let '(a', b', c', d') := m' in aeqb a a' && aeqb b b' && aeqb c c' && aeqb d d').
  assert (Heq : forall m m', eqm m m' = true <-> m = m').
  { intros [[[a b] c] d] [[[a' b'] c'] d']. unfold eqm. rewrite !andb_true_iff. assert (R : forall v, aeqb v v = true) by (intros [v0 v1 v2 v3]; unfold aeqb; now rewrite !Z.eqb_refl).
    split; [intros [[[E1 E2] E3] E4]; apply aeqb_eq in E1, E2, E3, E4; congruence|intros E0; injection E0 as -> -> -> ->; rewrite !R; auto]. }
  exists (fun i => match E i with Some (m, j) => match find (fun g => eqm (mat g) m) gts with Some g => Some (g, j) | None => None end | None => None end). split.
  - intros i g j Ei. destruct (E i) as [[m j0]|] eqn:Em; [|discriminate]. destruct (find _ gts) as [g0|] eqn:Ef; [|discriminate]. injection Ei as -> ->. apply find_some in Ef. split; [tauto|]. now apply (H i m j).
  - intros i. unfold asMat. destruct (E i) as [[m j]|] eqn:Em; [|reflexivity]. destruct (H i m j Em) as [[g [Hg ->]] Hj]. destruct (find _ gts) as [g0|] eqn:Ef.
    + apply find_some in Ef. destruct Ef as [_ Ef]. apply Heq in Ef. now rewrite Ef.
    + pose proof (find_none _ _ Ef g Hg) as C. cbn beta in C. rewrite (proj2 (Heq (mat g) (mat g)) eq_refl) in C. discriminate.
Qed.
Lemma noise_eqE n E E' f : (forall i, E i = E' i) -> noise n E f = noise n E' f.
Proof. intros H. unfold noise. induction (seq 0 n) as [|i L IHL]; [reflexivity|]. cbn [fold_right]. now rewrite H, IHL. Qed.
Lemma roundOK_gates e stabs gts E : roundP e stabs gts -> (forall i m j, E i = Some (m, j) -> gateKind gts m /\ j < e_red e) -> roundOK e stabs True E.
Proof.
  intros R HE. destruct (gate_errs (e_red e) gts E HE) as [P [HP EP]]. intros n ncb Hn. destruct (roundP_gates e stabs gts P R HP n ncb Hn) as [K [M [H1 [H2 H3]]]]. exists K, M. split; [exact H1|]. split; [|exact H3].
  intros f cr rec Hf x. rewrite (noise_eqE n E (asMat P) f EP). now apply H2.
Qed.
Lemma q3_roundP : roundP q3Shor q3stabs [GX].
Proof.
  intros n ncb Hn. exists (lastm 2 q3rest (muId 2) (seq 0 n)). split.
  { intros rec. apply lastm_length; [exact (muId_length 2)|]. destruct n; [lia|discriminate]. }
  intros P HP. destruct (uniform_round n 3 2 ncb q3stabs q3rest noRes q3tab (muId 2) [GX] (muId_length 2) q3_chk P HP Hn) as [K [H1 H2]].
  replace (flat_map (blockC n 3 2 ncb q3rest) (seq 0 n)) with (roundOf q3Shor n ncb) in *.
  2:{ unfold roundOf. cbn [e_mc q3Shor q3mc isDecoded gatesWritten orb negb snd]. unfold loop. apply flat_map_ext. intros i. apply q3_template. }
  exists K. split.
  - intros f cr rec Hf x. rewrite (H1 f Hf cr rec x). apply restored_ext. apply res_none.
  - intros r Hr. destruct (H2 r) as [t [H3 H4]]; [rewrite ancs_length; exact Hr|]. exists t. split; [exact H3|]. specialize (H4 []). now rewrite app_nil_r in H4.
Qed.
Lemma s9_roundP : roundP q9Shor s9stabs [GX; GY; GZ].
Proof.
  intros n ncb Hn. exists (lastm 8 s9sorted (muId 8) (seq 0 n)). split.
  { intros rec. apply lastm_length; [exact (muId_length 8)|]. destruct n; [lia|discriminate]. }
  intros P HP. destruct (uniform_round n 9 8 ncb s9stabs s9sorted noRes s9tab (muId 8) [GX; GY; GZ] (muId_length 8) s9_chk P HP Hn) as [K [H1 H2]].
  assert (EC : forall c, ceq (run (flat_map (blockC n 9 8 ncb s9sorted) (seq 0 n)) c) (run (roundOf q9Shor n ncb) c)).
  { intros c. replace (roundOf q9Shor n ncb) with (flat_map (blockC n 9 8 ncb s9rest) (seq 0 n)).
    - apply (sorted_ceq (ancOf 9) n 9 8 ncb s9rest eq_refl).
    - unfold roundOf. cbn [e_mc q9Shor s9mc isDecoded gatesWritten orb negb snd]. unfold loop. apply flat_map_ext. intros i. rewrite (Nat.mul_comm 9 n). symmetry. apply s9_template. }
  assert (EN : nrand (flat_map (blockC n 9 8 ncb s9sorted) (seq 0 n)) = nrand (roundOf q9Shor n ncb)).
  { set (a := nrand (flat_map _ _)). set (b := nrand (roundOf _ _ _)). destruct (EC (mkConf 0%N (repeat true (a + b)%nat) zero)) as [_ [E _]]. rewrite !run_outs in E. fold a b in E. cbn [outs] in E.
    apply (f_equal (@length bool)) in E. rewrite !skipn_length, repeat_length in E. lia. }
  exists K. split.
  - intros f cr rec Hf x. destruct (EC (mkConf cr rec (after (W (errW n P (seq 0 n))) f))) as [_ [_ E]]. rewrite <- E, (H1 f Hf cr rec x). apply restored_ext. apply res_none.
  - intros r Hr. destruct (H2 r) as [t [H3 H4]]; [rewrite ancs_length; exact Hr|]. exists t. split; [congruence|]. specialize (H4 []). now rewrite app_nil_r in H4.
Qed.
