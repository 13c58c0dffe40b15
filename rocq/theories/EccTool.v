(** * EccTool: checks on templates that carry over to the circuits *)
From Coq Require Import NArith ZArith Ring.
From Verif Require Export EccCorrect2.
Local Open Scope amp_scope.

(** ** Some branch is always possible *)
Definition nz (f : state) : Prop := exists x, f x <> azero.
Lemma nz_ext f g : f == g -> nz f -> nz g. Proof. intros E [x Hx]. exists x. now rewrite <- E. Qed.
Lemma nz_scale k f : k <> azero -> nz f -> nz (scale k f).
Proof. intros Hk [x Hx]. exists x. unfold scale. intros H. apply amul_integral in H. tauto. Qed.
Lemma scale_nz k f : nz (scale k f) -> k <> azero.
Proof. intros [x Hx] ->. apply Hx. unfold scale. apply amul_0_l. Qed.
Lemma nz_not f : ~ nz f -> f == zero.
Proof. intros H x. destruct (aeqb (f x) azero) eqn:E; [now apply aeqb_eq|]. exfalso. apply H. exists x. intros E'. rewrite E' in E. discriminate E. Qed.
Lemma u2_nz m q f : (let '(a, b, c, d) := m in a * d - b * c <> azero) -> forall x, (f x <> azero) -> exists b, u2 m q f (upd x q b) <> azero.
Proof.
  destruct m as [[[a b] c] d]. intros Hd x Hx. unfold u2.
  assert (H0 : forall v, bit (upd x q v) q = v) by (intros v; rewrite bit_upd, Nat.eqb_refl; reflexivity).
  assert (H1 : forall u v, upd (upd x q u) q v = upd x q v) by (intros; apply upd_upd).
  destruct (aeqb (a * f (upd x q false) + b * f (upd x q true)) azero) eqn:E0; [|exists false; rewrite H0, !H1; intros E; rewrite E in E0; discriminate E0].
  destruct (aeqb (c * f (upd x q false) + d * f (upd x q true)) azero) eqn:E1; [|exists true; rewrite H0, !H1; intros E; rewrite E in E1; discriminate E1].
  exfalso. apply aeqb_eq in E0, E1. set (f0 := f (upd x q false)) in *. set (f1 := f (upd x q true)) in *.
  assert (Z0 : (a * d - b * c) * f0 = azero). { transitivity (d * (a * f0 + b * f1) - b * (c * f0 + d * f1)); [ring|]. rewrite E0, E1, !amul_0_r. reflexivity. }
  assert (Z1 : (a * d - b * c) * f1 = azero). { transitivity (a * (c * f0 + d * f1) - c * (a * f0 + b * f1)); [ring|]. rewrite E0, E1, !amul_0_r. reflexivity. }
  apply amul_integral in Z0, Z1. apply Hx. rewrite <- (upd_same x q). destruct (bit x q); [destruct Z1|destruct Z0]; tauto.
Qed.
Lemma gate_nz g ctl t f : forallb (fun p => negb (fst p =? t)) ctl = true -> nz f -> nz (gate g ctl t f).
Proof.
  intros Hc [x Hx]. destruct (active ctl x) eqn:E.
  - destruct (u2_nz (mat g) t f) with (x := x) as [b Hb]; [destruct g; discriminate|exact Hx|]. exists (upd x t b). unfold gate. rewrite active_upd, E by exact Hc. exact Hb.
  - exists x. unfold gate. rewrite E. intros H. apply amul_integral in H. destruct H as [H|H]; [destruct g; discriminate H|contradiction].
Qed.
(** the controls of a gate are not its target *)
Definition wfOp (o : op) : bool :=
  match o with Gate _ ctl t => forallb (fun p => negb (fst p =? t)) ctl | Swap a b => negb (a =? b) | _ => true end.
Lemma step_nz o cr f : wfOp o = true -> nz f -> exists b, forall rec, nz (st (step (mkConf cr (b :: rec) f) o)) /\ outs (step (mkConf cr (b :: rec) f) o) = (if isRand o then rec else b :: rec).
Proof.
  intros Hw Hf. destruct o; cbn [wfOp step st isRand creg outs hd tl] in *.
  - exists false. intros rec. split; [now apply gate_nz|reflexivity].
  - exists false. intros rec. split; [|reflexivity]. apply negb_true_iff, Nat.eqb_neq in Hw. destruct Hf as [x Hx]. exists (upd (upd x a (bit x b)) b (bit x a)).
    replace (upd (upd (upd (upd x a (bit x b)) b (bit x a)) a _) b _) with x; [exact Hx|]. apply bit_ext. intros j. rewrite !bit_upd, !Nat.eqb_refl.
    destruct (Nat.eqb_spec b j), (Nat.eqb_spec a j), (Nat.eqb_spec a b), (Nat.eqb_spec b a); subst; congruence.
  - destruct Hf as [x Hx]. exists (bit x q). intros rec. split; [|reflexivity]. exists (upd x q false). unfold resetTo. rewrite bit_upd, Nat.eqb_refl, upd_upd, upd_same. exact Hx.
  - destruct Hf as [x Hx]. exists (bit x q). intros rec. split; [|reflexivity]. exists x. unfold project. rewrite eqb_reflx. exact Hx.
  - exists false. intros rec. split; [|reflexivity]. destruct (N.eqb _ _); [|exact Hf]. now apply gate_nz.
Qed.
Theorem run_nz os : forallb wfOp os = true -> forall cr f, nz f -> exists t, forall t', nz (st (run os (mkConf cr (t ++ t') f))) /\ outs (run os (mkConf cr (t ++ t') f)) = t'.
Proof.
  induction os as [|o os IHo]; intros Hw cr f Hf; [exists []; intros t'; split; [exact Hf|reflexivity]|]. cbn [forallb] in Hw. apply andb_true_iff in Hw. destruct Hw as [H1 H2].
  destruct (step_nz o cr f H1 Hf) as [b Hb]. destruct (isRand o) eqn:Er.
  - destruct (Hb []) as [Hn _]. destruct (IHo H2 (creg (step (mkConf cr [b] f) o)) _ Hn) as [t Ht]. exists (b :: t). intros t'. destruct (Hb (t ++ t')) as [_ Ho]. destruct (Ht t') as [T1 T2].
    unfold run in *. cbn [app fold_left]. destruct o; try discriminate; cbn [step st creg outs hd tl] in *; auto.
  - destruct (Hb []) as [Hn _]. destruct (IHo H2 (creg (step (mkConf cr [b] f) o)) _ Hn) as [t Ht]. exists t. intros t'. destruct (Ht t') as [T1 T2].
    unfold run in *. cbn [fold_left]. destruct o; try discriminate; cbn [step st creg outs hd tl] in *; auto.
Qed.

(** ** Words that fix the outcome of a template *)
Definition endsIn (w : nat) (words words' : list (list (gt * nat))) (os : list op) : bool :=
  chkW w words (fun _ s => forallb (fun l => fixedBy w words l s) words') os.
Section Tpl.
Variables (w : nat) (rho : nat -> nat).
Hypothesis inj : forall i j, i < w -> j < w -> rho i = rho j -> i = j.
Variable off : nat.
Variable f0 : state.
Variable words : list (list (gt * nat)).
Hypothesis Hf : forall l, In l words -> after (word rho l) f0 == f0.
Lemma endsIn_sound words' os : endsIn w words words' os = true -> forall cr rec l, In l words' ->
  after (word rho l) (st (run (map (ren rho off) os) (mkConf cr rec f0))) == st (run (map (ren rho off) os) (mkConf cr rec f0)).
Proof.
  intros Hc cr rec l Hl. destruct (chkW_sound w rho inj off f0 words _ os (mkConf cr rec f0) Hc Hf (fun x => eq_refl)) as [Hz|[s [Hs [_ Hr]]]].
  - intros x. rewrite (Hz x). rewrite (after_ext _ _ _ Hz x). unfold after. now apply run_zero.
  - rewrite forallb_forall in Hs. exact (fixedBy_ok w rho inj off f0 words l s _ (Hs l Hl) Hf Hr).
Qed.
(** ** Two circuits that do the same *)
Fixpoint allRecs (k : nat) : list (list bool) := match k with 0 => [[]] | S k' => flat_map (fun r => [false :: r; true :: r]) (allRecs k') end.
Lemma in_allRecs r : In r (allRecs (length r)).
Proof. induction r as [|b r IHr]; [now left|]. cbn [length allRecs]. apply in_flat_map. exists r. split; [exact IHr|]. destruct b; cbn [In]; tauto. Qed.
Definition sameW (os1 os2 : list op) : bool :=
  (nrand os1 =? nrand os2) &&
  forallb (fun rec => match simRW w words os1 rec, simRW w words os2 rec with Some s1, Some s2 => (sk s1 =? sk s2) && sumEqb (ss s1) (ss s2) | _, _ => false end) (allRecs (nrand os1)).
Lemma simR_taken gs os : forall rec1 rec2 s0, taken os rec1 = taken os rec2 -> simR w gs os rec1 s0 = simR w gs os rec2 s0.
Proof.
  induction os as [|o os IHo]; intros rec1 rec2 s0 Ht; [reflexivity|]. cbn [simR taken] in *. destruct (isRand o) eqn:Er.
  - injection Ht as Eh Ht. rewrite Eh. destruct (sop w o (hd false rec2) s0); [|reflexivity]. now apply IHo.
  - replace (sop w o (hd false rec1) s0) with (sop w o (hd false rec2) s0) by (destruct o; try discriminate; reflexivity).
    destruct (sop w o (hd false rec2) s0); [|reflexivity]. now apply IHo.
Qed.
Lemma taken_taken os rec : taken os (taken os rec) = taken os rec.
Proof. rewrite <- (app_nil_r (taken os rec)) at 1. apply taken_app, taken_length. Qed.
Lemma taken_nrand os1 os2 : nrand os1 = nrand os2 -> forall rec, taken os1 rec = taken os2 rec.
Proof.
  revert os2. induction os1 as [|o os1 IHo]; intros os2 E rec.
  - cbn [taken]. destruct (taken os2 rec) eqn:Et; [reflexivity|]. pose proof (taken_length os2 rec) as H. rewrite Et, <- E in H. discriminate.
  - destruct (isRand o) eqn:Er; cbn [taken]; rewrite Er.
    + revert rec. induction os2 as [|o2 os2 IHp]; intros rec; [unfold nrand in E; cbn [filter] in E; rewrite Er in E; discriminate|]. cbn [taken]. destruct (isRand o2) eqn:Er2.
      * f_equal. apply IHo. unfold nrand in *. cbn [filter] in E. rewrite Er, Er2 in E. cbn [length] in E. lia.
      * apply IHp. unfold nrand in *. cbn [filter] in *. rewrite Er2 in E. exact E.
    + apply IHo. unfold nrand in *. cbn [filter] in E. rewrite Er in E. exact E.
Qed.
Lemma sameW_sound os1 os2 : sameW os1 os2 = true -> forall cr rec,
  st (run (map (ren rho off) os1) (mkConf cr rec f0)) == st (run (map (ren rho off) os2) (mkConf cr rec f0)).
Proof.
  unfold sameW. rewrite andb_true_iff, Nat.eqb_eq, forallb_forall. intros [En H] cr rec. set (t := taken os1 rec).
  assert (Ht : In t (allRecs (nrand os1))) by (rewrite <- (taken_length os1 rec); apply in_allRecs). specialize (H t Ht).
  assert (A1 : simRW w words os1 t = simRW w words os1 rec).
  { unfold simRW. destruct (wordsT w words); [|reflexivity]. apply simR_taken. apply taken_taken. }
  assert (A2 : simRW w words os2 t = simRW w words os2 rec).
  { unfold simRW. destruct (wordsT w words); [|reflexivity]. apply simR_taken. unfold t. rewrite (taken_nrand os1 os2 En rec). apply taken_taken. }
  rewrite A1, A2 in H. destruct (simRW w words os1 rec) as [s1|] eqn:E1; [|discriminate]. destruct (simRW w words os2 rec) as [s2|] eqn:E2; [|discriminate].
  apply andb_true_iff in H. destruct H as [H1 H2]. apply Nat.eqb_eq in H1. apply sumEqb_eq in H2.
  destruct (simRW_sound w rho inj off f0 words os1 (mkConf cr rec f0) s1 E1 Hf (fun x => eq_refl)) as [R1 _].
  destruct (simRW_sound w rho inj off f0 words os2 (mkConf cr rec f0) s2 E2 Hf (fun x => eq_refl)) as [R2 _].
  intros x. specialize (R1 x). specialize (R2 x). cbn [fst snd] in R1, R2. apply (cancel_two (sk s1)). rewrite R1, H1, H2, R2. reflexivity.
Qed.
(** ** A circuit that does the same as a combination of words *)
Definition combo (d : nat -> nat) (l : list (amp * list (gt * nat))) (f : state) : state :=
  fun x => fold_right (fun p acc => fst p * after (word d (snd p)) f x + acc) azero l.
Fixpoint comboSum (gs : list gen) (l : list (amp * list (gt * nat))) : option sum :=
  match l with
  | [] => Some []
  | (c, wd) :: l' => match simR w gs (word (fun j => j) wd) [] init, comboSum gs l' with
                     | Some s, Some r => if sk s =? 0 then Some (sScale c (ss s) ++ r) else None
                     | _, _ => None
                     end
  end.
Definition comboOk (os : list op) (c : amp) (l : list (amp * list (gt * nat))) : bool :=
  match wordsT w words with
  | Some ts => match simR w (ech ts) os [] init, comboSum (ech ts) l with
               | Some s, Some r => let '(k1, s1) := norm (ech ts) (sk s) (sScale c (ss s)) in let '(k2, s2) := norm (ech ts) 0 r in (k1 =? k2) && sumEqb s1 s2
               | _, _ => false
               end
  | None => false
  end.
Lemma comboSum_ok gs : Forall (fixes w rho f0) gs -> forall l r, comboSum gs l = Some r -> repr w rho f0 (0, r) (combo rho l f0).
Proof.
  intros Hg. induction l as [|[c wd] l IHl]; intros r E x; cbn [comboSum] in E.
  - injection E as <-. cbn [fst snd combo fold_right]. rewrite den_nil. apply amul_0_r.
  - destruct (simR w gs (word (fun j => j) wd) [] init) as [s|] eqn:Es; [|discriminate]. destruct (comboSum gs l) as [r'|]; [|discriminate]. destruct (Nat.eqb_spec (sk s) 0) as [Ek|]; [|discriminate].
    injection E as <-. specialize (IHl r' eq_refl x). cbn [fst snd] in *. rewrite den_app, den_scale, <- IHl.
    pose proof (simR_ok w rho inj off f0 gs Hg _ _ _ (mkConf 0 [] f0) Es (rel_init w rho off f0 (mkConf 0 [] f0) (fun x => eq_refl))) as [Hr _]. rewrite ren_word in Hr.
    specialize (Hr x). cbn [fst snd] in Hr. rewrite Ek in Hr. rewrite <- Hr. unfold combo at 1. cbn [fold_right fst snd]. fold (combo rho l f0 x). change (word (fun j => rho j) wd) with (word rho wd).
    fold (after (word rho wd) f0). rewrite two_0. ring.
Qed.
Lemma combo_sound os c l : comboOk os c l = true -> scale c (after (map (ren rho off) os) f0) == combo rho l f0.
Proof.
  unfold comboOk. destruct (wordsT w words) as [ts|] eqn:E; [|discriminate]. pose proof (wordsT_ok w rho inj off f0 words ts E Hf) as Hg.
  destruct (simR w (ech ts) os [] init) as [s|] eqn:Es; [|discriminate]. destruct (comboSum (ech ts) l) as [r|] eqn:Er; [|discriminate].
  pose proof (simR_ok w rho inj off f0 _ Hg _ _ _ (mkConf 0 [] f0) Es (rel_init w rho off f0 (mkConf 0 [] f0) (fun x => eq_refl))) as [Hr _].
  assert (H1 : repr w rho f0 (sk s, sScale c (ss s)) (scale c (after (map (ren rho off) os) f0))).
  { intros x. cbn [fst snd]. rewrite den_scale. specialize (Hr x). cbn [fst snd] in Hr. rewrite <- Hr. unfold scale, after. ring. }
  pose proof (comboSum_ok _ Hg l r Er) as H2. apply (norm_ok w rho inj f0 _ _ _ _ Hg) in H1, H2.
  destruct (norm (ech ts) (sk s) (sScale c (ss s))) as [k1 s1]. destruct (norm (ech ts) 0 r) as [k2 s2]. rewrite andb_true_iff, Nat.eqb_eq. intros [-> Hs]. apply sumEqb_eq in Hs. subst s2.
  intros x. specialize (H1 x). specialize (H2 x). cbn [fst snd] in H1, H2. apply (cancel_two k2). now rewrite H1, H2.
Qed.
End Tpl.
