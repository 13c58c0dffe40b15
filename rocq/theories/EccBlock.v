(** * EccBlock: ancillas, errors, and rounds over all the logical qubits *)
From Coq Require Import NArith ZArith Ring.
From Verif Require Export EccSim2.
Local Open Scope amp_scope.

(** ** Specification: what is left of a state when only ancillas have been touched *)
Definition reads (qs : list nat) (bs : list bool) (x : N) : bool := forallb (fun p => Bool.eqb (bit x (fst p)) (snd p)) (combine qs bs).
Fixpoint setTo (qs : list nat) (bs : list bool) (x : N) : N :=
  match qs, bs with q :: qs', b :: bs' => upd (setTo qs' bs' x) q b | _, _ => x end.
(** the ancillas [anc] now read [m]; the rest is the part of [f] in which they read [r], times [k]: k |m><r| f *)
Definition restored (anc : list nat) (k : amp) (r m : list bool) (f : state) : state :=
  fun x => if reads anc m x then k * f (setTo anc r x) else azero.

Lemma bit_setTo qs : forall bs x q, ~ In q qs -> bit (setTo qs bs x) q = bit x q.
Proof.
  induction qs as [|p qs IHq]; intros [|b bs] x q Hq; cbn [setTo]; try reflexivity. rewrite bit_upd.
  destruct (Nat.eqb_spec p q) as [->|]; [exfalso; apply Hq; now left|]. apply IHq. intros Hi. apply Hq. now right.
Qed.
Lemma upd_comm x p q a b : p <> q -> upd (upd x p a) q b = upd (upd x q b) p a.
Proof. intros Hn. apply bit_ext. intros j. rewrite !bit_upd. destruct (Nat.eqb_spec q j), (Nat.eqb_spec p j); subst; congruence. Qed.
Lemma upd_upd x p a b : upd (upd x p a) p b = upd x p b.
Proof. apply bit_ext. intros j. rewrite !bit_upd. now destruct (Nat.eqb p j). Qed.
Lemma setTo_upd qs : forall bs x q b, ~ In q qs -> setTo qs bs (upd x q b) = upd (setTo qs bs x) q b.
Proof.
  induction qs as [|p qs IHq]; intros [|c bs] x q b Hq; cbn [setTo]; try reflexivity.
  rewrite IHq by (intros Hi; apply Hq; now right). apply upd_comm. intros ->. apply Hq. now left.
Qed.
Lemma reads_upd qs bs x q b : ~ In q qs -> reads qs bs (upd x q b) = reads qs bs x.
Proof.
  intros Hq. unfold reads. apply forallb_ext || idtac. induction (combine qs bs) as [|p l IHl] eqn:E in qs, bs, Hq |- *; [reflexivity|].
  destruct qs as [|q0 qs]; [discriminate|]. destruct bs as [|b0 bs]; [discriminate|]. cbn [combine] in E. injection E as <- El. cbn [forallb fst snd].
  rewrite bit_upd. destruct (Nat.eqb_spec q q0) as [->|]; [exfalso; apply Hq; now left|]. f_equal. apply (IHl qs bs); [intros Hi; apply Hq; now right|exact El].
Qed.
(** a gate on a qubit that is not an ancilla *)
Lemma restored_u2 anc k r m f mt q : ~ In q anc -> u2 mt q (restored anc k r m f) == restored anc k r m (u2 mt q f).
Proof.
  intros Hq x. destruct mt as [[[m00 m01] m10] m11]. unfold u2, restored. rewrite !reads_upd, !setTo_upd, !bit_setTo by auto.
  destruct (reads anc m x); [destruct (bit x q); ring|]. destruct (bit x q); rewrite !amul_0_r; reflexivity.
Qed.
Lemma restored_ext anc k r m f g : f == g -> restored anc k r m f == restored anc k r m g.
Proof. intros E x. unfold restored. now rewrite E. Qed.
Lemma restored_gate anc k r m f g q : ~ In q anc -> gate g [] q (restored anc k r m f) == restored anc k r m (gate g [] q f).
Proof. intros Hq x. unfold gate. cbn [active forallb]. now apply (restored_u2 anc k r m f (mat g) q). Qed.

(** ** Words *)
Definition avoids (q : nat) (o : op) : bool :=
  match o with
  | Gate _ ctl t => negb (t =? q) && forallb (fun p => negb (fst p =? q)) ctl
  | Swap a b => negb (a =? q) && negb (b =? q)
  | Reset p | Meas p _ => negb (p =? q)
  | If _ t _ _ _ => negb (t =? q)
  end.
Definition sapp (q : nat) (mt : amp * amp * amp * amp) (c : conf) : conf := mkConf (creg c) (outs c) (u2 mt q (st c)).
Lemma u2_comm m m' p q f : p <> q -> u2 m p (u2 m' q f) == u2 m' q (u2 m p f).
Proof.
  intros Hn x. destruct m as [[[a b] c] d], m' as [[[a' b'] c'] d']. unfold u2. rewrite !bit_upd.
  rewrite (proj2 (Nat.eqb_neq p q) Hn), (proj2 (Nat.eqb_neq q p) (not_eq_sym Hn)).
  rewrite !(upd_comm x p q) by auto. destruct (bit x p), (bit x q); ring.
Qed.
Lemma active_upd ctl x q b : forallb (fun p : nat * bool => negb (fst p =? q)) ctl = true -> active ctl (upd x q b) = active ctl x.
Proof.
  unfold active. induction ctl as [|c ctl IHc]; [reflexivity|]. cbn [forallb]. rewrite andb_true_iff. intros [H1 H2]. rewrite IHc by auto. rewrite bit_upd.
  apply negb_true_iff in H1. rewrite Nat.eqb_sym, H1. reflexivity.
Qed.
Lemma u2_zero_ m q : u2 m q zero == zero.
Proof. intros x. destruct m as [[[a b] c] d]. unfold u2, zero. destruct (bit x q); rewrite !amul_0_r; reflexivity. Qed.
Lemma gate_u2_comm g ctl t mt q f : avoids q (Gate g ctl t) = true -> gate g ctl t (u2 mt q f) == u2 mt q (gate g ctl t f).
Proof.
  cbn [avoids]. rewrite andb_true_iff. intros [Ht Hc] x. apply negb_true_iff, Nat.eqb_neq in Ht. unfold gate. destruct (active ctl x) eqn:E.
  - transitivity (u2 mt q (u2 (mat g) t f) x); [now apply u2_comm|]. unfold u2 at 1 3. destruct mt as [[[a b] c] d]. rewrite !active_upd, E by auto. reflexivity.
  - unfold u2. destruct mt as [[[a b] c] d]. rewrite !active_upd, E by auto. destruct (bit x q); ring.
Qed.
Lemma step_comm o mt q c : avoids q o = true -> st (step (sapp q mt c) o) == u2 mt q (st (step c o)).
Proof.
  intros Ha. destruct c as [cr rec f]. unfold sapp. destruct o; cbn [step st creg outs].
  - now apply gate_u2_comm.
  - cbn [avoids] in Ha. rewrite andb_true_iff, !negb_true_iff, !Nat.eqb_neq in Ha. destruct Ha as [Ha Hb]. intros x. destruct mt as [[[m00 m01] m10] m11]. unfold u2.
    assert (E : forall v, upd (upd (upd x a (bit x b)) b (bit x a)) q v = upd (upd (upd x q v) a (bit (upd x q v) b)) b (bit (upd x q v) a)).
    { intros v. rewrite !(bit_upd x q). rewrite (proj2 (Nat.eqb_neq q a) (not_eq_sym Ha)), (proj2 (Nat.eqb_neq q b) (not_eq_sym Hb)).
      rewrite (upd_comm _ b q) by auto. f_equal. now apply upd_comm. }
    rewrite !E, !bit_upd. rewrite (proj2 (Nat.eqb_neq a q) Ha), (proj2 (Nat.eqb_neq b q) Hb). reflexivity.
  - cbn [avoids] in Ha. apply negb_true_iff, Nat.eqb_neq in Ha. intros x. unfold resetTo, u2. destruct mt as [[[m00 m01] m10] m11]. rewrite !bit_upd.
    rewrite (proj2 (Nat.eqb_neq q0 q) Ha), (proj2 (Nat.eqb_neq q q0) (not_eq_sym Ha)). rewrite !(upd_comm x q0 q) by auto.
    destruct (bit x q0); [|reflexivity]. destruct (bit x q); rewrite !amul_0_r; reflexivity.
  - cbn [avoids] in Ha. apply negb_true_iff, Nat.eqb_neq in Ha. intros x. unfold project, u2. destruct mt as [[[m00 m01] m10] m11]. rewrite !bit_upd.
    rewrite (proj2 (Nat.eqb_neq q q0) (not_eq_sym Ha)). destruct (Bool.eqb _ _); [reflexivity|]. destruct (bit x q); rewrite !amul_0_r; reflexivity.
  - destruct (N.eqb _ _); [|intros x; reflexivity]. apply gate_u2_comm. cbn [avoids forallb] in *. now rewrite andb_true_r.
Qed.
Lemma run_comm os mt q : forallb (avoids q) os = true -> forall c, st (run os (sapp q mt c)) == u2 mt q (st (run os c)).
Proof.
  induction os as [|o os IHo]; intros Ha c; [intros x; reflexivity|]. cbn [forallb] in Ha. apply andb_true_iff in Ha. destruct Ha as [H1 H2]. unfold run in *. cbn [fold_left].
  intros x. rewrite <- (IHo H2 (step c o)). pose proof (step_comm o mt q c H1) as Es.
  pose proof (step_cr c (u2 mt q (st c)) o) as E1. pose proof (step_outs c (u2 mt q (st c)) o) as E2. fold (sapp q mt c) in E1, E2.
  destruct (step (sapp q mt c) o) as [cr o1 f1]. unfold sapp at 1. cbn [creg outs st] in *. subst. now apply (run_ext os).
Qed.
(** Pauli words *)
Lemma after_nil f : after [] f == f. Proof. intros x. reflexivity. Qed.
Lemma after_gate g q os f : after (Gate g [] q :: os) f == after os (gate g [] q f).
Proof. intros x. reflexivity. Qed.
Lemma after_ext os f g : f == g -> after os f == after os g. Proof. apply run_ext. Qed.
Lemma after_scale os k f : after os (scale k f) == scale k (after os f). Proof. apply run_scale. Qed.
Definition pureOp (o : op) : bool := match o with Gate _ [] _ => true | _ => false end.
Lemma gate1 g q f : gate g [] q f == u2 (mat g) q f. Proof. intros x. reflexivity. Qed.
Definition onQ (q : nat) (o : op) : bool := negb (avoids q o).
Lemma word_comm os d l : (forall p, In p l -> forallb (avoids (d (snd p))) os = true) ->
  forall cr rec f, st (run os (mkConf cr rec (after (word d l) f))) == after (word d l) (st (run os (mkConf cr rec f))).
Proof.
  induction l as [|[g j] l IHl]; intros Ha cr rec f; [intros x; reflexivity|]. intros x.
  change (word d ((g, j) :: l)) with (Gate g [] (d j) :: word d l). rewrite (after_gate g (d j) (word d l) (st (run os (mkConf cr rec f))) x).
  transitivity (st (run os (mkConf cr rec (after (word d l) (gate g [] (d j) f)))) x); [reflexivity|].
  rewrite IHl by (intros p Hp; apply Ha; now right). apply after_ext. intros y.
  exact (run_comm os (mat g) (d j) (Ha (g, j) (or_introl eq_refl)) (mkConf cr rec f) y).
Qed.
Lemma word_restored anc k r m d l f : (forall p, In p l -> ~ In (d (snd p)) anc) -> after (word d l) (restored anc k r m f) == restored anc k r m (after (word d l) f).
Proof.
  revert f. induction l as [|[g j] l IHl]; intros f Ha; [intros x; reflexivity|]. intros x.
  change (word d ((g, j) :: l)) with (Gate g [] (d j) :: word d l). rewrite (after_gate g (d j) (word d l)).
  rewrite (after_ext _ _ _ (restored_gate anc k r m f g (d j) (Ha (g, j) (or_introl eq_refl)))). rewrite IHl by (intros p Hp; apply Ha; now right). reflexivity.
Qed.
Lemma run_word d l cr rec f : run (word d l) (mkConf cr rec f) = mkConf cr rec (st (run (word d l) (mkConf cr rec f))).
Proof.
  unfold run, word. revert f. induction l as [|a l IHl]; intros f; [reflexivity|]. cbn [map fold_left step st creg outs]. apply IHl.
Qed.
Lemma st_word d l cr rec f : st (run (word d l) (mkConf cr rec f)) == after (word d l) f.
Proof.
  unfold after, run, word. revert f. induction l as [|a l IHl]; intros f x; [reflexivity|]. cbn [map fold_left step st creg outs]. apply IHl.
Qed.

(** ** Resets *)
Lemma resets_ok anc : NoDup anc -> forall cr rec f,
  run (map Reset anc) (mkConf cr rec f) = mkConf cr (skipn (length anc) rec) (st (run (map Reset anc) (mkConf cr rec f))) /\
  st (run (map Reset anc) (mkConf cr rec f)) == restored anc aone (taken (map Reset anc) rec) (repeat false (length anc)) f.
Proof.
  induction 1 as [|q anc Hq _ IHq]; intros cr rec f.
  - split; [reflexivity|]. intros x. unfold restored. cbn [reads combine forallb setTo map run fold_left st]. ring.
  - cbn [map taken isRand length repeat]. unfold run in *. cbn [fold_left step st creg outs]. destruct (IHq cr (tl rec) (resetTo q (hd false rec) f)) as [E1 E2]. split.
    + rewrite E1 at 1. destruct rec; reflexivity || (cbn [tl skipn]; destruct (length anc); reflexivity).
    + intros x. rewrite E2. unfold restored. cbn [reads combine forallb fst snd setTo]. fold (reads anc (repeat false (length anc)) x). unfold resetTo. rewrite bit_setTo by auto.
      destruct (reads anc (repeat false (length anc)) x); rewrite ?andb_true_r, ?andb_false_r; [|reflexivity].
      destruct (bit x q); cbn [Bool.eqb]; [now rewrite amul_0_r|reflexivity].
Qed.
Lemma restored_Z anc k r f q : NoDup anc -> In q anc -> length r = length anc ->
  gate GZ [] q (restored anc k r (repeat false (length anc)) f) == restored anc k r (repeat false (length anc)) f.
Proof.
  intros Hnd Hq Hr x. unfold gate. cbn [active forallb mat u2]. set (R := restored anc k r (repeat false (length anc)) f).
  assert (Hb : bit x q = true -> R x = azero).
  { intros Eb. unfold R, restored. replace (reads anc (repeat false (length anc)) x) with false; [reflexivity|]. symmetry. clear - Hq Eb. induction anc as [|p anc IHp]; [destruct Hq|].
    cbn [length repeat reads combine forallb fst snd]. destruct Hq as [->|Hq]; [now rewrite Eb|]. fold (reads anc (repeat false (length anc)) x). rewrite (IHp Hq). apply andb_false_r. }
  pose proof (upd_same x q) as Eu. destruct (bit x q).
  - rewrite Eu, (Hb eq_refl), !amul_0_l, amul_0_r. reflexivity.
  - rewrite Eu, amul_0_l, amul_1_l. destruct (R x). unfold azero, aadd. f_equal; lia.
Qed.
