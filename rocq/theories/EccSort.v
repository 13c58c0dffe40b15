(** * EccSort: circuits in another order.  Operations that commute may be exchanged; sorting by ancilla makes the circuits cheap to simulate. *)
From Coq Require Import NArith ZArith Ring.
From Verif Require Export EccRounds.
Local Open Scope amp_scope.

(** ** The same effect *)
Definition ceq (c c' : conf) : Prop := creg c = creg c' /\ outs c = outs c' /\ st c == st c'.
Lemma ceq_refl c : ceq c c. Proof. repeat split. Qed.
Lemma ceq_trans a b c : ceq a b -> ceq b c -> ceq a c.
Proof. intros [A1 [A2 A3]] [B1 [B2 B3]]. split; [congruence|]. split; [congruence|]. intros x. now rewrite A3. Qed.
Lemma ceq_run os c c' : ceq c c' -> ceq (run os c) (run os c').
Proof.
  intros [A1 [A2 A3]]. destruct c as [cr rec f], c' as [cr' rec' f']. cbn [creg outs st] in *. subst. destruct (run_cr os (mkConf cr' rec' f') f) as [E1 E2]. cbn [creg outs] in E1, E2.
  split; [exact E1|]. split; [exact E2|]. now apply run_ext.
Qed.
Lemma ceq_swap g q o c : avoids q o = true -> ceq (step (step c (Gate g [] q)) o) (step (step c o) (Gate g [] q)).
Proof.
  intros Ha. destruct c as [cr rec f]. pose proof (step_comm o (mat g) q (mkConf cr rec f) Ha) as E. unfold sapp in E. cbn [creg outs st] in E.
  split; [|split].
  - destruct o; reflexivity.
  - destruct o; reflexivity.
  - intros x. exact (E x).
Qed.
Lemma ceq_push g q os : forallb (avoids q) os = true -> forall os' c, ceq (run (Gate g [] q :: os ++ os') c) (run (os ++ Gate g [] q :: os') c).
Proof.
  induction os as [|o os IHo]; intros Ha os' c; [apply ceq_refl|]. cbn [forallb] in Ha. apply andb_true_iff in Ha. destruct Ha as [H1 H2].
  change (run (Gate g [] q :: (o :: os) ++ os') c) with (run (os ++ os') (step (step c (Gate g [] q)) o)). change (run ((o :: os) ++ Gate g [] q :: os') c) with (run (os ++ Gate g [] q :: os') (step c o)).
  apply (ceq_trans _ (run (os ++ os') (step (step c o) (Gate g [] q)))); [apply ceq_run, ceq_swap, H1|]. exact (IHo H2 os' (step c o)).
Qed.
Lemma ceq_flat {A} (F G : A -> list op) l : (forall i c, In i l -> ceq (run (F i) c) (run (G i) c)) -> forall c, ceq (run (flat_map F l) c) (run (flat_map G l) c).
Proof.
  induction l as [|i l IHl]; intros H c; [apply ceq_refl|]. cbn [flat_map]. rewrite !run_app. apply (ceq_trans _ (run (flat_map F l) (run (G i) c))).
  - apply ceq_run, H. now left.
  - apply IHl. intros j c' Hj. apply H. now right.
Qed.
Lemma ceq_sym a b : ceq a b -> ceq b a.
Proof. intros [A [B C]]. repeat split; auto. intros x. now rewrite C. Qed.
(** ** Operations that commute *)
Definition apart (t t' : nat) (c c' : list (nat * bool)) : bool :=
  negb (t =? t') && forallb (fun p => negb (fst p =? t')) c && forallb (fun p => negb (fst p =? t)) c'.
Lemma gate_comm g c t g' c' t' f : apart t t' c c' = true -> gate g c t (gate g' c' t' f) == gate g' c' t' (gate g c t f).
Proof.
  unfold apart. rewrite !andb_true_iff, negb_true_iff, Nat.eqb_neq. intros [[Hn Hc] Hc'] x. unfold gate, u2. destruct (mat g) as [[[a0 a1] a2] a3], (mat g') as [[[b0 b1] b2] b3].
  rewrite !(active_upd c x t') by exact Hc. rewrite !(active_upd c' x t) by exact Hc'. rewrite !bit_upd. rewrite (proj2 (Nat.eqb_neq t t') Hn), (proj2 (Nat.eqb_neq t' t) (not_eq_sym Hn)).
  rewrite !(upd_comm x t t') by exact Hn. destruct (active c x), (active c' x), (bit x t), (bit x t'); ring.
Qed.
Lemma gate_project g c t q b f : t <> q -> forallb (fun p => negb (fst p =? q)) c = true -> gate g c t (project q b f) == project q b (gate g c t f).
Proof.
  intros Hn Hc x. unfold gate, project, u2. destruct (mat g) as [[[a0 a1] a2] a3]. rewrite !bit_upd. rewrite (proj2 (Nat.eqb_neq _ _) Hn).
  destruct (active c x), (bit x t), (Bool.eqb (bit x q) b); rewrite ?amul_0_r; ring.
Qed.
Lemma gX_same c c' t f : forallb (fun p => negb (fst p =? t)) c = true -> forallb (fun p => negb (fst p =? t)) c' = true -> gate GX c t (gate GX c' t f) == gate GX c' t (gate GX c t f).
Proof.
  intros Hc Hc' x. unfold gate, u2. cbn [mat unit_of]. rewrite !(active_upd c x t), !(active_upd c' x t) by assumption. rewrite !bit_upd, !Nat.eqb_refl, !upd_upd.
  destruct (active c x), (active c' x), (bit x t); rewrite ?amul_0_l; try ring.
Qed.
Definition isX (g : gt) : bool := match g with GX => true | _ => false end.
Definition away (q : nat) (c : list (nat * bool)) : bool := forallb (fun p => negb (fst p =? q)) c.
Definition swapOk (o o' : op) : bool :=
  match o, o' with
  | Gate g c t, Gate g' c' t' => apart t t' c c' || (isX g && isX g' && (t =? t') && away t c && away t c')
  | Gate g c t, Meas q _ | Meas q _, Gate g c t => negb (t =? q) && away q c
  | _, _ => false
  end.
Lemma swapOk_ceq o o' c : swapOk o o' = true -> ceq (step (step c o) o') (step (step c o') o).
Proof.
  destruct o as [g k t|p q|q|q j|g t lo wd v], o' as [g' k' t'|p' q'|q'|q' j'|g' t' lo' wd' v']; cbn [swapOk]; try discriminate; intros Hs; (split; [reflexivity|split; [reflexivity|]]); cbn [step creg outs st].
  - apply orb_true_iff in Hs. destruct Hs as [Hs|Hs].
    + intros x. symmetry. now apply gate_comm.
    + rewrite !andb_true_iff in Hs. destruct Hs as [[[[H1 H2] H3] H4] H5]. apply Nat.eqb_eq in H3. subst t'. destruct g, g'; try discriminate. now apply gX_same.
  - apply andb_true_iff in Hs. destruct Hs as [H1 H2]. apply negb_true_iff, Nat.eqb_neq in H1. intros x. symmetry. now apply gate_project.
  - apply andb_true_iff in Hs. destruct Hs as [H1 H2]. apply negb_true_iff, Nat.eqb_neq in H1. now apply gate_project.
Qed.
(** ** Sorting by a key *)
Section Sort.
Variable key : op -> nat.
Fixpoint insertR (o : op) (l : list op) : list op :=
  match l with
  | [] => [o]
  | x :: l' => if (key x <? key o) && swapOk o x then x :: insertR o l' else o :: l
  end.
Definition sortOps (l : list op) : list op := fold_right insertR [] l.
Variables (w : nat) (rho : nat -> nat) (off : nat).
Hypothesis inj : forall i j, i < w -> j < w -> rho i = rho j -> i = j.
Lemma neq_ren a b : a < w -> b < w -> negb (a =? b) = true -> negb (rho a =? rho b) = true.
Proof. intros Ha Hb Hn. apply negb_true_iff, Nat.eqb_neq in Hn. apply negb_true_iff, Nat.eqb_neq. intros E. apply Hn. now apply inj. Qed.
Lemma away_ren q c : q < w -> forallb (fun p => fst p <? w) c = true -> away q c = true -> away (rho q) (map (fun p => (rho (fst p), snd p)) c) = true.
Proof.
  intros Hq Hc Ha. unfold away in *. rewrite forallb_forall in *. intros p Hp. apply in_map_iff in Hp. destruct Hp as [p' [<- Hp]]. cbn [fst].
  apply neq_ren; [|exact Hq|exact (Ha p' Hp)]. apply Nat.ltb_lt. exact (Hc p' Hp).
Qed.
Lemma swapOk_ren o o' : inT w o = true -> inT w o' = true -> swapOk o o' = true -> swapOk (ren rho off o) (ren rho off o') = true.
Proof.
  destruct o as [g k t|p q|q|q j|g t lo wd v], o' as [g' k' t'|p' q'|q'|q' j'|g' t' lo' wd' v']; cbn [swapOk ren inT]; try discriminate; rewrite ?andb_true_iff, ?orb_true_iff, ?Nat.ltb_lt.
  - unfold apart. rewrite !andb_true_iff. fold (away t' k). fold (away t k'). intros [H1 H2] [H1' H2'] [[[H3 H4] H5]|[[[[H3 H4] H5] H6] H7]].
    + left. fold (away (rho t') (map (fun p => (rho (fst p), snd p)) k)). fold (away (rho t) (map (fun p => (rho (fst p), snd p)) k')). auto using neq_ren, away_ren.
    + right. apply Nat.eqb_eq in H5. subst t'. rewrite Nat.eqb_refl. auto 7 using away_ren.
  - intros [H1 H2] H3 [H4 H5]. auto using neq_ren, away_ren.
  - intros H3 [H1 H2] [H4 H5]. auto using neq_ren, away_ren.
Qed.
Notation R l := (map (ren rho off) l).
Lemma insertR_inT o l : inT w o = true -> forallb (inT w) l = true -> forallb (inT w) (insertR o l) = true.
Proof.
  intros Ho. induction l as [|x l IHl]; intros Hl; cbn [insertR]; [cbn [forallb]; now rewrite Ho|]. cbn [forallb] in Hl. apply andb_true_iff in Hl. destruct Hl as [Hx Hl].
  destruct ((key x <? key o) && swapOk o x); cbn [forallb]; rewrite ?Ho, Hx; [now apply IHl|exact Hl].
Qed.
Lemma insertR_ok o l : inT w o = true -> forallb (inT w) l = true -> forall c, ceq (run (R (o :: l)) c) (run (R (insertR o l)) c).
Proof.
  intros Ho. induction l as [|x l IHl]; intros Hl c; [apply ceq_refl|]. cbn [forallb] in Hl. apply andb_true_iff in Hl. destruct Hl as [Hx Hl]. cbn [insertR].
  destruct ((key x <? key o) && swapOk o x) eqn:E; [|apply ceq_refl]. apply andb_true_iff in E. destruct E as [_ E].
  apply (ceq_trans _ (run (R (o :: l)) (step c (ren rho off x)))); [|apply (IHl Hl)].
  change (run (R (o :: x :: l)) c) with (run (R l) (step (step c (ren rho off o)) (ren rho off x))). change (run (R (o :: l)) (step c (ren rho off x))) with (run (R l) (step (step c (ren rho off x)) (ren rho off o))).
  apply ceq_run, swapOk_ceq. now apply swapOk_ren.
Qed.
Lemma sortOps_inT l : forallb (inT w) l = true -> forallb (inT w) (sortOps l) = true.
Proof. induction l as [|o l IHl]; [reflexivity|]. cbn [forallb]. rewrite andb_true_iff. intros [Ho Hl]. now apply insertR_inT; [|apply IHl]. Qed.
Theorem sortOps_ok l : forallb (inT w) l = true -> forall c, ceq (run (R (sortOps l)) c) (run (R l) c).
Proof.
  induction l as [|o l IHl]; intros Hl c; [apply ceq_refl|]. cbn [forallb] in Hl. apply andb_true_iff in Hl. destruct Hl as [Ho Hl].
  apply (ceq_trans _ (run (R (o :: sortOps l)) c)); [apply ceq_sym, insertR_ok; [exact Ho|now apply sortOps_inT]|]. exact (IHl Hl (step c (ren rho off o))).
Qed.
End Sort.
