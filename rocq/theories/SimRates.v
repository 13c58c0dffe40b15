(** * SimRates: the accounting of logical_error_rate *)
From Coq Require Import Qfield Lqa.
From Verif Require Export SimModel.
Local Open Scope nat_scope.

(** sum of f 1, .., f t *)
Fixpoint qsum (f : nat -> Q) (t : nat) : Q := match t with O => 0%Q | S t' => (qsum f t' + f (S t'))%Q end.
Fixpoint nsum (f : nat -> nat) (t : nat) : nat := match t with O => 0 | S t' => nsum f t' + f (S t') end.
Definition nq (a : nat) : Q := inject_Z (Z.of_nat a).
(** the logical error rate of batch i: errors among the accepted shots, 0 if there are none *)
Definition batch_rate (batch : nat) (b : nat * nat) : Q := if snd b =? batch then 0%Q else (nq (fst b) / nq (batch - snd b))%Q.

Lemma nq_pos a : 1 <= a -> (0 < nq a)%Q.
Proof. intros H. unfold nq. change 0%Q with (inject_Z 0). rewrite <- Zlt_Qlt. lia. Qed.
Lemma nq_nonneg a : (0 <= nq a)%Q.
Proof. unfold nq. change 0%Q with (inject_Z 0). rewrite <- Zle_Qle. lia. Qed.
Lemma nq_le a b : a <= b -> (nq a <= nq b)%Q.
Proof. intros H. unfold nq. rewrite <- Zle_Qle. lia. Qed.
Lemma nq_S a : (nq (S a) == nq a + 1)%Q.
Proof. unfold nq. rewrite Nat2Z.inj_succ. unfold Z.succ. rewrite inject_Z_plus. reflexivity. Qed.
Lemma nq_add a b : (nq (a + b) == nq a + nq b)%Q.
Proof. unfold nq. rewrite Nat2Z.inj_add, inject_Z_plus. reflexivity. Qed.
Lemma nq_mul a b : (nq (a * b) == nq a * nq b)%Q.
Proof. unfold nq. rewrite Nat2Z.inj_mul, inject_Z_mult. reflexivity. Qed.
Lemma nq_0 : (nq 0 == 0)%Q. Proof. reflexivity. Qed.
Lemma ratio_1 a : (ratio a 1 == nq a)%Q.
Proof. unfold ratio, nq. change (inject_Z (Z.of_nat 1)) with 1%Q. field. Qed.
Lemma ratio_nq a b : ratio a b = (nq a / nq b)%Q. Proof. reflexivity. Qed.

Section Loop.
Variables (shots batch min_errors : nat) (batches : nat -> nat * nat).
Definition turns := (shots + batch - 1) / batch.
Definition errors_of (t : nat) : nat := nsum (fun i => fst (batches i)) t.
Definition discarded (t : nat) : nat := nsum (fun i => snd (batches i)) t.
Definition mean_ok (t : nat) (p_l r_a : Q) : Prop :=
  (p_l * nq t == qsum (fun i => batch_rate batch (batches i)) t)%Q /\ (r_a * nq t == qsum (fun i => 1 - nq (snd (batches i)) / nq batch) t)%Q.
Lemma mean_step t p_l r_a : mean_ok t p_l r_a -> let '(e, d) := batches (S t) in
  mean_ok (S t) ((ratio (S t - 1) 1 * p_l + (if d =? batch then 0%Q else ratio e (batch - d))) / ratio (S t) 1) ((ratio (S t - 1) 1 * r_a + (1 - ratio d batch)) / ratio (S t) 1).
Proof. intros [A B]. destruct (batches (S t)) as [e d] eqn:E. unfold mean_ok. cbn [qsum]. rewrite E. cbn [snd fst]. assert (P := nq_pos (S t) ltac:(lia)). rewrite Nat.sub_succ, Nat.sub_0_r.
  rewrite <- A, <- B, !ratio_1. unfold batch_rate. cbn [fst snd]. rewrite !ratio_nq. generalize (if d =? batch then 0%Q else (nq e / nq (batch - d))%Q). intros r. generalize (nq d / nq batch)%Q. intros r2. split; field; lra. Qed.

Lemma loop_fixed fuel : forall t p_l r_a, mean_ok t p_l r_a -> t <= turns ->
  (turns <= t + fuel -> exists p r, rate_loop fuel shots batch false min_errors batches (S t) p_l r_a (errors_of t) = Done (p, r, errors_of turns, S turns) /\ mean_ok turns p r) /\
  (t + fuel < turns -> rate_loop fuel shots batch false min_errors batches (S t) p_l r_a (errors_of t) = Unfinished).
Proof. induction fuel as [|fuel IH]; intros t p_l r_a M T; cbn [rate_loop]; fold turns; rewrite orb_false_r.
  - split; intros H; destruct (Nat.leb_spec (S t) turns); try lia; auto. assert (t = turns) as -> by lia. eauto.
  - destruct (Nat.leb_spec (S t) turns) as [H|H].
    + assert (X := mean_step t p_l r_a M). destruct (batches (S t)) as [e d] eqn:E. cbn [andb]. assert (EE : errors_of t + e = errors_of (S t)) by (unfold errors_of; cbn [nsum]; now rewrite E).
      rewrite EE. destruct (IH (S t) _ _ X H) as [I1 I2]. split; intros L; [apply I1; lia|apply I2; lia].
    + assert (t = turns) as -> by lia. split; [eauto|lia]. Qed.
Lemma loop_until fuel : forall t p_l r_a, mean_ok t p_l r_a ->
  (forall u, t < u -> (forall j, t < j < u -> errors_of j < min_errors) -> min_errors <= errors_of u -> u <= t + fuel ->
     exists p r, rate_loop fuel shots batch true min_errors batches (S t) p_l r_a (errors_of t) = Done (p, r, errors_of u, u) /\ mean_ok u p r) /\
  ((forall j, t < j <= t + fuel -> errors_of j < min_errors) -> rate_loop fuel shots batch true min_errors batches (S t) p_l r_a (errors_of t) = Unfinished).
Proof. induction fuel as [|fuel IH]; intros t p_l r_a M; cbn [rate_loop]; fold turns; rewrite orb_true_r.
  - split; auto. intros u H _ _ H2. lia.
  - assert (X := mean_step t p_l r_a M). destruct (batches (S t)) as [e d] eqn:E. cbn [andb]. assert (EE : errors_of t + e = errors_of (S t)) by (unfold errors_of; cbn [nsum]; now rewrite E). rewrite EE.
    destruct (IH (S t) _ _ X) as [I1 I2]. split.
    + intros u H B Hu F. destruct (Nat.leb_spec min_errors (errors_of (S t))) as [L|L].
      * assert (u = S t) as -> by (destruct (Nat.eq_dec u (S t)); auto; specialize (B (S t)); lia). eauto.
      * apply I1; auto; [destruct (Nat.eq_dec u (S t)) as [->|]; lia|intros j Hj; apply B; lia|lia].
    + intros H. destruct (Nat.leb_spec min_errors (errors_of (S t))) as [L|L]; [specialize (H (S t)); lia|]. apply I2. intros j Hj. apply H. lia. Qed.
Lemma ra_exact t r_a p_l : mean_ok t p_l r_a -> 1 <= batch -> 1 <= t -> (r_a == 1 - nq (discarded t) / nq (t * batch))%Q.
Proof. intros [_ B] Hb Ht. assert (P := nq_pos batch Hb). assert (P2 := nq_pos t Ht).
  assert (S : (qsum (fun i => 1 - nq (snd (batches i)) / nq batch) t == nq t - nq (discarded t) / nq batch)%Q).
  { clear - P. induction t as [|t IH]; [unfold discarded; cbn [qsum nsum]; rewrite nq_0; field; lra|]. cbn [qsum]. rewrite IH. unfold discarded. cbn [nsum]. rewrite nq_add, nq_S. field. lra. }
  rewrite S in B. rewrite nq_mul. setoid_replace r_a with ((r_a * nq t) / nq t)%Q by (field; lra). rewrite B. field. split; lra. Qed.
Lemma discarded_le t : (forall i, snd (batches i) <= batch) -> discarded t <= t * batch.
Proof. intros H. unfold discarded. induction t as [|t IH]; cbn [nsum]; [lia|]. specialize (H (S t)). lia. Qed.
Lemma rate_range t : (forall i, fst (batches i) + snd (batches i) <= batch) -> (0 <= qsum (fun i => batch_rate batch (batches i)) t /\ qsum (fun i => batch_rate batch (batches i)) t <= nq t)%Q.
Proof. intros H. induction t as [|t IH]; [cbn [qsum]; rewrite nq_0; split; lra|]. cbn [qsum]. specialize (H (S t)). unfold batch_rate at 2 4. destruct (batches (S t)) as [e d]. cbn [fst snd] in *. rewrite nq_S.
  destruct (Nat.eqb_spec d batch) as [->|N]; [split; lra|]. assert (P := nq_pos (batch - d) ltac:(lia)). assert (L := nq_le e (batch - d) ltac:(lia)). assert (N0 := nq_nonneg e).
  assert (0 <= nq e / nq (batch - d))%Q by (apply Qle_shift_div_l; auto; lra). assert (nq e / nq (batch - d) <= 1)%Q by (apply Qle_shift_div_r; auto; lra). split; lra. Qed.
End Loop.
