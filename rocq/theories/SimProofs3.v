(** * SimProofs3: the qubits of the stim circuit and its final measurements *)
From Coq Require Import Permutation.
From Verif Require Export SimProofs2 FlagHook.
Local Open Scope nat_scope.

(** ** which qubits occur *)
(** the qubits of the CNOTs and measurements *)
Definition busy (l : list ins) : list nat := flat_map (fun i => match i with IH _ => [] | ICX c t => [c; t] | IM q _ => [q] end) l.
Lemma busy_app a b : busy (a ++ b) = busy a ++ busy b.
Proof. apply flat_map_app. Qed.
Definition sq (ops : list sop) : list nat := flat_map sop_qubits ops.
Lemma sq_app a b : sq (a ++ b) = sq a ++ sq b.
Proof. apply flat_map_app. Qed.
Definition busy_ok (pre : list ins) (s : tst) : Prop := (forall q, inited s q = true -> In q (busy pre)) /\ (forall q, In q (sq (t_ops s)) <-> In q (busy pre)).
Lemma busy_idle p pre s used : busy_ok pre s -> busy_ok pre (idle_error p s used).
Proof. intros [A B]. split; auto. intros q. unfold idle_error. cbn [put t_ops]. rewrite sq_app, in_app_iff, B. split; auto. intros [H|H]; auto. unfold sq in H. apply in_flat_map in H as (o & H & I). apply in_map_iff in H as (r & <- & H). destruct I as [<-|[]]. apply filter_In in H as [_ H]. apply andb_true_iff in H as [H _]. now apply A. Qed.
Lemma busy_after p par pre s qs : busy_ok pre s -> busy_ok pre (after_gate p par s qs).
Proof. intros H. unfold after_gate. destruct (negb par); [now apply busy_idle|exact H]. Qed.
Lemma busy_gate p par pre s g : busy_ok pre s -> busy_ok (pre ++ [g]) (sim_gate p par s g).
Proof. intros [A B]. destruct g as [q|c t|a b]; cbn [sim_gate].
  - unfold inited at 1. cbn [t_init]. fold (inited s q). destruct (inited s q) eqn:I.
    + apply busy_after. split; [intros r J; rewrite busy_app, in_app_iff; left; now apply A|]. intros r. rewrite busy_app. cbn [put t_ops busy flat_map app]. rewrite app_nil_r, sq_app, in_app_iff, B. split; auto. intros [H|[<-|[<-|[]]]]; auto.
    + split; [intros r J; rewrite busy_app, in_app_iff; left; now apply A|]. intros r. rewrite busy_app. cbn [t_ops busy flat_map app]. rewrite app_nil_r. apply B.
  - apply busy_after. set (s0 := mkT _ _ _ _ _ _ _ _ _ _).
    assert (IC : (forall q, inited (init_ctrl p s0 c) q = true -> q = c \/ In q (busy pre)) /\ (forall q, In q (sq (t_ops (init_ctrl p s0 c))) -> q = c \/ In q (busy pre)) /\ (forall q, In q (busy pre) -> In q (sq (t_ops (init_ctrl p s0 c))))).
    { unfold init_ctrl. change (inited s0 c) with (inited s c). destruct (inited s c) eqn:I.
      - split; [intros q J; right; now apply A|]. split; [intros q J; right; now apply B|intros q J; now apply B].
      - split; [|split].
        + intros q. unfold inited. cbn [set_init put t_init s0]. destruct (Nat.eq_dec q c) as [->|N]; auto. rewrite nth_set_nth_neq by auto. intros J. right. now apply A.
        + intros q. cbn [set_init put t_ops s0]. rewrite sq_app, in_app_iff, B. intros [J|J]; auto. left. destruct (isin _ _); cbn in J; intuition.
        + intros q J. cbn [set_init put t_ops s0]. rewrite sq_app, in_app_iff, B. auto. }
    destruct IC as (I1 & I2 & I3).
    assert (IT : (forall q, inited (init_target p (init_ctrl p s0 c) t) q = true -> q = t \/ q = c \/ In q (busy pre)) /\ (forall q, In q (sq (t_ops (init_target p (init_ctrl p s0 c) t))) -> q = t \/ q = c \/ In q (busy pre)) /\ (forall q, In q (busy pre) -> In q (sq (t_ops (init_target p (init_ctrl p s0 c) t))))).
    { unfold init_target. destruct (inited (init_ctrl p s0 c) t) eqn:I; [auto|]. split; [|split].
        + intros q. unfold inited. cbn [set_init put t_init]. destruct (Nat.eq_dec q t) as [->|N]; auto. rewrite nth_set_nth_neq by auto. intros J. right. now apply I1.
        + intros q. cbn [set_init put t_ops]. rewrite sq_app, in_app_iff. intros [J|[J|[]]]; auto.
        + intros q J. cbn [set_init put t_ops]. rewrite sq_app, in_app_iff. auto. }
    destruct IT as (J1 & J2 & J3). split.
    + intros q J. rewrite busy_app, in_app_iff. cbn. apply J1 in J. intuition.
    + intros q. rewrite busy_app. cbn [put t_ops]. rewrite sq_app, !in_app_iff. cbn. split; [intros [J|J]; [apply J2 in J|]; intuition|]. intros [J|J]; [left; now apply J3|]. intuition.
  - match goal with |- context [after_gate p par ?x [a]] => set (s1 := x) end. assert (S1 : busy_ok (pre ++ [IM a b]) s1).
    { split; [intros r J; rewrite busy_app, in_app_iff; left; now apply A|]. intros r. rewrite busy_app. unfold s1. cbn [put t_ops]. rewrite sq_app, !in_app_iff, B. cbn. intuition. }
    apply (busy_after p par _ _ [a]) in S1. destruct S1 as [S1 S2]. split; [|exact S2]. intros q. unfold inited. cbn [t_init]. destruct (Nat.eq_dec q a) as [->|N].
    + intros _. rewrite busy_app, in_app_iff. right. cbn. auto.
    + rewrite nth_set_nth_neq by auto. apply S1. Qed.
Lemma busy_all p par nq layers : forall q, In q (sq (t_ops (to_stim_circ p par nq layers))) <-> In q (busy (concat layers)).
Proof. apply (run_ind p par (fun pre s => busy_ok pre s)).
  - split; cbn; [|tauto]. intros q. unfold inited. cbn. rewrite nth_repeat. discriminate.
  - intros pre s. apply busy_idle.
  - intros pre s [A B]. split; auto.
  - intros pre s g. apply busy_gate. Qed.
Lemma list_max_in l q : In q l -> q <= list_max l.
Proof. intros I. assert (H := proj1 (list_max_le l (list_max l)) (le_n _)). rewrite Forall_forall in H. auto. Qed.
Lemma num_qubits_eq ops n : (forall q, In q (sq ops) -> q < n) -> (n = 0 \/ In (n - 1) (sq ops)) -> num_qubits ops = n.
Proof. intros A B. unfold num_qubits. fold (sq ops). apply Nat.le_antisymm.
  - apply list_max_le, Forall_forall. intros x I. apply in_map_iff in I as (q & <- & I). now apply A.
  - destruct B as [->|B]; [lia|]. assert (X := list_max_in (map S (sq ops)) (S (n - 1)) (in_map S _ _ B)). lia. Qed.
Lemma num_qubits_le ops q : In q (sq ops) -> q < num_qubits ops.
Proof. intros I. unfold num_qubits. fold (sq ops). assert (X := list_max_in (map S (sq ops)) (S q) (in_map S _ _ I)). lia. Qed.
Lemma stim_qubits p par nq layers n : (forall q, In q (busy (concat layers)) -> q < n) -> (n = 0 \/ In (n - 1) (busy (concat layers))) -> num_qubits (t_ops (to_stim_circ p par nq layers)) = n.
Proof. intros A B. apply num_qubits_eq; [intros q I; apply A; now apply busy_all in I|]. destruct B; auto. right. now apply busy_all. Qed.
Lemma exchange_in l l' (i : ins) : exchange l l' -> In i l <-> In i l'.
Proof. induction 1 as [l|a j k b ID|l1 l2 l3 E1 I1 E2 I2]; [tauto| |tauto]. rewrite !in_app_iff. cbn. tauto. Qed.
Lemma exchange_measured l l' : exchange l l' -> Permutation (measured_qubits l) (measured_qubits l').
Proof. induction 1 as [l|a i j b ID|l1 l2 l3 E1 I1 E2 I2]; [reflexivity| |etransitivity; eauto]. rewrite !mq_app. apply Permutation_app_head. change (i :: j :: b) with ([i] ++ [j] ++ b). change (j :: i :: b) with ([j] ++ [i] ++ b). rewrite !mq_app. rewrite !app_assoc. apply Permutation_app_tail, Permutation_app_comm. Qed.
(** when no qubit is measured more than twice: the number of measurements minus the number of qubits measured twice is the number of measured qubits *)
Lemma twice_count (l : list nat) : (forall q, count_occ Nat.eq_dec l q <= 2) -> length l = length (filter (fun q => 2 <=? count_occ Nat.eq_dec l q) (nodup Nat.eq_dec l)) + length (nodup Nat.eq_dec l).
Proof. induction l as [|a l IHl] using rev_ind; intros H; [reflexivity|]. rewrite reused_step, (Permutation_length (nodup_snoc l a)), app_length. cbn [length].
  assert (CA : count_occ Nat.eq_dec (l ++ [a]) a = S (count_occ Nat.eq_dec l a)) by (rewrite count_occ_app; cbn; destruct (Nat.eq_dec a a); [lia|congruence]).
  assert (HL : forall q, count_occ Nat.eq_dec l q <= 2) by (intros q; specialize (H q); rewrite count_occ_app in H; lia). specialize (IHl HL). specialize (H a). rewrite CA in H. rewrite CA.
  destruct (in_dec Nat.eq_dec a l) as [I|N].
  - apply (count_occ_In Nat.eq_dec) in I. destruct (Nat.eqb_spec (S (count_occ Nat.eq_dec l a)) 2); lia.
  - apply (count_occ_not_In Nat.eq_dec) in N. rewrite N. cbn [Nat.eqb]. rewrite app_length. cbn [length]. lia. Qed.

(** ** the final measurements *)
Definition check_ops (x : bool) (anc : nat) (r : vec) : list sop :=
  if x then [SH anc] ++ map (fun q => SCX anc q) (check_support r) ++ [SMRX anc] else map (fun q => SCX q anc) (check_support r) ++ [SMR anc].
Lemma nq_app_block x ops r : (forall q, In q (support r) -> q < num_qubits ops) -> num_qubits (ops ++ check_ops x (num_qubits ops) r) = S (num_qubits ops).
Proof. intros B. apply num_qubits_eq.
  - intros q I. rewrite sq_app in I. apply in_app_iff in I as [I|I]; [apply num_qubits_le in I; lia|]. assert (X : In q (support r) \/ q = num_qubits ops).
    { unfold sq in I. apply in_flat_map in I as (o & Io & I). unfold check_ops in Io. destruct x.
      - apply in_app_iff in Io as [[<-|[]]|Io]; [destruct I as [<-|[]]; auto|]. apply in_app_iff in Io as [Io|[<-|[]]]; [|destruct I as [<-|[]]; auto]. apply in_map_iff in Io as (r' & <- & Ir). destruct I as [<-|[<-|[]]]; auto.
      - apply in_app_iff in Io as [Io|[<-|[]]]; [|destruct I as [<-|[]]; auto]. apply in_map_iff in Io as (r' & <- & Ir). destruct I as [<-|[<-|[]]]; auto. }
    destruct X as [X| ->]; [apply B in X; lia|lia].
  - right. rewrite Nat.sub_succ, Nat.sub_0_r, sq_app. apply in_app_iff. right. unfold check_ops. destruct x; rewrite ?sq_app; rewrite !in_app_iff; [left; now left|right; now left]. Qed.
Lemma measure_checks_shape x rows : forall ops, (forall r q, In r rows -> In q (support r) -> q < num_qubits ops) ->
  measure_checks x rows ops = ops ++ flat_map (fun a => check_ops x (fst a) (snd a)) (combine (seq (num_qubits ops) (length rows)) rows) /\ num_qubits (measure_checks x rows ops) = num_qubits ops + length rows.
Proof. induction rows as [|r rows IHr]; intros ops B; [cbn [measure_checks length seq combine flat_map]; now rewrite app_nil_r, Nat.add_0_r|].
  change (measure_checks x (r :: rows) ops) with (measure_checks x rows (ops ++ check_ops x (num_qubits ops) r)). cbn [length seq combine flat_map fst snd]. assert (N := nq_app_block x ops r (fun q => B r q (or_introl eq_refl))).
  destruct (IHr (ops ++ check_ops x (num_qubits ops) r)) as [E1 E2]; [intros r' q I J; rewrite N; specialize (B r' q (or_intror I) J); lia|]. split; [rewrite E1, N, <- app_assoc; reflexivity|rewrite E2, N; lia]. Qed.
Lemma records_check x anc r : records (check_ops x anc r) = [(anc, x)].
Proof. unfold check_ops. destruct x; rewrite !records_app; [assert (E : forall l, records (map (fun q => SCX anc q) l) = []) by (induction l; auto)|assert (E : forall l, records (map (fun q => SCX q anc) l) = []) by (induction l; auto)]; rewrite E; reflexivity. Qed.
Lemma records_checks x rows : forall k, records (flat_map (fun a => check_ops x (fst a) (snd a)) (combine (seq k (length rows)) rows)) = map (fun a => (a, x)) (seq k (length rows)).
Proof. induction rows as [|r rows IHr]; intros k; auto. cbn [length seq combine flat_map map]. rewrite records_app, records_check, IHr. reflexivity. Qed.
Lemma records_data zs m : records (map (fun q => if zs : bool then SMR q else SMRX q) m) = map (fun q => (q, negb zs)) m.
Proof. induction m as [|q m IHm]; auto. cbn [map]. destruct zs; cbn [negb] in *; rewrite <- IHm; reflexivity. Qed.
