(** * SimProofs: the stim circuit of to_stim_circ *)
From Coq Require Import Permutation.
From Verif Require Export SimSem.
Local Open Scope nat_scope.

Section One.
Variables (p : Q) (par : bool).
Notation gate1 := (sim_gate p par).
(** ** all gates in order, ignoring the layers: idling aside, a layer is a sequence of gates *)
Definition clear (s : tst) : tst := mkT (t_ops s) (t_init s) (t_ctrls s) (t_targets s) (t_measured s) (t_xv s) (t_zv s) (t_nm s) (t_reused s) [].
Lemma run_ind (P : list ins -> tst -> Prop) nq layers : P [] (mkT [] (repeat false nq) [] [] [] [] [] 0 0 []) ->
  (forall pre s, P pre s -> P pre (idle_error p s (t_used s))) -> (forall pre s, P pre s -> P pre (clear s)) -> (forall pre s g, P pre s -> P (pre ++ [g]) (gate1 s g)) ->
  P (concat layers) (to_stim_circ p par nq layers).
Proof. intros H0 HI HC HG. unfold to_stim_circ. revert H0. generalize (mkT [] (repeat false nq) [] [] [] [] [] 0 0 []). change (concat layers) with ([] ++ concat layers). generalize (@nil ins).
  induction layers as [|l layers IHl]; intros pre s HP; [cbn; now rewrite app_nil_r|]. cbn [concat fold_left]. rewrite app_assoc. apply IHl. unfold sim_layer. set (s1 := if 0 <? length (t_used s) then _ else s).
  assert (P1 : P pre s1) by (unfold s1; destruct (0 <? _); auto). apply HC in P1. unfold clear in P1. revert P1. generalize (mkT (t_ops s1) (t_init s1) (t_ctrls s1) (t_targets s1) (t_measured s1) (t_xv s1) (t_zv s1) (t_nm s1) (t_reused s1) []).
  clear s HP s1 IHl. revert pre. induction l as [|g l IHl]; intros pre s HP; [cbn; now rewrite app_nil_r|]. cbn [fold_left]. replace (pre ++ g :: l) with ((pre ++ [g]) ++ l) by (now rewrite <- app_assoc). apply IHl. auto. Qed.

(** ** noise model *)
Lemma noisy_idle s used : noisy p (t_ops s) -> noisy p (t_ops (idle_error p s used)).
Proof. intros N. unfold idle_error. cbn [put t_ops]. generalize (filter (fun q => inited s q && negb (isin q used)) (seq 0 (length (t_init s)))). revert N. generalize (t_ops s). intros l N qs. revert l N. induction qs as [|q qs IHq]; intros l N; [cbn; now rewrite app_nil_r|].
  cbn [map]. change (SDep1 q (2 * p / 3) :: map (fun q => SDep1 q (2 * p / 3)) qs) with ([SDep1 q (2 * p / 3)] ++ map (fun q => SDep1 q (2 * p / 3)) qs). rewrite app_assoc. apply IHq. now apply ny_idle. Qed.
Lemma noisy_after s qs : noisy p (t_ops s) -> noisy p (t_ops (after_gate p par s qs)).
Proof. intros N. unfold after_gate. destruct (negb par); auto using noisy_idle. Qed.
Lemma noisy_gate s g : noisy p (t_ops s) -> noisy p (t_ops (gate1 s g)).
Proof. intros N. destruct g as [q|c t|a b]; cbn [sim_gate].
  - unfold inited. cbn [t_init]. destruct (nth q (t_init s) false); [|exact N]. apply noisy_after. cbn [put t_ops]. now apply ny_h.
  - apply noisy_after. cbn [put t_ops]. apply ny_cx. unfold init_target. destruct (inited _ t); [|cbn [set_init put t_ops]; apply ny_init0]; unfold init_ctrl; destruct (inited _ c); cbn [t_ops set_init put]; auto; destruct (isin _ _); auto using ny_initp, ny_init0.
  - cbn [t_ops]. apply noisy_after. cbn [t_ops put]. now apply ny_m. Qed.
Lemma noisy_all nq layers : noisy p (t_ops (to_stim_circ p par nq layers)).
Proof. apply (run_ind (fun _ s => noisy p (t_ops s))); auto using ny_nil, noisy_idle, noisy_gate. Qed.

(** ** records *)
Lemma records_app a b : records (a ++ b) = records a ++ records b.
Proof. apply flat_map_app. Qed.
Lemma records_idle s used : records (t_ops (idle_error p s used)) = records (t_ops s).
Proof. unfold idle_error. cbn [put t_ops]. rewrite records_app. assert (E : forall l, records (map (fun q => SDep1 q (2 * p / 3)) l) = []) by (induction l; auto). now rewrite E, app_nil_r. Qed.
Definition same (s s' : tst) : Prop := records (t_ops s) = records (t_ops s') /\ t_measured s = t_measured s' /\ t_xv s = t_xv s' /\ t_zv s = t_zv s' /\ t_nm s = t_nm s' /\ t_reused s = t_reused s' /\ t_targets s = t_targets s' /\ length (t_init s) = length (t_init s').
Lemma same_after s qs : same (after_gate p par s qs) s.
Proof. unfold after_gate. destruct (negb par); [|repeat split]. repeat split. apply records_idle. Qed.
Lemma same_trans a b c : same a b -> same b c -> same a c.
Proof. unfold same. intuition congruence. Qed.
Record rec_ok (pre : list ins) (s : tst) : Prop := {
  ro_records : records (t_ops s) = map (fun q => (q, false)) (measured_qubits pre);
  ro_measured : t_measured s = measured_qubits pre;
  ro_nm : t_nm s = length (measured_qubits pre);
  ro_perm : Permutation (t_xv s ++ t_zv s) (seq 0 (t_nm s));
  ro_targets : t_targets s = cx_targets pre;
  ro_z : forall i, In i (t_zv s) -> exists l q b l', pre = l ++ IM q b :: l' /\ length (measured_qubits l) = i /\ In q (cx_targets l);
  ro_x : forall i, In i (t_xv s) -> exists l q b l', pre = l ++ IM q b :: l' /\ length (measured_qubits l) = i /\ ~ In q (cx_targets l);
  ro_reused : t_reused s = length (filter (fun q => 2 <=? count_occ Nat.eq_dec (measured_qubits pre) q) (nodup Nat.eq_dec (measured_qubits pre))) }.
Lemma rec_same pre s s' : same s' s -> rec_ok pre s -> rec_ok pre s'.
Proof. intros (E1 & E2 & E3 & E4 & E5 & E6 & E7 & _) [R1 R2 R3 R4 R5 R6 R7 R8]. split; try congruence; rewrite ?E3, ?E4, ?E5; auto. Qed.
Lemma mq_app a b : measured_qubits (a ++ b) = measured_qubits a ++ measured_qubits b.
Proof. unfold measured_qubits. now rewrite meas_bits_app, map_app. Qed.
Lemma ct_app a b : cx_targets (a ++ b) = cx_targets a ++ cx_targets b.
Proof. apply flat_map_app. Qed.
Lemma isin_in q l : isin q l = true <-> In q l.
Proof. apply memb_in. Qed.
(** counting the qubits measured twice *)
Lemma NoDup_snoc {A} (l : list A) a : NoDup l -> ~ In a l -> NoDup (l ++ [a]).
Proof. induction 1 as [|x l N ND IHl]; intros NI; cbn; [repeat constructor; auto|]. constructor; [rewrite in_app_iff; cbn in *; intuition|]. apply IHl. intros I. apply NI. now right. Qed.
Lemma filter_nodup_app (l : list nat) a (f g : nat -> bool) : (forall q, q <> a -> f q = g q) -> ~ In a l -> length (filter f l) = length (filter g l).
Proof. intros H N. f_equal. apply filter_ext_in. intros q I. apply H. intros ->. auto. Qed.
Lemma nodup_snoc (l : list nat) a : Permutation (nodup Nat.eq_dec (l ++ [a])) (if in_dec Nat.eq_dec a l then nodup Nat.eq_dec l else nodup Nat.eq_dec l ++ [a]).
Proof. apply NoDup_Permutation; [apply NoDup_nodup| |].
  - destruct (in_dec Nat.eq_dec a l) as [I|N]; [apply NoDup_nodup|]. apply NoDup_snoc; [apply NoDup_nodup|]. intros I. apply N. now apply nodup_In in I.
  - intros q. rewrite nodup_In, in_app_iff. destruct (in_dec Nat.eq_dec a l) as [I|N]; [|rewrite in_app_iff]; rewrite nodup_In; cbn; intuition (subst; auto). Qed.
Lemma perm_filter_length (f : nat -> bool) l m : Permutation l m -> length (filter f l) = length (filter f m).
Proof. induction 1; cbn; auto; [destruct (f x); cbn; auto|destruct (f x), (f y); auto|congruence]. Qed.
Lemma reused_step (l : list nat) a : length (filter (fun q => 2 <=? count_occ Nat.eq_dec (l ++ [a]) q) (nodup Nat.eq_dec (l ++ [a]))) =
  (if count_occ Nat.eq_dec (l ++ [a]) a =? 2 then S (length (filter (fun q => 2 <=? count_occ Nat.eq_dec l q) (nodup Nat.eq_dec l))) else length (filter (fun q => 2 <=? count_occ Nat.eq_dec l q) (nodup Nat.eq_dec l))).
Proof. rewrite (perm_filter_length _ _ _ (nodup_snoc l a)). assert (CA : count_occ Nat.eq_dec (l ++ [a]) a = S (count_occ Nat.eq_dec l a)) by (rewrite count_occ_app; cbn; destruct (Nat.eq_dec a a); [lia|congruence]).
  assert (CQ : forall q, q <> a -> (2 <=? count_occ Nat.eq_dec (l ++ [a]) q) = (2 <=? count_occ Nat.eq_dec l q)) by (intros q N; rewrite count_occ_app; cbn; destruct (Nat.eq_dec a q); [congruence|now rewrite Nat.add_0_r]).
  rewrite CA. destruct (in_dec Nat.eq_dec a l) as [I|N].
  - assert (ND := NoDup_nodup Nat.eq_dec l). apply (proj2 (nodup_In Nat.eq_dec l a)) in I as I2. apply in_split in I2 as (l1 & l2 & E). rewrite E in *. apply NoDup_remove_2 in ND as NI. rewrite !filter_app, !app_length. cbn [filter]. rewrite CA.
    rewrite (filter_nodup_app l1 a _ _ CQ) by (intros H; apply NI, in_app_iff; auto). rewrite (filter_ext_in (fun q => 2 <=? count_occ Nat.eq_dec (l ++ [a]) q) (fun q => 2 <=? count_occ Nat.eq_dec l q) l2) by (intros q H; apply CQ; intros ->; apply NI, in_app_iff; auto).
    assert (C1 : 1 <= count_occ Nat.eq_dec l a) by (apply count_occ_In; auto). destruct (count_occ Nat.eq_dec l a) as [|[|k]]; [lia| |]; cbn; lia.
  - assert (C0 : count_occ Nat.eq_dec l a = 0) by (apply count_occ_not_In; auto). rewrite filter_app, app_length. cbn [filter]. rewrite CA, C0. cbn [Nat.leb Nat.eqb length]. rewrite Nat.add_0_r. apply filter_nodup_app with (a := a); auto. rewrite nodup_In. auto. Qed.
Lemma rec_gate pre s g : rec_ok pre s -> rec_ok (pre ++ [g]) (gate1 s g).
Proof. intros R. assert (R' := R). destruct R' as [R1 R2 R3 R4 R5 R6 R7 R8].
  assert (EXT : forall i t, (exists l q b l', pre = l ++ IM q b :: l' /\ length (measured_qubits l) = i /\ t q l) -> exists l q b l', pre ++ [g] = l ++ IM q b :: l' /\ length (measured_qubits l) = i /\ t q l).
  { intros i t (l & q & b & l' & E & X). exists l, q, b, (l' ++ [g]). split; auto. rewrite E, <- app_assoc. reflexivity. }
  destruct g as [q|c t|a b]; cbn [sim_gate].
  - unfold inited. cbn [t_init]. assert (B : rec_ok (pre ++ [IH q]) (mkT (t_ops s) (t_init s) (t_ctrls s ++ [q]) (t_targets s) (t_measured s) (t_xv s) (t_zv s) (t_nm s) (t_reused s) (t_used s))).
    { split; cbn; rewrite ?mq_app, ?ct_app; cbn; rewrite ?app_nil_r; auto; intros i I; apply EXT with (t := fun q l => _); auto. }
    destruct (nth q (t_init s) false); [|exact B]. eapply rec_same; [apply same_after|]. eapply rec_same; [|exact B]. repeat split. cbn. now rewrite records_app, app_nil_r.
  - eapply rec_same; [apply same_after|]. assert (B : rec_ok (pre ++ [ICX c t]) (mkT (t_ops s) (t_init s) (t_ctrls s) (t_targets s ++ [t]) (t_measured s) (t_xv s) (t_zv s) (t_nm s) (t_reused s) (t_used s))).
    { split; cbn; rewrite ?mq_app, ?ct_app; cbn; rewrite ?app_nil_r; auto; try congruence; intros i I; apply EXT with (t := fun q l => _); auto. }
    set (s0 := mkT _ _ _ _ _ _ _ _ _ _) in *. eapply rec_same; [|exact B].
    assert (S1 : same (init_ctrl p s0 c) s0) by (unfold init_ctrl; destruct (inited s0 c); repeat split; cbn [set_init put t_ops t_init]; [|apply set_nth_length]; rewrite records_app; destruct (isin _ _); cbn; now rewrite app_nil_r).
    assert (S2 : same (init_target p (init_ctrl p s0 c) t) (init_ctrl p s0 c)) by (unfold init_target; destruct (inited _ t); repeat split; cbn [set_init put t_ops t_init]; [|apply set_nth_length]; rewrite records_app; cbn; now rewrite app_nil_r).
    eapply same_trans; [|eapply same_trans; [exact S2|exact S1]]. repeat split. cbn [put t_ops]. rewrite records_app. cbn. now rewrite app_nil_r.
  - cbn [put t_targets t_nm t_xv t_zv]. set (isz := isin a (t_targets s)). match goal with |- context [after_gate p par ?x [a]] => set (s1 := x) end. destruct (same_after s1 [a]) as (E1 & E2 & E3 & E4 & E5 & E6 & E7 & E8).
    assert (F1 : records (t_ops s1) = records (t_ops s) ++ [(a, false)]) by (unfold s1; cbn [t_ops put]; now rewrite records_app).
    assert (F2 : t_measured s1 = t_measured s) by reflexivity. assert (F3 : t_xv s1 = if isz then t_xv s else t_xv s ++ [t_nm s]) by reflexivity. assert (F4 : t_zv s1 = if isz then t_zv s ++ [t_nm s] else t_zv s) by reflexivity.
    assert (F5 : t_nm s1 = S (t_nm s)) by reflexivity. assert (F6 : t_reused s1 = t_reused s) by reflexivity. assert (F7 : t_targets s1 = t_targets s) by reflexivity. clearbody s1.
    split; cbn [t_ops t_measured t_nm t_xv t_zv t_targets t_reused]; rewrite ?E1, ?E2, ?E3, ?E4, ?E5, ?E6, ?E7, ?F1, ?F2, ?F3, ?F4, ?F5, ?F6, ?F7, ?mq_app, ?ct_app; cbn [cx_targets flat_map app].
    + rewrite R1, map_app. reflexivity.
    + now rewrite R2.
    + rewrite R3, app_length. cbn. lia.
    + rewrite seq_S, Nat.add_0_l. destruct isz; [rewrite app_assoc; now apply Permutation_app_tail|]. rewrite <- app_assoc. transitivity (t_xv s ++ t_zv s ++ [t_nm s]); [apply Permutation_app_head, Permutation_app_comm|]. rewrite app_assoc. now apply Permutation_app_tail.
    + now rewrite app_nil_r.
    + intros i I. destruct isz eqn:Z; [apply in_app_iff in I as [I|[<-|[]]]|]; [apply EXT with (t := fun q l => _); auto| |apply EXT with (t := fun q l => _); auto]. exists pre, a, b, []. split; auto. split; [now rewrite R3|]. apply isin_in in Z. congruence.
    + intros i I. destruct isz eqn:Z; [|apply in_app_iff in I as [I|[<-|[]]]]; [apply EXT with (t := fun q l => ~ _); auto|apply EXT with (t := fun q l => ~ _); auto|]. exists pre, a, b, []. split; auto. split; [now rewrite R3|]. intros J. rewrite <- R5 in J. apply isin_in in J. unfold isz in Z. congruence.
    + rewrite R2, R8. cbn [measured_qubits meas_bits flat_map map fst app]. symmetry. apply reused_step. Qed.
Lemma rec_all nq layers : rec_ok (concat layers) (to_stim_circ p par nq layers).
Proof. apply (run_ind rec_ok).
  - split; cbn; auto; intros i [].
  - intros pre s R. eapply rec_same; [|exact R]. repeat split. apply records_idle.
  - intros pre s R. eapply rec_same; [|exact R]. repeat split.
  - apply rec_gate. Qed.
End One.
