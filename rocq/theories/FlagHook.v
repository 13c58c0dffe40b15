(** * FlagHook: the weight-one gadget, the flag pattern and the hook errors *)
From Verif Require Export FlagTwo2.
From Coq Require Import Permutation.
Local Open Scope nat_scope.

(** *** weight one with one flag: the only CNOT with the data is applied twice *)
Lemma weight_one_nothing n z a b f m q : a < n -> f < n -> f <> a -> q < n -> q <> a -> q <> f -> forall psi fo o, clean n [a; f] psi -> length fo = 1 -> forall x, length x = n ->
  exists c : Z, (0 < c)%Z /\ exec (gadget z a b (one_flag_evs [q] f m)) (fo ++ [o]) psi x = (if existsb (fun b => b) fo || o then 0 else c * psi x)%Z.
Proof. intros An Fn Fa Qn Qa Qf psi fo o PC Lf x Hx.
  assert (Na : ~ In a [f]) by (intros [H|[]]; auto). assert (Fn' : forall g, In g [f] -> g < n) by (intros g [<-|[]]; auto).
  assert (OK : ev_ok [f] [] (one_flag_evs [q] f m)) by (cbn; fin_ok). assert (DT : datas (one_flag_evs [q] f m) = [q; q]) by reflexivity.
  assert (DO : data_ok n a [f] ([] ++ datas (one_flag_evs [q] f m))) by (rewrite DT; intros r [<-|[<-|[]]]; (split; [auto|split; [auto|intros [H|[]]; auto]])).
  assert (ND : NoDup ([f] ++ [] ++ [])) by (repeat constructor; intros []). assert (INC : incl ([f] ++ [] ++ []) [f]) by (intros r Hr; exact Hr).
  assert (LC : length fo = closes (one_flag_evs [q] f m)) by (rewrite Lf; reflexivity).
  assert (CLR : nth f x false = false -> clear [a; f] x = set_nth a false x).
  { intros Ef. apply (vec_ext n); [now rewrite clear_length|now rewrite set_nth_length|]. intros j Hj. rewrite nth_clear, nth_set_nth by (unfold vec in *; lia). cbn [memb existsb]. destruct (Nat.eqb_spec j a) as [->|N1]; cbn [orb negb]; [now rewrite andb_false_r|]. destruct (Nat.eqb_spec j f) as [->|N2]; cbn; [now rewrite Ef|now rewrite andb_true_r]. }
  assert (CA : nth a x false = false -> set_nth a false x = x) by (intros E; rewrite <- E; apply set_nth_same).
  assert (P1 : nth f x false = true -> psi x = 0%Z) by (intros E; apply PC; auto; exists f; split; auto; right; left; auto).
  assert (P2 : nth a x false = true -> psi x = 0%Z) by (intros E; apply PC; auto; exists a; split; auto; left; auto).
  destruct z.
  - exists 2%Z. split; [lia|]. pose proof (z_run n a [f] psi An Fn' Na _ [f] [] OK [] [] 1 psi fo (z_init n a [f] psi An PC) DO ND INC LC) as R. unfold gadget. cbn [app]. rewrite exec_app by (rewrite comp_measurements; auto). cbn [exec hd].
    destruct (existsb (fun b0 => b0) fo); [unfold project; rewrite R by auto; cbn; now destruct (Bool.eqb _ _)|]. destruct R as (d & R & P). cbn [app] in R, P. apply Permutation_sym, Permutation_length_1_inv in P. subst d. unfold project. rewrite R by auto. change (closes (one_flag_evs [q] f m)) with 1. rewrite DT. cbn [app par fold_right zeros forallb]. rewrite !xorb_false_r, xorb_nilpotent.
    change (1 * 2 ^ Z.of_nat 1)%Z with 2%Z. cbn [orb]. destruct (nth f x false) eqn:Ef; cbn [negb andb]; [rewrite P1 by auto; destruct (Bool.eqb _ _), o; auto|]. destruct (nth a x false) eqn:Ea; cbn [Bool.eqb].
    + rewrite P2 by auto. destruct o; auto.
    + destruct o; auto. rewrite CLR, CA by auto. auto.
  - exists 2%Z. split; [lia|]. pose proof (x_run n a [f] psi An Fn' Na _ [f] [] OK [] [] _ fo (x_init n a [f] psi An Na PC) DO ND INC LC) as R. unfold gadget. change ([IH a] ++ flat_map (comp false a) (one_flag_evs [q] f m) ++ [IH a] ++ [IM a b]) with (IH a :: flat_map (comp false a) (one_flag_evs [q] f m) ++ [IH a; IM a b]). cbn [exec]. rewrite exec_app by (rewrite comp_measurements; auto). cbn [exec hd tl].
    set (phi := exec (flat_map (comp false a) (one_flag_evs [q] f m)) fo (apply_gate psi (GH a))) in *.
    destruct (existsb (fun b0 => b0) fo); [unfold project; cbn [apply_gate orb]; rewrite !R by (now rewrite set_nth_length); destruct (Bool.eqb _ _), (nth a x false); auto|]. destruct R as (d & R & P). cbn [app] in R, P. apply Permutation_sym, Permutation_length_1_inv in P. subst d. unfold project. cbn [apply_gate]. rewrite !R by (now rewrite set_nth_length). rewrite DT.
    cbn [app zeros forallb eqs]. rewrite !(nth_set_nth_neq _ a _ x f) by auto. rewrite !nth_set_nth_eq by (unfold vec in *; lia). cbn [orb]. rewrite !andb_true_r.
    rewrite !(clear_set [a; f] x a) by (now left). destruct (nth f x false) eqn:Ef; cbn [negb andb]; [rewrite P1 by auto; destruct (Bool.eqb _ _), o, (nth a x false); auto|].
    assert (AV : addv [q; q] (clear [a; f] x) = clear [a; f] x).
    { cbn [addv fold_right]. unfold flip. rewrite nth_set_nth_eq by (rewrite clear_length; unfold vec in *; lia). rewrite negb_involutive. apply (vec_ext n); [rewrite !set_nth_length, clear_length; auto|now rewrite clear_length|]. intros j Hj. rewrite !nth_set_nth by (rewrite ?set_nth_length, clear_length; unfold vec in *; lia). destruct (Nat.eqb_spec j q) as [->|]; auto. }
    rewrite AV. rewrite CLR by auto. destruct (nth a x false) eqn:Ea; cbn [Bool.eqb].
    + rewrite P2 by auto. destruct o; lia.
    + rewrite CA by auto. destruct o; lia. Qed.

(** *** the flag pattern *)
Lemma pattern_even k : Permutation (w_flag_pattern (2 * Z.of_nat k + 4)) (map Z.of_nat (seq 0 (2 * k + 3))).
Proof. apply Permutation_sym, NoDup_Permutation_bis.
  - apply FinFun.Injective_map_NoDup; [intros x y; lia|apply seq_NoDup].
  - unfold w_flag_pattern. replace ((2 * Z.of_nat k + 4 - 4) / 2)%Z with (Z.of_nat k) by (rewrite Z.add_simpl_r, Z.mul_comm, Z.div_mul; lia). rewrite Nat2Z.id. rewrite !app_length, !map_length, rev_length, !seq_length. cbn [length]. lia.
  - unfold w_flag_pattern. replace ((2 * Z.of_nat k + 4 - 4) / 2)%Z with (Z.of_nat k) by (rewrite Z.add_simpl_r, Z.mul_comm, Z.div_mul; lia). rewrite Nat2Z.id. intros y I. apply in_map_iff in I as (x & <- & I). apply in_seq in I. rewrite !in_app_iff, !map_map, !in_map_iff.
    destruct (Nat.eq_dec x 0) as [->|N0]; [right; left; right; left; auto|]. destruct (Nat.eq_dec x (2 * k + 1)) as [->|N1]; [right; left; left; lia|]. destruct (Nat.eq_dec x (2 * k + 2)) as [->|N2]; [right; right; right; left; lia|].
    destruct (Nat.Even_or_Odd x) as [(y & ->)|(y & ->)].
    + left. exists (y - 1). split; [lia|]. apply in_rev. rewrite rev_involutive. apply in_seq. lia.
    + right. right. left. exists y. split; [lia|]. apply in_rev. rewrite rev_involutive. apply in_seq. lia. Qed.
Lemma pattern_odd k : ~ In (2 * Z.of_nat k + 1)%Z (w_flag_pattern (2 * Z.of_nat k + 5)).
Proof. unfold w_flag_pattern. replace ((2 * Z.of_nat k + 5 - 4) / 2)%Z with (Z.of_nat k) by (replace (2 * Z.of_nat k + 5 - 4)%Z with (1 + Z.of_nat k * 2)%Z by lia; rewrite Z.div_add by lia; reflexivity). rewrite Nat2Z.id. rewrite !in_app_iff, !map_map, !in_map_iff.
  intros [(x & E & I)|[[E|[E|[]]]|[(x & E & I)|[E|[]]]]]; try lia. apply in_rev, in_seq in I. lia. Qed.

(** *** hook errors *)
Lemma in_hooks stabs h : In h (hook_errors stabs) <-> exists s i, In s stabs /\ i < length s /\ nth i s false = true /\ h = set_nth i false s.
Proof. unfold hook_errors. rewrite in_flat_map. split.
  - intros (s & I & J). apply in_map_iff in J as (i & <- & J). apply filter_In in J as [J E]. apply in_seq in J. exists s, i. split; auto. split; [lia|auto].
  - intros (s & i & I & L & E & ->). exists s. split; auto. apply in_map_iff. exists i. split; auto. apply filter_In. split; auto. apply in_seq. lia. Qed.
Lemma support_nodup v : NoDup (support v).
Proof. apply NoDup_filter, seq_NoDup. Qed.
Lemma support_in v i : In i (support v) <-> nth i v false = true.
Proof. unfold support. rewrite filter_In, in_seq. split; [tauto|]. intros E. split; auto. split; [lia|]. destruct (Nat.lt_ge_cases i (length v)); auto. rewrite nth_overflow in E by auto. discriminate. Qed.
Lemma support_weight v : length (support v) = weight v.
Proof. unfold support. symmetry. apply weight_filter. Qed.
Lemma weight_supp n l : NoDup l -> (forall q, In q l -> q < n) -> weight (supp_vec n l) = length l.
Proof. intros ND B. rewrite weight_filter, supp_length. apply Nat.le_antisymm.
  - apply NoDup_incl_length; [apply NoDup_filter, seq_NoDup|]. intros i I. apply filter_In in I as [I E]. apply in_seq in I. rewrite nth_supp in E by lia. now apply memb_in.
  - apply NoDup_incl_length; auto. intros i I. apply filter_In. split; [apply in_seq; specialize (B i I); lia|]. rewrite nth_supp by auto. now apply memb_in. Qed.
Lemma weight_clear v i : nth i v false = true -> S (weight (set_nth i false v)) = weight v.
Proof. revert i. induction v as [|b v IH]; intros [|i] E; cbn in *; try discriminate; [now subst|]. rewrite <- (IH i E). lia. Qed.
Lemma supp_support v : supp_vec (length v) (support v) = v.
Proof. apply (vec_ext (length v)); auto using supp_length. intros j Hj. rewrite nth_supp by auto. destruct (nth j v false) eqn:E; [apply memb_in, support_in, E|]. apply memb_out. intros I. apply support_in in I. congruence. Qed.
Lemma NoDup_app_l {A} (l m : list A) : NoDup (l ++ m) -> NoDup l /\ NoDup m /\ forall x, In x l -> ~ In x m.
Proof. induction l as [|x l IH]; cbn [app]; intros H; [split; [constructor|split; auto]|]. apply NoDup_cons_iff in H as [N H]. destruct (IH H) as (H1 & H2 & H3). rewrite in_app_iff in N. split; [constructor; tauto|]. split; auto. intros y [<-|I]; [tauto|auto]. Qed.
Lemma supp_app n l m : NoDup (l ++ m) -> supp_vec n (l ++ m) = vxor (supp_vec n l) (supp_vec n m).
Proof. induction l as [|q l IH]; intros ND; [cbn [app]; rewrite supp_nil, vxor_zero_l; auto; apply supp_length|]. cbn [app] in *. apply NoDup_cons_iff in ND as [NI ND]. rewrite supp_cons by auto. rewrite (supp_cons n q l) by (intros I; apply NI, in_app_iff; auto). rewrite IH by auto. now rewrite vxor_assoc. Qed.
Lemma suffix_missing v k : 2 <= k -> k + 2 <= weight v -> let s := supp_vec (length v) (skipn k (support v)) in ~ In s (hook_errors [v]) /\ ~ In (vxor s v) (hook_errors [v]).
Proof. intros H1 H2 s. assert (HW : forall h, In h (hook_errors [v]) -> S (weight h) = weight v) by (intros h I; apply in_hooks in I as (u & i & [<-|[]] & _ & E & ->); now apply weight_clear).
  assert (ND := support_nodup v). rewrite <- (firstn_skipn k (support v)) in ND. destruct (NoDup_app_l _ _ ND) as (N1 & N2 & _).
  assert (B : forall q, In q (support v) -> q < length v) by (intros q I; apply support_in in I; destruct (Nat.lt_ge_cases q (length v)); auto; rewrite nth_overflow in I by auto; discriminate).
  assert (B1 : forall q, In q (firstn k (support v)) -> q < length v) by (intros q I; apply B; rewrite <- (firstn_skipn k (support v)); apply in_app_iff; auto).
  assert (B2 : forall q, In q (skipn k (support v)) -> q < length v) by (intros q I; apply B; rewrite <- (firstn_skipn k (support v)); apply in_app_iff; auto).
  assert (W1 : weight s = weight v - k) by (unfold s; rewrite weight_supp by auto; now rewrite skipn_length, support_weight).
  assert (E : vxor s v = supp_vec (length v) (firstn k (support v))).
  { assert (Ev : vxor (supp_vec (length v) (firstn k (support v))) s = v) by (unfold s; rewrite <- supp_app by auto; rewrite firstn_skipn; apply supp_support).
    assert (LS : length s = length v) by apply supp_length. clearbody s. transitivity (vxor s (vxor (supp_vec (length v) (firstn k (support v))) s)); [now rewrite Ev|]. rewrite (vxor_comm _ s), vxor_assoc, (vxor_self' (length v)), vxor_zero_l; auto. apply supp_length. }
  split; intros I; apply HW in I; [lia|]. rewrite E, weight_supp in I by auto. rewrite firstn_length, support_weight in I. lia. Qed.

Definition spread (n : nat) (z : bool) (v : vec) : pauli := if z then (vzero n, v) else (v, vzero n).
Lemma spread_cx n z a q v : length v = n -> a < n -> q < n -> q <> a -> nth a v false = true -> fstep (ancilla_cnot z q a) (spread n z v) = spread n z (vxor v (unitv n q)).
Proof. intros L An Qn N E. destruct z; cbn [ancilla_cnot spread fstep fst snd]; rewrite cxv_zero, (cxv_vec n) by auto; rewrite E; reflexivity. Qed.
Lemma spread_run n z a l : a < n -> forall v, length v = n -> nth a v false = true -> (forall q, In q l -> q < n /\ q <> a) -> NoDup l ->
  frame (map inl (map (fun q => ancilla_cnot z q a) l)) (spread n z v) = (spread n z (vxor v (supp_vec n l)), []).
Proof. intros An. induction l as [|q l IH]; intros v L E B ND; [cbn; now rewrite supp_nil, vxor_zero_r|]. apply NoDup_cons_iff in ND as [NI ND]. destruct (B q (or_introl eq_refl)) as [Qn Qa]. cbn [map frame]. rewrite spread_cx by auto. rewrite IH; auto.
  - cbn [fst snd]. replace (frec (ancilla_cnot z q a) (spread n z v)) with (@nil bool) by (now destruct z). cbn [app]. rewrite supp_cons by auto. now rewrite vxor_assoc.
  - rewrite vxor_length; rewrite ?unitv_length; congruence.
  - rewrite nth_vxor by (now rewrite unitv_length). rewrite E, nth_unitv by auto. destruct (Nat.eqb_spec a q); [congruence|reflexivity].
  - intros r I. apply B. now right. Qed.
Lemma spread_post n z a b l : a < n -> (forall q, In q l -> q < n /\ q <> a) ->
  frame (map inl ((if z : bool then [] else [IH a]) ++ [IM a b])) (spread n z (vxor (unitv n a) (supp_vec n l))) = (p_mul (stab_op n z l) (vzero n, unitv n a), [false]).
Proof. intros An B. assert (SA : nth a (supp_vec n l) false = false) by (rewrite nth_supp by auto; apply memb_out; intros I; destruct (B a I); auto).
  assert (UA : nth a (unitv n a) false = true) by (rewrite nth_unitv by auto; apply Nat.eqb_refl). assert (LU := unitv_length n a). assert (LS := supp_length n l).
  destruct z; cbn [app map frame fst snd frec fstep spread stab_op]; rewrite ?nth_vzero.
  - unfold p_mul. cbn [fst snd]. rewrite (vxor_self' n), (vxor_comm (unitv n a)) by apply vzero_length. reflexivity.
  - rewrite nth_set_nth_eq by (rewrite vxor_length; congruence). unfold p_mul. cbn [fst snd]. rewrite vxor_zero_r, vxor_zero_l by auto. rewrite nth_vxor by congruence. rewrite UA, SA. cbn [xorb app].
    f_equal. f_equal; apply (vec_ext n); rewrite ?set_nth_length, ?vxor_length, ?vzero_length; try congruence; intros j Hj.
    + rewrite nth_set_nth by (rewrite vxor_length; unfold vec in *; lia). rewrite nth_vxor by congruence. rewrite nth_unitv by auto. destruct (Nat.eqb_spec j a) as [->|]; [auto|now rewrite xorb_false_l].
    + rewrite nth_set_nth by (rewrite vzero_length; auto). rewrite nth_unitv, nth_vzero by auto. now destruct (j =? a). Qed.
Lemma wf_none n L : with_faults n 0 L (map inl L).
Proof. induction L; cbn; constructor; auto. Qed.
Lemma wf_mid n L1 i L2 p : p_ok n p -> p_supp p (qubits i) -> with_faults n 1 (L1 ++ i :: L2) (map inl (L1 ++ [i]) ++ inr p :: map inl L2).
Proof. intros PO S. induction L1 as [|j L1 IH]; cbn [app map]; [apply wf_after; auto using wf_none|]. apply wf_fine. exact IH. Qed.
(** a single fault on the ancilla spreads to the rest of the support *)
Lemma hook_occurs n z stab a b k : a < n -> NoDup stab -> (forall q, In q stab -> q < n /\ q <> a) -> 1 <= k <= length stab -> let L := gadget z a b (map ED stab) in
  exists F, with_faults n 1 L F /\ forall psi o, equal_up_to_sign n (execf F [o] psi) (op_P (p_mul (stab_op n z (skipn k stab)) (vzero n, unitv n a)) (exec L [o] psi)).
Proof. intros An ND B Hk L. set (pr := if z then [] else [IH a]). set (po := (if z then [] else [IH a]) ++ [IM a b]). set (cx := fun q => ancilla_cnot z q a).
  assert (E1 : L = (pr ++ map cx (firstn k stab)) ++ map cx (skipn k stab) ++ po).
  { unfold L, gadget. rewrite comp_datas. fold pr. fold cx. transitivity (pr ++ map cx (firstn k stab ++ skipn k stab) ++ po); [rewrite firstn_skipn; unfold po; try rewrite !app_assoc; reflexivity|]. rewrite map_app, <- !app_assoc. reflexivity. }
  assert (exists l q, firstn k stab = l ++ [q]) as (l & q & El).
  { destruct (firstn k stab) as [|x t] eqn:E using rev_ind; [|eauto]. assert (X : length (firstn k stab) = k) by (rewrite firstn_length; lia). rewrite E in X. cbn in X. lia. }
  assert (ND2 := ND). rewrite <- (firstn_skipn k stab) in ND2. destruct (NoDup_app_l _ _ ND2) as (_ & N2 & _).
  assert (B2 : forall q, In q (skipn k stab) -> q < n /\ q <> a) by (intros r I; apply B; rewrite <- (firstn_skipn k stab); apply in_app_iff; auto).
  assert (B1 : forall q, In q (firstn k stab) -> q < n /\ q <> a) by (intros r I; apply B; rewrite <- (firstn_skipn k stab); apply in_app_iff; auto).
  set (p := spread n z (unitv n a)). assert (PO : p_ok n p) by (unfold p; destruct z; split; cbn; rewrite ?vzero_length, ?unitv_length; auto).
  assert (PS : p_supp p (qubits (cx q))).
  { intros r N. assert (Nr : (r =? a) = false) by (apply Nat.eqb_neq; intros ->; apply N; unfold cx; destruct z; cbn; auto). assert (U : nth r (unitv n a) false = false) by (destruct (Nat.lt_ge_cases r n); [now rewrite nth_unitv|apply nth_overflow; now rewrite unitv_length]). unfold p. destruct z; cbn; now rewrite U, nth_vzero. }
  exists (map inl (pr ++ map cx (firstn k stab)) ++ inr p :: map inl (map cx (skipn k stab) ++ po)).
  assert (WF : with_faults n 1 L (map inl (pr ++ map cx (firstn k stab)) ++ inr p :: map inl (map cx (skipn k stab) ++ po))).
  { rewrite E1, El. rewrite map_app. cbn [map]. rewrite !app_assoc. rewrite <- (app_assoc (pr ++ map cx l) [cx q]). rewrite <- (app_assoc (pr ++ map cx l)). cbn [app]. apply (wf_mid n (pr ++ map cx l) (cx q)); auto. }
  split; [exact WF|]. intros psi o.
  assert (IO1 : Forall (ins_ok n) (pr ++ map cx (firstn k stab))).
  { apply Forall_app. split; [unfold pr; destruct z; repeat constructor; auto|]. apply Forall_map, Forall_forall. intros r I. destruct (B1 r I). unfold cx. destruct z; cbn; auto. }
  assert (IO : Forall (ins_ok n) L).
  { rewrite E1. apply Forall_app. split; auto. apply Forall_app. split; [apply Forall_map, Forall_forall; intros r I; destruct (B2 r I); unfold cx; destruct z; cbn; auto|]. unfold po. destruct z; repeat constructor; auto. }
  assert (FS := frame_sound n _ (wf_fok n 1 L _ WF IO) (p_id n) [o] psi (p_id_ok n)). rewrite (wf_instrs n 1 L _ WF) in FS.
  eapply eus_trans; [apply execf_eus; [exact (wf_fok n 1 L _ WF IO)|]; apply eus_sym, eus_refl, op_P_id|]. eapply eus_trans; [exact FS|].
  assert (SR : frame (map inl (map cx (skipn k stab))) (spread n z (unitv n a)) = (spread n z (vxor (unitv n a) (supp_vec n (skipn k stab))), [])) by (apply spread_run; auto using unitv_length; rewrite nth_unitv by auto; apply Nat.eqb_refl).
  assert (SP := spread_post n z a b (skipn k stab) An B2). fold po in SP.
  assert (M0 : measurements (pr ++ map cx (firstn k stab)) = 0).
  { rewrite measurements_app. assert (Y : forall l, measurements (map cx l) = 0) by (induction l0 as [|r l0 IHl]; auto; unfold cx; destruct z; cbn; auto). rewrite Y. unfold pr. destruct z; auto. }
  rewrite frame_one by auto. rewrite map_app, frame_app. unfold p. rewrite SR. cbn [fst snd]. rewrite SP, M0. cbn [fst snd repeat app xouts hd tl]. rewrite xorb_false_r. apply eus_refl. intros x _. reflexivity. Qed.
