(** * FlagPauli2: from Pauli frames to fault tolerance of a gadget *)
From Verif Require Export FlagPauli.
Local Open Scope nat_scope.

Definition p_id (n : nat) : pauli := (vzero n, vzero n).
Lemma p_id_ok n : p_ok n (p_id n).
Proof. split; apply vzero_length. Qed.
Lemma op_P_id n psi : state_eq n (op_P (p_id n) psi) psi.
Proof. intros x Hx. unfold op_P, op_Z, op_X, p_id. cbn [fst snd]. rewrite dot_vzero_l', vxor_zero_r by auto. lia. Qed.
Lemma wf_instrs n k L F : with_faults n k L F -> instrs F = L.
Proof. induction 1; auto; cbn; fold (instrs F); congruence. Qed.
Lemma wf_fok n k L F : with_faults n k L F -> Forall (ins_ok n) L -> fok n F.
Proof. induction 1; intros FO; [constructor|..]; apply Forall_cons_iff in FO as [Hi FO]; repeat constructor; auto; try apply H; apply IHwith_faults; auto. Qed.
Lemma frame_app F1 : forall F2 p, frame (F1 ++ F2) p = (fst (frame F2 (fst (frame F1 p))), snd (frame F1 p) ++ snd (frame F2 (fst (frame F1 p)))).
Proof. induction F1 as [|e F1 IH]; intros F2 p; cbn [app frame]; [cbn [fst snd app]; destruct (frame F2 p); reflexivity|]. destruct e as [i|q]; [|apply IH]. rewrite IH. cbn [fst snd]. now rewrite app_assoc. Qed.
Lemma fstep_id n i : ins_ok n i -> fstep i (p_id n) = p_id n.
Proof. unfold p_id. destruct i as [q|c t|q b]; cbn [fstep fst snd ins_ok]; intros H; auto.
  - assert (X : set_nth q false (vzero n) = vzero n) by (rewrite <- (nth_vzero n q) at 1; apply set_nth_same). now rewrite nth_vzero, X.
  - now rewrite !cxv_zero. Qed.
Lemma frec_id n i : frec i (p_id n) = repeat false (measurements [i]).
Proof. destruct i; cbn; auto. now rewrite nth_vzero. Qed.
Lemma frame_id n L : Forall (ins_ok n) L -> frame (map inl L) (p_id n) = (p_id n, repeat false (measurements L)).
Proof. induction 1 as [|i L Hi HL IH]; auto. cbn [map frame]. rewrite fstep_id, frec_id, IH by auto. cbn [fst snd]. f_equal. rewrite <- repeat_app. f_equal. change (i :: L) with ([i] ++ L). now rewrite measurements_app. Qed.
Lemma frame_flips F : forall p, length (snd (frame F p)) = measurements (instrs F).
Proof. induction F as [|e F IH]; intros p; auto. destruct e as [i|q]; cbn [frame instrs flat_map snd app]; fold (instrs F); [|apply IH]. rewrite app_length, IH. destruct i; reflexivity. Qed.
Lemma p_mul_id n p : p_ok n p -> p_mul p (p_id n) = p.
Proof. intros [H1 H2]. unfold p_mul, p_id. cbn [fst snd]. rewrite !vxor_zero_r by auto. now destruct p. Qed.

(** supports *)
Lemma fstep_supp l i p n : p_ok n p -> ins_ok n i -> incl (qubits i) l -> p_supp p l -> p_supp (fstep i p) l.
Proof. intros [L1 L2] Hi I S q N. destruct (S q N) as [S1 S2]. destruct i as [h|c t|h b]; cbn [fstep fst snd qubits ins_ok] in *; auto.
  - assert (q <> h) by (intros ->; apply N, I; left; auto). rewrite !nth_set_nth_neq by auto. auto.
  - destruct Hi as (Hc & Ht & Nct). assert (q <> c) by (intros ->; apply N, I; left; auto). assert (q <> t) by (intros ->; apply N, I; right; left; auto). rewrite !nth_cxv by (unfold vec in *; lia).
    destruct (Nat.eqb_spec q t); [contradiction|]. destruct (Nat.eqb_spec q c); [contradiction|]. auto. Qed.
Lemma p_mul_supp l p q n : p_ok n p -> p_ok n q -> p_supp p l -> p_supp q l -> p_supp (p_mul p q) l.
Proof. intros [L1 L2] [M1 M2] S T j N. destruct (S j N), (T j N). cbn [p_mul fst snd]. rewrite !nth_vxor by congruence. rewrite H, H0, H1, H2. auto. Qed.
Lemma p_supp_incl p l m : p_supp p l -> incl l m -> p_supp p m.
Proof. intros S I q N. apply S. intros J. apply N, I, J. Qed.
Lemma frame_supp n l k L F : with_faults n k L F -> Forall (ins_ok n) L -> Forall (fun i => incl (qubits i) l) L -> forall p, p_ok n p -> p_supp p l -> p_supp (fst (frame F p)) l.
Proof. induction 1; intros FO FI p0 PO S; auto; apply Forall_cons_iff in FO as [Hi FO]; apply Forall_cons_iff in FI as [Ii FI]; cbn [frame fst].
  - apply IHwith_faults; auto using fstep_ok. now apply (fstep_supp l i p0 n).
  - apply IHwith_faults; auto using fstep_ok, p_mul_ok. apply (fstep_supp l i _ n); auto using p_mul_ok. apply (p_mul_supp l _ _ n); auto. exact (p_supp_incl _ _ _ H0 Ii).
  - apply IHwith_faults; auto using fstep_ok, p_mul_ok. apply (p_mul_supp l _ _ n); auto using fstep_ok. exact (p_supp_incl _ _ _ H0 Ii). now apply (fstep_supp l i p0 n). Qed.

(** restriction of an operator *)
Definition restr (l : list nat) (v : vec) : vec := map (fun i => nth i v false && memb i l) (seq 0 (length v)).
Lemma restr_length l v : length (restr l v) = length v.
Proof. unfold restr. now rewrite map_length, seq_length. Qed.
Lemma nth_restr l v i : nth i (restr l v) false = nth i v false && memb i l.
Proof. unfold restr. destruct (Nat.lt_ge_cases i (length v)) as [H|H].
  - rewrite (nth_indep _ false (nth 0 v false && memb 0 l)) by (now rewrite map_length, seq_length). rewrite (map_nth (fun i => nth i v false && memb i l) (seq 0 (length v)) 0 i). rewrite seq_nth; auto.
  - rewrite !nth_overflow; auto. now rewrite map_length, seq_length. Qed.
Definition p_restr (l : list nat) (p : pauli) : pauli := (restr l (fst p), restr l (snd p)).
Lemma p_restr_ok n l p : p_ok n p -> p_ok n (p_restr l p).
Proof. intros [H1 H2]. split; cbn; rewrite restr_length; auto. Qed.
Lemma p_restr_supp l p : p_supp (p_restr l p) l.
Proof. intros q N. cbn. rewrite !nth_restr. replace (memb q l) with false by (symmetry; now apply memb_out). now rewrite !andb_false_r. Qed.
Lemma p_restr_split n l m p : p_ok n p -> p_supp p (l ++ m) -> (forall q, In q l -> ~ In q m) -> p_mul (p_restr l p) (p_restr m p) = p.
Proof. intros [H1 H2] S D. assert (X : forall v, length v = n -> (forall q, ~ In q (l ++ m) -> nth q v false = false) -> vxor (restr l v) (restr m v) = v).
  { intros v Hv Sv. apply (vec_ext n); auto; [rewrite vxor_length; rewrite !restr_length; auto|]. intros j Hj. rewrite nth_vxor by (now rewrite !restr_length). rewrite !nth_restr.
    destruct (memb j l) eqn:E1, (memb j m) eqn:E2; rewrite ?andb_true_r, ?andb_false_r, ?xorb_false_r, ?xorb_false_l; auto.
    - exfalso. apply memb_in in E1, E2. exact (D j E1 E2).
    - symmetry. apply Sv. rewrite in_app_iff. apply memb_out in E1, E2. tauto. }
  unfold p_mul, p_restr. cbn [fst snd]. rewrite !X; auto; try (intros q N; now apply S). now destruct p. Qed.
Lemma weight_cat a b : weight (a ++ b) = weight a + weight b.
Proof. induction a as [|x a IH]; auto. cbn. rewrite IH. lia. Qed.
Lemma weight_filter (v : vec) : weight v = length (filter (fun i => nth i v false) (seq 0 (length v))).
Proof. induction v as [|b v IH] using rev_ind; auto. rewrite app_length, Nat.add_1_r, seq_S, filter_app, app_length, weight_cat. rewrite IH. f_equal.
  - f_equal. apply filter_ext_in. intros i Hi. apply in_seq in Hi. rewrite app_nth1 by lia. auto.
  - cbn. rewrite app_nth2, Nat.sub_diag by lia. now destruct b. Qed.
Lemma p_weight_supp n p l : p_ok n p -> p_supp p l -> p_weight p <= length (filter (fun q => nth q (fst p) false || nth q (snd p) false) l).
Proof. intros [H1 H2] S. unfold p_weight. rewrite weight_filter. apply NoDup_incl_length; [apply NoDup_filter, seq_NoDup|]. intros i Hi. apply filter_In in Hi as [Hi E]. apply in_seq in Hi. rewrite map_length, combine_length in Hi.
  assert (N : nth i (map (fun b : bool * bool => fst b || snd b) (combine (fst p) (snd p))) false = nth i (fst p) false || nth i (snd p) false).
  { assert (G : forall u v : vec, length u = length v -> nth i (map (fun b : bool * bool => fst b || snd b) (combine u v)) false = nth i u false || nth i v false).
    { clear. revert i. intros i u. revert i. induction u as [|x u IH]; intros i [|y v] Huv; try discriminate; destruct i; cbn; auto. }
    apply G. congruence. }
  rewrite N in E. apply filter_In. split; auto. destruct (in_dec Nat.eq_dec i l) as [I|I]; auto. destruct (S i I) as [Z1 Z2]. rewrite Z1, Z2 in E. discriminate. Qed.

(** the measured stabilizer acts as a sign *)
Definition stab_op (n : nat) (z : bool) (stab : list nat) : pauli := if z then (vzero n, supp_vec n stab) else (supp_vec n stab, vzero n).
Lemma stab_op_ok n z stab : p_ok n (stab_op n z stab).
Proof. destruct z; split; cbn; rewrite ?supp_length, ?vzero_length; auto. Qed.
Lemma stab_op_eq n z stab psi : state_eq n (op_P (stab_op n z stab) psi) (if z then op_Z (supp_vec n stab) psi else op_X (supp_vec n stab) psi).
Proof. intros x Hx. destruct z; unfold stab_op, op_P, op_Z, op_X; cbn [fst snd].
  - now rewrite vxor_zero_r.
  - rewrite dot_vzero_l'. lia. Qed.
Lemma measured_sign n z stab a fl L : measures n z stab a fl L -> a < n -> data_ok n a fl stab -> forall psi fo o, clean n (a :: fl) psi -> length fo = length fl ->
  equal_up_to_sign n (op_P (stab_op n z stab) (exec L (fo ++ [o]) psi)) (exec L (fo ++ [o]) psi).
Proof. intros (_ & c1 & c2 & C1 & C2 & M) An DO psi fo o PC Lf. exists (if o then -1 else 1)%Z. split; [destruct o; auto|]. intros x Hx. rewrite stab_op_eq by auto. set (E := exec L (fo ++ [o]) psi) in *.
  assert (SV : length (supp_vec n stab) = n) by apply supp_length. assert (Sa : nth a (supp_vec n stab) false = false) by (rewrite nth_supp by auto; apply memb_out; intros I; destruct (DO a I) as (_ & X & _); auto).
  assert (Sf : forall f, In f fl -> nth f (supp_vec n stab) false = false).
  { intros f I. destruct (Nat.lt_ge_cases f n) as [H|H]; [|apply nth_overflow; lia]. rewrite nth_supp by auto. apply memb_out. intros J. destruct (DO f J) as (_ & _ & X). auto. }
  assert (D0 : forall v, dot (supp_vec n stab) (set_nth a v x) = dot (supp_vec n stab) x) by (intros v; rewrite (dot_set n) by auto; rewrite Sa; cbn [andb]; apply xorb_false_r).
  assert (G : (c1 * (if z then op_Z (supp_vec n stab) E else op_X (supp_vec n stab) E) x = c1 * ((if o then -1 else 1) * E x))%Z).
  { pose proof (M psi fo o PC Lf x Hx) as Mx. fold E in Mx. destruct z.
    - unfold op_Z. transitivity ((if dot (supp_vec n stab) x then -1 else 1) * (c1 * E x))%Z; [lia|]. transitivity ((if o then -1 else 1) * (c1 * E x))%Z; [|lia]. rewrite Mx. destruct (existsb _ fo); [lia|]. destruct (_ && _); [|lia]. unfold measured, op_Z. rewrite D0. destruct (dot (supp_vec n stab) x), o; lia.
    - unfold op_X. assert (HV : length (vxor x (supp_vec n stab)) = n) by (rewrite vxor_length; congruence). pose proof (M psi fo o PC Lf (vxor x (supp_vec n stab)) HV) as My. fold E in My. rewrite My. transitivity ((if o then -1 else 1) * (c1 * E x))%Z; [|lia]. rewrite Mx.
      destruct (existsb _ fo); [destruct o; lia|]. rewrite nth_vxor by congruence. rewrite Sa, xorb_false_r.
      fold (zeros fl (vxor x (supp_vec n stab))). fold (zeros fl x). rewrite (zeros_ext fl (vxor x (supp_vec n stab)) x) by (intros q Hq; rewrite nth_vxor by congruence; rewrite Sf by auto; apply xorb_false_r).
      destruct (_ && _); [|destruct o; lia]. unfold measured, op_X.
      assert (E1 : set_nth a false (vxor x (supp_vec n stab)) = vxor (set_nth a false x) (supp_vec n stab)).
      { rewrite <- (set_nth_id a (supp_vec n stab)) at 2. rewrite Sa. rewrite (set_vxor n) by auto. reflexivity. }
      rewrite E1. rewrite <- vxor_assoc, (vxor_self' n), vxor_zero_r by (rewrite ?set_nth_length; auto). destruct o; lia. }
  nia. Qed.

(** from frames to the specification *)
Lemma xouts_app n flips : forall o, length flips = S n -> xouts (repeat false n ++ [o]) flips = firstn n flips ++ [xorb o (nth n flips false)].
Proof. revert flips. induction n as [|n IH]; intros [|b flips] o H; cbn [length] in H; try lia.
  - destruct flips; [|cbn in H; lia]. reflexivity.
  - cbn [repeat app xouts hd tl firstn nth]. rewrite IH by lia. now rewrite xorb_false_l. Qed.
Definition light (stab : list nat) (p : pauli) (k : nat) : Prop := length (filter (fun q => nth q (fst p) false || nth q (snd p) false) stab) <= k.
Lemma tolerates_intro n z stab a fl L k : measures n z stab a fl L -> a < n -> data_ok n a fl stab -> Forall (ins_ok n) L -> Forall (fun i => incl (qubits i) (stab ++ a :: fl)) L ->
  (forall F, with_faults n k L F -> let r := frame F (p_id n) in existsb (fun b => b) (firstn (length fl) (snd r)) = true \/ light stab (fst r) k \/ light stab (p_mul (fst r) (stab_op n z stab)) k) ->
  tolerates n stab a fl L k.
Proof. intros M An DO IO IS H F WF. cbn zeta. specialize (H F WF). cbn zeta in H. pose proof (frame_sound n F (wf_fok n k L F WF IO) (p_id n)) as FS. rewrite (wf_instrs n k L F WF) in FS.
  pose proof (frame_ok n F (wf_fok n k L F WF IO) (p_id n) (p_id_ok n)) as PO. pose proof (frame_supp n (stab ++ a :: fl) k L F WF IO IS (p_id n) (p_id_ok n)) as PS.
  assert (S0 : p_supp (p_id n) (stab ++ a :: fl)) by (intros q _; cbn; now rewrite nth_vzero). specialize (PS S0). pose proof (frame_flips F (p_id n)) as FL. rewrite (wf_instrs n k L F WF) in FL.
  assert (ML : measurements L = S (length fl)) by apply M. rewrite ML in FL. destruct (frame F (p_id n)) as [p flips]. cbn [fst snd] in *.
  assert (R : forall psi o, equal_up_to_sign n (execf F (repeat false (length fl) ++ [o]) psi) (op_P p (exec L (firstn (length fl) flips ++ [xorb o (nth (length fl) flips false)]) psi))).
  { intros psi o. rewrite <- xouts_app by auto. eapply eus_trans; [|apply FS; apply p_id_ok]. apply eus_sym. apply execf_eus; [exact (wf_fok n k L F WF IO)|]. apply eus_refl, op_P_id. }
  assert (LF : length (firstn (length fl) flips) = length fl) by (rewrite firstn_length; lia).
  destruct (existsb (fun b => b) (firstn (length fl) flips)) eqn:EX.
  - left. intros psi o x PC Hx. destruct (R psi o) as (s & Hs & E). rewrite E by auto. unfold op_P, op_Z, op_X. destruct M as (_ & c1 & c2 & C1 & C2 & M).
    assert (HV : length (vxor x (fst p)) = n) by (destruct PO; rewrite vxor_length; congruence). specialize (M psi _ (xorb o (nth (length fl) flips false)) PC LF _ HV). rewrite EX in M. 
    assert (Z0 : exec L (firstn (length fl) flips ++ [xorb o (nth (length fl) flips false)]) psi (vxor x (fst p)) = 0%Z) by nia. rewrite Z0. lia.
  - right. assert (Q : firstn (length fl) flips = repeat false (length fl)).
    { apply (vec_ext (length fl)); auto using repeat_length. intros j Hj. rewrite nth_repeat. destruct (nth j (firstn (length fl) flips) false) eqn:E; auto. rewrite <- EX. symmetry. apply existsb_exists. exists true. split; auto. rewrite <- E. apply nth_In. lia. }
    assert (DJ : forall q, In q stab -> ~ In q (a :: fl)) by (intros q I [J|J]; destruct (DO q I) as (X1 & X2 & X3); auto).
    rewrite Q in R. destruct H as [H|[H|H]]; [discriminate| |].
    + exists (p_restr stab p), (p_restr (a :: fl) p), (nth (length fl) flips false). split; [now apply p_restr_ok|]. split; [now apply p_restr_ok|]. split; [apply p_restr_supp|]. split; [apply p_restr_supp|]. split.
      * eapply Nat.le_trans; [apply (p_weight_supp n); [now apply p_restr_ok|apply p_restr_supp]|]. eapply Nat.le_trans; [|exact H]. unfold light. apply Nat.eq_le_incl. f_equal. apply filter_ext_in. intros q Hq. cbn. rewrite !nth_restr. replace (memb q stab) with true by (symmetry; now apply memb_in). now rewrite !andb_true_r.
      * intros psi o PC. rewrite (p_restr_split n) by auto. apply R.
    + set (p2 := p_mul p (stab_op n z stab)) in *. assert (PO2 : p_ok n p2) by (apply p_mul_ok; auto using stab_op_ok).
      assert (PS2 : p_supp p2 (stab ++ a :: fl)).
      { apply (p_mul_supp _ _ _ n); auto using stab_op_ok. intros q N. rewrite in_app_iff in N. assert (X : nth q (supp_vec n stab) false = false) by (destruct (Nat.lt_ge_cases q n) as [Hq|Hq]; [rewrite nth_supp by auto; apply memb_out; tauto|apply nth_overflow; rewrite supp_length; auto]). destruct z; cbn; rewrite X, nth_vzero; auto. }
      exists (p_restr stab p2), (p_restr (a :: fl) p2), (nth (length fl) flips false). split; [now apply p_restr_ok|]. split; [now apply p_restr_ok|]. split; [apply p_restr_supp|]. split; [apply p_restr_supp|]. split.
      * eapply Nat.le_trans; [apply (p_weight_supp n); [now apply p_restr_ok|apply p_restr_supp]|]. eapply Nat.le_trans; [|exact H]. unfold light. apply Nat.eq_le_incl. f_equal. apply filter_ext_in. intros q Hq. cbn [p_restr fst snd]. rewrite !nth_restr. replace (memb q stab) with true by (symmetry; now apply memb_in). now rewrite !andb_true_r.
      * intros psi o PC. rewrite (p_restr_split n) by auto. eapply eus_trans; [apply R|].
        eapply eus_trans; [apply op_P_eus; [auto|]; apply eus_sym, (measured_sign n z stab a fl L M An DO psi _ _ PC (repeat_length _ _))|]. apply step_p; auto using stab_op_ok. Qed.
