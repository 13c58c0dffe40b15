(** * FaultSem: what single faults of a preparation circuit do, and which of them the fault set contains *)
From Verif Require Export VerifProofs5 PrepProofs3.
Local Open Scope nat_scope.

(** ** specification.  The CNOT part [l] of a circuit acts on states; a fault is an X (Z) on qubit q after the first i CNOTs;
    it has the same effect as the error [fault_error] on the prepared state. *)
Definition gcx (p : nat * nat) : gate := GCX (fst p) (snd p).
Definition cx_run (l : list (nat * nat)) (psi : state) : state := fold_left apply_gate (map gcx l) psi.
Definition op_P (x_errors : bool) (e : vec) (psi : state) : state := if x_errors then op_X e psi else op_Z e psi.
Definition fault_error (n : nat) (x_errors : bool) (l : list (nat * nat)) (q i : nat) : vec := fold_left (prop1 x_errors) (skipn i l) (unitv n q).
(** the qubit of a CNOT from which an error spreads *)
Definition source (x_errors : bool) (p : nat * nat) : nat := if x_errors then fst p else snd p.

Lemma fold_ext (circ : list gate) n a b : state_eq n a b -> state_eq n (fold_left apply_gate circ a) (fold_left apply_gate circ b).
Proof. revert a b. induction circ as [|g circ IH]; intros a b H; cbn [fold_left]; auto. apply IH. intros x Hx. destruct g; cbn [apply_gate].
  - rewrite !H by (now rewrite set_nth_length). reflexivity.
  - apply H. now rewrite cxv_length. Qed.
Lemma op_P_ext n x e a b : length e = n -> state_eq n a b -> state_eq n (op_P x e a) (op_P x e b).
Proof. intros L H v Hv. destruct x; cbn [op_P]; [unfold op_X; apply H; now apply vxor_length'|unfold op_Z; now rewrite H]. Qed.
Lemma gate_commute n x e p psi : fst p < n -> snd p < n -> fst p <> snd p -> length e = n ->
  state_eq n (apply_gate (op_P x e psi) (gcx p)) (op_P x (prop1 x e p) (apply_gate psi (gcx p))).
Proof. destruct p as [c t]. cbn [fst snd]. intros Hc Ht N L v Hv. unfold gcx, prop1. destruct x; cbn [op_P apply_gate fst snd].
  - unfold op_X, apply_gate. rewrite (cxv_vxor n) by (auto; now rewrite cxv_length). now rewrite cxv_invol.
  - unfold op_Z, apply_gate. assert (E : dot e (cxv c t v) = dot (cxv t c e) v); [|now rewrite E]. rewrite <- (cxv_invol c t v) at 2 by auto. symmetry. apply (dot_cxv n); auto. now rewrite cxv_length. Qed.
Lemma prop1_length x e p : length (prop1 x e p) = length e.
Proof. unfold prop1. destruct x; apply cxv_length. Qed.
(** an error before the CNOTs is an error after them *)
Theorem propagate_semantics n x l : cn_ok n l -> forall e psi, length e = n -> state_eq n (cx_run l (op_P x e psi)) (op_P x (fold_left (prop1 x) l e) (cx_run l psi)).
Proof. induction 1 as [|p l (A & B & C) H IH]; intros e psi L v Hv; [reflexivity|]. cbn [cx_run map fold_left].
  change (cx_run l (apply_gate (op_P x e psi) (gcx p)) v = op_P x (fold_left (prop1 x) l (prop1 x e p)) (cx_run l (apply_gate psi (gcx p))) v).
  transitivity (cx_run l (op_P x (prop1 x e p) (apply_gate psi (gcx p))) v).
  - apply (fold_ext (map gcx l) n); auto. now apply gate_commute.
  - apply IH; auto. now rewrite prop1_length. Qed.

(** ** which faults are in the list *)
Lemma unit_cxv n c t q : t < n -> q <> c -> cxv c t (unitv n q) = unitv n q.
Proof. intros Ht Hq. unfold cxv. replace (nth c (unitv n q) false) with false; [rewrite xorb_false_r; apply set_nth_same|]. symmetry.
  destruct (Nat.lt_ge_cases c n) as [Hc|Hc]; [|apply nth_overflow; now rewrite unitv_length]. rewrite nth_unitv by auto. apply Nat.eqb_neq. congruence. Qed.
Lemma prop_unit n x l q : cn_ok n l -> (forall p, In p l -> source x p <> q) -> fold_left (prop1 x) l (unitv n q) = unitv n q.
Proof. induction 1 as [|p l (A & B & C) H IH]; intros N; cbn [fold_left]; auto. replace (prop1 x (unitv n q) p) with (unitv n q); [apply IH; intros; apply N; now right|].
  symmetry. specialize (N p (or_introl eq_refl)). unfold prop1, source in *. destruct x; apply unit_cxv; auto. Qed.
Lemma last_source x q (l : list (nat * nat)) : (forall p, In p l -> source x p <> q) \/ exists a p b, l = a ++ p :: b /\ source x p = q /\ forall p', In p' b -> source x p' <> q.
Proof. induction l as [|p l IH] using rev_ind; [left; intros ? []|]. destruct (Nat.eq_dec (source x p) q) as [E|E]; [right; exists l, p, []; split; auto; split; auto; intros ? []|].
  destruct IH as [N|(a & p' & b & -> & H1 & H2)].
  - left. intros p' Hp. apply in_app_iff in Hp as [Hp|[<-|[]]]; auto.
  - right. exists a, p', (b ++ [p]). rewrite <- app_assoc. split; auto. split; auto. intros p2 Hp. apply in_app_iff in Hp as [Hp|[<-|[]]]; auto. Qed.
Lemma fault_error_length n x l q i : length (fault_error n x l q i) = n.
Proof. unfold fault_error. rewrite prop_length. apply unitv_length. Qed.
(** faults after an error-spreading use of their qubit are listed, others act like a fault before the first CNOT *)
Lemma fault_cases n x l q i : cn_ok n l -> i <= length l ->
  (exists p, In p (firstn i l) /\ source x p = q /\ In (fault_error n x l q i) (single_faults n x l)) \/
  ((forall p, In p (firstn i l) -> source x p <> q) /\ fault_error n x l q i = fault_error n x l q 0).
Proof. intros CN Hi. assert (CF : cn_ok n (firstn i l)) by (apply Forall_forall; intros p Hp; apply (proj1 (Forall_forall _ _) CN); rewrite <- (firstn_skipn i l); apply in_app_iff; auto).
  destruct (last_source x q (firstn i l)) as [N|(a & p & b & E & S1 & S2)].
  - right. split; auto. unfold fault_error. cbn [skipn]. rewrite <- (firstn_skipn i l) at 2. rewrite fold_left_app. rewrite (prop_unit n x (firstn i l)); auto.
  - left. exists p. split; [rewrite E; apply in_app_iff; right; now left|]. split; auto. apply single_faults_in. exists a, p, (b ++ skipn i l). split.
    + rewrite <- (firstn_skipn i l) at 1. rewrite E, <- app_assoc. reflexivity.
    + fold (source x p). rewrite S1, fold_left_app, prop_unit; auto. rewrite E in CF. apply Forall_app in CF as [_ CF]. now apply Forall_cons_iff in CF as [_ CF]. Qed.
Lemma single_fault_is n x l e : cn_ok n l -> In e (single_faults n x l) -> exists q i, q < n /\ i <= length l /\ e = fault_error n x l q i.
Proof. intros CN H. apply single_faults_in in H as (a & p & b & E & ->). exists (source x p), (S (length a)). subst l. split; [|split].
  - apply Forall_app in CN as [_ CN]. apply Forall_cons_iff in CN as [(A & B & _) _]. unfold source. destruct x; auto.
  - rewrite app_length. cbn. lia.
  - unfold fault_error. rewrite skipn_app. replace (S (length a) - length a) with 1 by lia. rewrite skipn_all2 by lia. reflexivity. Qed.

(** ** faults before the first CNOT that do nothing *)
Lemma run_split n hs l : run n (map GH hs ++ map gcx l) = cx_run l (run n (map GH hs)).
Proof. apply run_app. Qed.
Lemma start_stable n x hs q : NoDup hs -> Forall (fun c => c < n) hs -> q < n -> (x = true -> In q hs) -> (x = false -> ~ In q hs) ->
  state_eq n (op_P x (unitv n q) (run n (map GH hs))) (run n (map GH hs)).
Proof. intros ND F Hq HX HZ v Hv. pose proof (hadamards n hs ND F) as U. destruct x; cbn [op_P].
  - unfold op_X. assert (L : length (vxor v (unitv n q)) = n) by (apply vxor_length'; auto using unitv_length). specialize (HX eq_refl).
    assert (EQ : forall k, k < n -> k <> q -> nth k (vxor v (unitv n q)) false = nth k v false).
    { intros k Hk N. rewrite nth_vxor by (now rewrite unitv_length). rewrite nth_unitv by auto. replace (k =? q) with false by (symmetry; now apply Nat.eqb_neq). apply xorb_false_r. }
    destruct (U v Hv) as [A B]. destruct (U _ L) as [C D].
    assert (S : supported n hs v <-> supported n hs (vxor v (unitv n q))).
    { split; intros H k Hk N; (destruct (Nat.eq_dec k q) as [->|NE]; [contradiction|]); [rewrite EQ by auto|rewrite <- EQ by auto]; auto. }
    assert (DEC : supported n hs v \/ ~ supported n hs v).
    { destruct (forallb (fun k => existsb (Nat.eqb k) hs || negb (nth k v false)) (seq 0 n)) eqn:E.
      - left. intros k Hk N. rewrite forallb_forall in E. specialize (E k ltac:(apply in_seq; lia)). apply orb_true_iff in E as [E|E]; [|now apply negb_true_iff]. exfalso. apply N. apply existsb_exists in E as (k' & Hk' & E). apply Nat.eqb_eq in E. now subst.
      - right. intros H. assert (T : forallb (fun k => existsb (Nat.eqb k) hs || negb (nth k v false)) (seq 0 n) = true); [|congruence]. apply forallb_forall. intros k Hk. apply in_seq in Hk. apply orb_true_iff.
        destruct (existsb (Nat.eqb k) hs) eqn:EX; auto. right. apply negb_true_iff. apply H; [lia|]. intros HI. assert (existsb (Nat.eqb k) hs = true) by (apply existsb_exists; exists k; split; auto; apply Nat.eqb_refl). congruence. }
    destruct DEC as [H|H]; [rewrite A, C; tauto|rewrite B, D; tauto].
  - unfold op_Z. specialize (HZ eq_refl). rewrite dot_unitv_l by auto. destruct (nth q v false) eqn:E; [|apply Z.mul_1_l]. destruct (U v Hv) as [_ B]. rewrite B; [reflexivity|]. intros H. rewrite (H q Hq HZ) in E. discriminate. Qed.
Lemma stable_fault n x hs l q : cn_ok n l -> NoDup hs -> Forall (fun c => c < n) hs -> q < n -> (x = true -> In q hs) -> (x = false -> ~ In q hs) ->
  let psi := run n (map GH hs ++ map gcx l) in state_eq n (op_P x (fault_error n x l q 0) psi) psi.
Proof. intros CN ND F Hq HX HZ psi v Hv. unfold psi. rewrite run_split. unfold fault_error. cbn [skipn]. rewrite <- (propagate_semantics n x l CN (unitv n q) (run n (map GH hs)) (unitv_length n q) v Hv).
  apply (fold_ext (map gcx l) n); auto. now apply start_stable. Qed.
Lemma stable_stab s x e psi : spc_ok s -> length e = sp_n s -> uniform_over (sp_n s) (span (sp_n s) (sp_xc s)) psi -> state_eq (sp_n s) (op_P x e psi) psi -> span (sp_n s) (stabs_of s x) e.
Proof. intros (WX & WZ & _ & _ & _ & KZ & KX) L U H. set (n := sp_n s) in *. destruct x; cbn [op_P] in H.
  - unfold stabs_of. specialize (H (vzero n) (vzero_length n)). unfold op_X in H. rewrite (vxor_zero_l n) in H by auto. rewrite (proj1 (U (vzero n) (vzero_length n)) (span_zero n _)) in H. destruct (span_dec n (sp_xc s) e) as [S|S]; auto. rewrite (proj2 (U e L) S) in H. discriminate.
  - unfold stabs_of. apply KX. split; auto. intros r Hr. assert (Lr : length r = n) by exact (wf_in n _ r WX Hr). specialize (H r Lr). unfold op_Z in H. rewrite (proj1 (U r Lr) (span_in n _ r WX Hr)) in H. rewrite dot_comm. destruct (dot e r); auto. discriminate. Qed.
