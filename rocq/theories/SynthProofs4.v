(** * SynthProofs4: reduced matrices are circuits of Hadamards followed by CNOTs *)
From Verif Require Export SynthProofs3.
Local Open Scope nat_scope.

(** ** specification *)
(** the state a preparation circuit has to produce: for the zero state (from the X checks H) the uniform superposition of the products of checks, for the
    plus state (from the Z checks H) that of the strings orthogonal to all checks *)
Definition prepares (n : nat) (H : mat) (zero_state : bool) (psi : state) : Prop :=
  if zero_state then uniform_over n (span n H) psi else uniform_over n (in_kernel n H) psi.
(** Hadamards on different qubits, then CNOTs *)
Definition hc_circuit (hs : list nat) (cn : list (nat * nat)) : list gate := map GH hs ++ map (fun '(c, t) => GCX c t) cn.
Definition gate_circuit (n D : nat) (circ : list gate) : Prop := exists hs cn, circ = hc_circuit hs cn /\ NoDup hs /\ (forall q, In q hs -> q < n) /\
  (forall c t, In (c, t) cn -> c < n /\ t < n /\ c <> t) /\ length cn = D.
(** the CNOTs come in D layers, each acting on every qubit at most once *)
Definition layered_circuit (n D : nat) (circ : list gate) : Prop := exists hs ls, circ = hc_circuit hs (concat ls) /\ NoDup hs /\ (forall q, In q hs -> q < n) /\
  (forall l, In l ls -> (forall c t, In (c, t) l -> c < n /\ t < n /\ c <> t) /\ NoDup (flat_map (fun p => [fst p; snd p]) l)) /\ length ls = D.

(** ** proofs *)
Lemma cn_ok_iff n cn : cn_ok n cn <-> forall c t, In (c, t) cn -> c < n /\ t < n /\ c <> t.
Proof. unfold cn_ok. rewrite Forall_forall. split; intros H; [intros c t I; exact (H _ I)|intros [c t] I; exact (H c t I)]. Qed.
Lemma uniform_unique n (A B : vec -> Prop) psi : uniform_over n A psi -> uniform_over n B psi -> (forall x, length x = n -> A x \/ ~ A x) -> (forall x, length x = n -> B x \/ ~ B x) ->
  forall x, length x = n -> (A x <-> B x).
Proof. intros UA UB DA DB x Hx. destruct (UA x Hx) as [A1 A2], (UB x Hx) as [B1 B2]. split; intros H.
  - destruct (DB x Hx); auto. rewrite A1 in B2 by auto. specialize (B2 H0). discriminate.
  - destruct (DA x Hx); auto. rewrite B1 in A2 by auto. specialize (A2 H0). discriminate. Qed.
Lemma supported_dec n hs x : supported n hs x \/ ~ supported n hs x.
Proof. destruct (forallb (fun k => existsb (Nat.eqb k) hs || negb (nth k x false)) (seq 0 n)) eqn:E.
  - left. intros k Hk N. rewrite forallb_forall in E. specialize (E k ltac:(apply in_seq; lia)). apply orb_true_iff in E as [E|E]; [|now apply negb_true_iff].
    exfalso. apply N. apply existsb_exists in E as (y & Hy & Ey). apply Nat.eqb_eq in Ey. now subst.
  - right. intros S. assert (X : forallb (fun k => existsb (Nat.eqb k) hs || negb (nth k x false)) (seq 0 n) = true); [|congruence]. apply forallb_forall. intros k Hk. apply in_seq in Hk.
    destruct (existsb (Nat.eqb k) hs) eqn:EX; auto. cbn. rewrite (S k); auto; [lia|]. intros I. assert (existsb (Nat.eqb k) hs = true); [|congruence]. apply existsb_exists. exists k. split; auto. apply Nat.eqb_refl. Qed.
Lemma kernel_dec n H x : length x = n -> in_kernel n H x \/ ~ in_kernel n H x.
Proof. intros L. destruct (existsb (fun r => dot r x) H) eqn:E.
  - right. intros [_ K]. apply existsb_exists in E as (r & Hr & E). rewrite (K r Hr) in E. discriminate.
  - left. split; auto. intros r Hr. destruct (dot r x) eqn:D; auto. assert (existsb (fun r => dot r x) H = true); [|congruence]. apply existsb_exists. eauto. Qed.
Lemma run_hc n hs cn : NoDup hs -> (forall q, In q hs -> q < n) -> uniform_over n (fun x => supported n hs (cxs (rev cn) x)) (run n (hc_circuit hs cn)).
Proof. intros ND F x Hx. unfold hc_circuit. rewrite run_app. replace (fold_left apply_gate (map (fun '(c, t) => GCX c t) cn) (run n (map GH hs)) x) with (run n (map GH hs) (cxs (rev cn) x)) by (rewrite <- (cnots_act n) by auto; now rewrite rev_involutive). apply hadamards; auto; [now apply Forall_forall|]. now rewrite cxs_length. Qed.
(** what preparing the state means for the elimination *)
Lemma prepares_iff n H zs hs cn : wf n H -> NoDup hs -> (forall q, In q hs -> q < n) -> 
  (prepares n H zs (run n (hc_circuit hs cn)) <-> forall x, length x = n -> (supported n hs (cxs (rev cn) x) <-> (if zs then span n H x else in_kernel n H x))).
Proof. intros W ND F. pose proof (run_hc n hs cn ND F) as U. split.
  - intros P x Hx. destruct zs; cbn [prepares] in P.
    + apply (uniform_unique n _ _ _ U P); auto; [intros; apply supported_dec|]. intros y _. destruct (span_dec n H y); auto.
    + apply (uniform_unique n _ _ _ U P); auto; [intros; apply supported_dec|]. intros y Hy. now apply kernel_dec.
  - intros E. destruct zs; intros x Hx; specialize (U x Hx); specialize (E x Hx); cbv beta in U; rewrite <- E; auto. Qed.

Lemma mem_count n hs : NoDup hs -> (forall q, In q hs -> q < n) -> length (filter (fun k => existsb (Nat.eqb k) hs) (seq 0 n)) = length hs.
Proof. intros ND F. apply Permutation.Permutation_length. apply NoDup_Permutation; auto; [apply NoDup_filter, seq_NoDup|]. intros k. rewrite filter_In, in_seq, existsb_exists. split.
  - intros (_ & y & Hy & E). apply Nat.eqb_eq in E. now subst.
  - intros I. split; [specialize (F k I); lia|]. exists k. split; auto. apply Nat.eqb_refl. Qed.
Lemma mem_spec k hs : existsb (Nat.eqb k) hs = true <-> In k hs.
Proof. rewrite existsb_exists. split; [intros (y & Hy & E); apply Nat.eqb_eq in E; now subst|]. intros I. exists k. split; auto. apply Nat.eqb_refl. Qed.
Lemma units_wf n l : wf n (map (unitv n) l).
Proof. apply Forall_map, Forall_forall. intros; apply unitv_length. Qed.
Lemma units_indep n l : NoDup l -> (forall q, In q l -> q < n) -> indep n (map (unitv n) l).
Proof. intros ND. induction ND as [|c l NI ND IH]; intros F; [apply indep_nil|]. cbn [map]. apply indep_cons; auto using unitv_length, units_wf. split; [apply IH; intros; apply F; right; auto|].
  assert (Fl : Forall (fun c => c < n) l) by (apply Forall_forall; intros; apply F; right; auto).
  intros HS. pose proof (proj1 (units_span n l (unitv n c) Fl (unitv_length n c)) HS c ltac:(apply F; left; auto) NI) as X. rewrite nth_unitv, Nat.eqb_refl in X by (apply F; left; auto). discriminate. Qed.
Lemma units_rank n l : NoDup l -> (forall q, In q l -> q < n) -> rk n (map (unitv n) l) = length l.
Proof. intros ND F. symmetry. apply rk_unique; [apply units_wf|]. rewrite <- (map_length (unitv n) l). apply has_rank_indep; [apply units_wf|]. now apply units_indep. Qed.

(** zero columns of a matrix whose row space is a coordinate space *)
Lemma supp_cols n M hs : wf n M -> NoDup hs -> (forall q, In q hs -> q < n) -> (forall y, length y = n -> (span n M y <-> supported n hs y)) ->
  length hs = rk n M /\ length (filter (zero_col M) (seq 0 n)) = n - length hs.
Proof. intros W ND F S. split.
  - rewrite <- (units_rank n hs ND F). apply rk_span; auto using units_wf. intros v.
    assert (Fl : Forall (fun c => c < n) hs) by (now apply Forall_forall). split; intros HS.
    + assert (Lv : length v = n) by exact (span_length n _ v (units_wf n hs) HS). apply S; auto. exact (proj1 (units_span n hs v Fl Lv) HS).
    + assert (Lv : length v = n) by exact (span_length n _ v W HS). apply (proj2 (units_span n hs v Fl Lv)). now apply S.
  - rewrite (filter_ext_in _ (fun k => negb (existsb (Nat.eqb k) hs))).
    + pose proof (filter_neg_length (fun k => existsb (Nat.eqb k) hs) (seq 0 n)) as E. rewrite mem_count, seq_length in E by auto. lia.
    + intros k Hk. apply in_seq in Hk. destruct (existsb (Nat.eqb k) hs) eqn:EX; cbn [negb].
      * apply mem_spec in EX. destruct (zero_col M k) eqn:EZ; auto. exfalso. assert (SU : span n M (unitv n k)).
        { apply S; auto using unitv_length. intros q Hq N. rewrite nth_unitv by auto. destruct (Nat.eqb_spec q k); auto. subst; contradiction. }
        assert (X : nth k (unitv n k) false = false).
        { revert SU. generalize (unitv n k) as v. intros v. revert v. apply (span_ind n M (fun v => nth k v false = false)); auto; [apply nth_vzero|].
          intros r v Hr Lv IH. rewrite nth_vxor by (rewrite (wf_in n M r W Hr); auto). rewrite IH, xorb_false_r. destruct (In_nth M r [] Hr) as (q & Hq & <-).
          rewrite <- nth_col by auto. exact (proj1 (zero_col_spec M k) EZ q). }
        rewrite nth_unitv, Nat.eqb_refl in X by lia. discriminate.
      * apply zero_col_spec. intros q. destruct (Nat.lt_ge_cases q (length M)) as [Hq|Hq]; [|rewrite nth_overflow; auto; rewrite col_length; auto]. rewrite nth_col by auto.
        assert (I : In (nth q M []) M) by (now apply nth_In). pose proof (span_in n M _ W I) as SP. apply S in SP; [|exact (wf_in n M _ W I)]. apply SP; [lia|]. intros H. apply mem_spec in H. congruence. Qed.
Lemma kernel_cols n M hs : wf n M -> NoDup hs -> (forall q, In q hs -> q < n) -> (forall y, length y = n -> (in_kernel n M y <-> supported n hs y)) ->
  length hs + rk n M = n /\ length (filter (zero_col M) (seq 0 n)) = length hs.
Proof. intros W ND F S. split.
  - assert (E : length hs = length (kernel n M)); [|pose proof (rank_nullity n M W); lia].
    rewrite <- (units_rank n hs ND F). rewrite (rk_unique n (kernel n M) (length (kernel n M))); [|now apply kernel_wf|apply has_rank_indep; [now apply kernel_wf|now apply kernel_indep]].
    apply rk_span; [apply units_wf|now apply kernel_wf|]. intros v. rewrite kernel_span by auto. assert (Fl : Forall (fun c => c < n) hs) by (now apply Forall_forall). split; intros HS.
    + assert (Lv : length v = n) by exact (span_length n _ v (units_wf n hs) HS). apply S; auto. exact (proj1 (units_span n hs v Fl Lv) HS).
    + pose proof HS as [Lv _]. apply (proj2 (units_span n hs v Fl Lv)). now apply S.
  - rewrite <- (mem_count n hs ND F). f_equal. apply filter_ext_in. intros k Hk. apply in_seq in Hk. destruct (existsb (Nat.eqb k) hs) eqn:EX.
    + apply mem_spec in EX. assert (KU : in_kernel n M (unitv n k)).
      { apply S; auto using unitv_length. intros q Hq N. rewrite nth_unitv by auto. destruct (Nat.eqb_spec q k); auto. subst; contradiction. }
      apply zero_col_spec. intros q. destruct (Nat.lt_ge_cases q (length M)) as [Hq|Hq]; [|rewrite nth_overflow; auto; rewrite col_length; auto]. rewrite nth_col by auto.
      assert (I : In (nth q M []) M) by (now apply nth_In). destruct KU as [_ KU]. specialize (KU _ I). rewrite (dot_unitv_r n) in KU; [exact KU|exact (wf_in n M _ W I)|lia].
    + destruct (zero_col M k) eqn:EZ; auto. exfalso. assert (KU : in_kernel n M (unitv n k)).
      { split; [apply unitv_length|]. intros r Hr. rewrite dot_unitv_r; [|exact (wf_in n M r W Hr)|lia]. destruct (In_nth M r [] Hr) as (q & Hq & <-). rewrite <- nth_col by auto. exact (proj1 (zero_col_spec M k) EZ q). }
      apply S in KU; auto using unitv_length. specialize (KU k ltac:(lia)). rewrite nth_unitv, Nat.eqb_refl in KU by lia. assert (NI : ~ In k hs) by (intros I; apply mem_spec in I; congruence). discriminate (KU NI). Qed.

Lemma flip_flip cn : flip_pairs (flip_pairs cn) = cn.
Proof. unfold flip_pairs. rewrite map_map. cbn. rewrite (map_ext _ (fun p => p)) by (now intros []). apply map_id. Qed.
Lemma flip_rev cn : flip_pairs (rev cn) = rev (flip_pairs cn).
Proof. apply map_rev. Qed.
Lemma flip_concat ls : flip_pairs (concat ls) = concat (map flip_pairs ls).
Proof. unfold flip_pairs. now rewrite concat_map. Qed.
(** the additions of the elimination: for the plus state controls and targets change places *)
Definition elim (zs : bool) (cn : list (nat * nat)) : list (nat * nat) := if zs then rev cn else flip_pairs (rev cn).
Lemma elim_ok n zs cn : cn_ok n cn -> cn_ok n (elim zs cn).
Proof. intros K. unfold elim. destruct zs; [now apply Forall_rev|]. apply flip_ok. now apply Forall_rev. Qed.
Lemma elim_elim zs cn : elim zs (elim zs cn) = cn.
Proof. unfold elim. destruct zs; [apply rev_involutive|]. rewrite (flip_rev (flip_pairs (rev cn))), flip_flip. apply rev_involutive. Qed.

Lemma kernel_cxs n H cn x : wf n H -> cn_ok n cn -> length x = n -> (in_kernel n (map (cxs cn) H) (cxs (flip_pairs cn) x) <-> in_kernel n H x).
Proof. intros W K Hx. unfold in_kernel. rewrite cxs_length. split; intros [_ HK]; split; auto; intros r Hr.
  - rewrite <- (dot_cxs n cn); auto; [|exact (wf_in n H r W Hr)]. apply HK. now apply in_map.
  - apply in_map_iff in Hr as (r0 & <- & Hr). rewrite (dot_cxs n); auto. exact (wf_in n H r0 W Hr). Qed.

(** a circuit that prepares the state gives an elimination ending in a matrix with as few nonzero columns as the rank; the number of Hadamards is forced *)
Lemma circuit_reduced n H zs hs cn : wf n H -> NoDup hs -> (forall q, In q hs -> q < n) -> cn_ok n cn -> prepares n H zs (run n (hc_circuit hs cn)) ->
  length hs = (if zs then rk n H else n - rk n H) /\ is_reduced n (rk n H) (map (cxs (elim zs cn)) H) = true /\ rk n H <= n.
Proof. intros W ND F K P. pose proof (proj1 (prepares_iff n H zs hs cn W ND F) P) as E. clear P. pose proof (rank_nullity n H W) as RN.
  pose proof (elim_ok n zs cn K) as KE. assert (WM : wf n (map (cxs (elim zs cn)) H)) by now apply cxs_wf. pose proof (rk_cxs n (elim zs cn) H W KE) as RK.
  assert (KR : cn_ok n (rev cn)) by now apply Forall_rev. destruct zs; unfold elim in *.
  - destruct (supp_cols n (map (cxs (rev cn)) H) hs WM ND F) as [L1 L2].
    + intros y Hy. rewrite <- (cxs_rev' n (rev cn) y) by auto. rewrite span_cxs by (auto; rewrite cxs_length; auto). symmetry. apply E. now rewrite cxs_length.
    + split; [lia|]. split; [|lia]. unfold is_reduced. rewrite L2. apply Nat.eqb_eq. lia.
  - destruct (kernel_cols n (map (cxs (flip_pairs (rev cn))) H) hs WM ND F) as [L1 L2].
    + intros y Hy. rewrite <- (cxs_rev' n (rev cn) y) by auto. set (x := cxs (rev (rev cn)) y). assert (Lx : length x = n) by (unfold x; now rewrite cxs_length).
      rewrite <- (flip_flip (rev cn)) at 2. rewrite kernel_cxs by auto. symmetry. now apply E.
    + rewrite RK in L1. split; [lia|]. split; [|lia]. unfold is_reduced. rewrite L2. apply Nat.eqb_eq. lia. Qed.

(** the circuit built from an elimination *)
Lemma build_hc n M cn zs : exists hs, build_circuit n cn M zs = hc_circuit hs (elim zs cn) /\ NoDup hs /\ (forall q, In q hs -> q < n) /\
  length hs = (if zs then n - length (filter (zero_col M) (seq 0 n)) else length (filter (zero_col M) (seq 0 n))).
Proof. unfold build_circuit. fold (controls n M). pose proof (filter_neg_length (zero_col M) (seq 0 n)) as FN. rewrite seq_length in FN.
  assert (EC : controls n M = filter (fun i => negb (zero_col M i)) (seq 0 n)) by (apply filter_ext; intros; apply control_zero).
  destruct zs; unfold elim, hc_circuit.
  - exists (controls n M). split; auto. split; [apply NoDup_filter, seq_NoDup|]. split; [intros q Hq; apply filter_In in Hq as [Hq _]; apply in_seq in Hq; lia|]. rewrite EC. lia.
  - eexists. split; [f_equal; unfold flip_pairs; rewrite map_map; apply map_ext; intros []; auto|]. split; [apply NoDup_filter, seq_NoDup|]. split; [intros q Hq; apply filter_In in Hq as [Hq _]; apply in_seq in Hq; lia|].
    f_equal. apply filter_ext_in. intros k Hk. destruct (existsb (Nat.eqb k) (controls n M)) eqn:EX; cbn [negb].
    + apply mem_spec in EX. rewrite EC in EX. apply filter_In in EX as [_ EX]. apply negb_true_iff in EX. auto.
    + destruct (zero_col M k) eqn:EZ; auto. assert (existsb (Nat.eqb k) (controls n M) = true); [|congruence]. apply mem_spec. rewrite EC. apply filter_In. rewrite EZ. auto. Qed.
Lemma build_prepares n H cn zs : wf n H -> cn_ok n cn -> is_reduced n (rk n H) (map (cxs cn) H) = true -> prepares n H zs (run n (build_circuit n cn (map (cxs cn) H) zs)).
Proof. intros W K R. assert (WM : wf n (map (cxs cn) H)) by now apply cxs_wf. pose proof (rk_cxs n cn H W K) as RK. unfold prepares. destruct zs.
  - apply build_zero; auto; [now rewrite RK|]. intros v Hv. now apply span_cxs.
  - apply build_plus; auto; [now rewrite RK|]. intros v Hv. now apply span_cxs. Qed.
