(** * SimProofs6: the sampled syndromes are those of the sampled data, whatever the noise *)
From Coq Require Import Permutation.
From Verif Require Export SimProofs5.
Local Open Scope nat_scope.

(** without errors the noisy execution is the noise-free one *)
Lemma nexec_quiet l : forall outs psi, nexec l [] outs psi = sexec l outs psi.
Proof. induction l as [|i l IHl]; intros outs psi; auto. destruct i as [q|c t|q|q|q b|q b|q b|q t b]; cbn [nexec sexec hd tl]; rewrite IHl; reflexivity. Qed.
Definition noise_ops (l : list sop) : list sop := filter (fun o => match o with SXerr _ _ | SZerr _ _ | SDep1 _ _ | SDep2 _ _ _ => true | _ => false end) l.
Lemma nexec_app l1 : forall l2 errs o1 o2 psi, length o1 = length (records l1) -> nexec (l1 ++ l2) errs (o1 ++ o2) psi = nexec l2 (skipn (length (noise_ops l1)) errs) o2 (nexec l1 errs o1 psi).
Proof. induction l1 as [|i l1 IHl]; intros l2 errs o1 o2 psi H.
  - destruct o1; [reflexivity|discriminate].
  - assert (SK : forall k (l : list choice), skipn k (tl l) = skipn (S k) l) by (intros k [|x l]; [now destruct k|reflexivity]).
    destruct i as [q|c t|q|q|q b|q b|q b|q t b]; cbn [app nexec noise_ops filter length]; fold (noise_ops l1); try (rewrite IHl by exact H; rewrite ?SK; reflexivity);
    cbn [records flat_map app length] in H; (destruct o1 as [|o o1]; [discriminate|]); cbn [app hd tl]; injection H as H; now apply IHl. Qed.
Lemma nexec_pure l : noise_ops l = [] -> forall errs outs psi, nexec l errs outs psi = sexec l outs psi.
Proof. induction l as [|i l IHl]; intros N errs outs psi; auto. destruct i as [q|c t|q|q|q b|q b|q b|q t b]; cbn [noise_ops filter] in N; try discriminate; cbn [nexec sexec]; now apply IHl. Qed.
Lemma clean_pauli n a q x z psi : q <> a -> clean n [a] psi -> clean n [a] (pauli_at q x z psi).
Proof. intros N C. unfold pauli_at. assert (CZ : clean n [a] (if z then zflip q psi else psi)).
  { destruct z; auto. rewrite clean_one in *. intros y Hy E. unfold zflip. rewrite C by auto. now destruct (nth q y false). }
  destruct x; auto. now apply clean_flip. Qed.
Lemma clean_nexec n a l : ~ In a (sq l) -> (forall q, In q (sq l) -> q < n) -> forall errs outs psi, clean n [a] psi -> clean n [a] (nexec l errs outs psi).
Proof. induction l as [|i l IHl]; intros N B errs outs psi C; auto. change (sq (i :: l)) with (sop_qubits i ++ sq l) in *. assert (Nl : ~ In a (sq l)) by (intros J; apply N, in_app_iff; auto). assert (Bl : forall q, In q (sq l) -> q < n) by (intros q J; apply B, in_app_iff; auto).
  assert (Ni : forall q, In q (sop_qubits i) -> q <> a) by (intros q J ->; apply N, in_app_iff; auto). specialize (IHl Nl Bl).
  destruct i as [q|c t|q|q|q d|q d|q d|q t d]; cbn [nexec]; apply IHl; auto; cbn [sop_qubits In] in Ni; auto 9 using clean_pauli.
  - apply clean_gate; auto.
  - rewrite clean_one in *. intros x Hx E. unfold apply_gate. apply C; [now rewrite cxv_length|]. rewrite nth_cxv; [|assert (t < n) by (apply B; cbn; auto); unfold vec in *; lia]. destruct (Nat.eqb_spec a t) as [->|]; auto. exfalso. apply (Ni t); auto.
  - destruct (hd false outs); auto using clean_flip, clean_project.
  - apply clean_gate; auto. destruct (hd false outs); auto 9 using clean_flip, clean_project, clean_gate. Qed.
Lemma clean_ket n a : a < n -> clean n [a] (zero_ket n).
Proof. intros A. apply clean_one. intros x Hx E. unfold zero_ket. destruct (veqb x (vzero n)) eqn:V; auto. apply veqb_eq in V. subst x. rewrite nth_vzero in E. discriminate. Qed.

Lemma checks_pure x rows : forall k, noise_ops (checks x k rows) = [].
Proof. unfold checks. induction rows as [|r rows IHr]; intros k; auto. cbn [length seq combine flat_map fst snd]. unfold noise_ops in *. rewrite filter_app, IHr, app_nil_r. unfold check_ops. destruct x; rewrite !filter_app; cbn [filter app]; rewrite ?app_nil_r.
  - induction (check_support r); auto.
  - induction (check_support r); auto. Qed.
Lemma sq_checks x rows : forall k q, In q (sq (checks x k rows)) -> k <= q < k + length rows \/ exists r, In r rows /\ In q (support r).
Proof. unfold checks. induction rows as [|r rows IHr]; intros k q I; [destruct I|]. cbn [length seq combine flat_map fst snd] in I. rewrite sq_app in I. apply in_app_iff in I as [I|I].
  - apply sq_check in I as [->|I]; [left; cbn [length]; lia|right; exists r; split; auto; now left].
  - apply IHr in I as [I|(r' & I & J)]; [left; cbn [length]; lia|right; exists r'; split; auto; now right]. Qed.
Lemma support_lt r q : In q (support r) -> q < length r.
Proof. intros I. apply support_in in I. destruct (Nat.lt_ge_cases q (length r)); auto. rewrite nth_overflow in I by auto. discriminate. Qed.
Lemma par_firstn N n r x : length r = n -> length x = N -> n <= N -> SimProofs4.par N r x = dot r (firstn n x).
Proof. intros Lr Lx H. unfold SimProofs4.par. assert (E : supp_vec N (support r) = r ++ vzero (N - n)).
  { apply (vec_ext N); [apply supp_length|rewrite app_length, vzero_length; unfold vec in *; lia|]. intros j Hj. rewrite nth_supp by auto. destruct (Nat.lt_ge_cases j n) as [L|L].
    - rewrite app_nth1 by (unfold vec in *; lia). destruct (nth j r false) eqn:E; [apply memb_in, support_in; auto|apply memb_out; intros I; apply support_in in I; congruence].
    - rewrite app_nth2 by (unfold vec in *; lia). rewrite nth_vzero. apply memb_out. intros I. apply support_lt in I. unfold vec in *; lia. }
  rewrite E. rewrite <- (firstn_skipn n x) at 1. rewrite dot_app by (rewrite firstn_length_le; unfold vec in *; lia). rewrite dot_zero_l. apply xorb_false_r. Qed.
Lemma mulMV_nth H d outs : length outs = length H -> (forall i, i < length H -> dot (nth i H []) d = nth i outs false) -> outs = mulMV H d.
Proof. intros L E. apply (vec_ext (length H)); auto; [unfold mulMV; now rewrite map_length|]. intros i Hi. rewrite <- E by auto. unfold mulMV. rewrite (nth_indep _ false ((fun r => dot r d) [])) by (now rewrite map_length). now rewrite (map_nth (fun r => dot r d)). Qed.

(** the block appended by set_p, for any state before it *)
Section Block.
Variables (N n k : nat) (Hx Hz : mat).
Hypotheses (WX : wf n Hx) (WZ : wf n Hz) (HO : orthogonal Hx Hz) (Hnk : n <= k) (HN : N = k + length Hx + length Hz).
Lemma bound_rows M r q : wf n M -> In r M -> In q (support r) -> q < k.
Proof. intros W I J. apply support_lt in J. rewrite (wf_in n M r W I) in J. lia. Qed.
Lemma block_z ox oz d psi x : length ox = length Hx -> length oz = length Hz -> length d = n -> (forall a, k <= a < N -> clean N [a] psi) -> length x = N ->
  sexec (checks true k Hx ++ checks false (k + length Hx) Hz ++ map SMR (seq 0 n)) (ox ++ oz ++ d) psi x <> 0%Z -> oz = mulMV Hz d.
Proof. intros Lx Lz Ld C X NZ. rewrite sexec_app in NZ by (now rewrite records_checks_len). rewrite sexec_app in NZ by (now rewrite records_checks_len).
  destruct (zdata N n 0 d _ x Ld X ltac:(lia) NZ) as (y & Ly & NY & Q).
  destruct (zchecks N k Hz (k + length Hx) oz (sexec (checks true k Hx) ox psi)) as [Z1 _]; auto; try lia.
  - intros r q I J. exact (bound_rows Hz r q WZ I J).
  - intros a Ha. apply clean_sexec; [| |apply C; lia].
    + intros I. apply sq_checks in I as [I|(r & I & J)]; [lia|]. assert (B := bound_rows Hx r a WX I J). lia.
    + intros q I. apply sq_checks in I as [I|(r & I & J)]; [lia|]. assert (B := bound_rows Hx r q WX I J). lia.
  - destruct (Z1 y Ly NY) as [_ P]. apply mulMV_nth; auto. intros i Hi. rewrite <- P by auto. assert (LR : length (nth i Hz []) = n) by (apply (wf_in n Hz); auto; apply nth_In; auto).
    rewrite (par_firstn N n) by (auto; lia). f_equal. apply (vec_ext n); auto; [rewrite firstn_length_le; lia|]. intros j Hj. rewrite <- Q by auto. cbn [plus]. rewrite <- (firstn_skipn n y) at 1. rewrite app_nth1; auto. rewrite firstn_length_le; lia. Qed.
Lemma block_x ox oz d psi x : length ox = length Hx -> length oz = length Hz -> length d = n -> (forall a, k <= a < N -> clean N [a] psi) -> length x = N ->
  sexec (checks true k Hx ++ checks false (k + length Hx) Hz ++ map SMRX (seq 0 n)) (ox ++ oz ++ d) psi x <> 0%Z -> ox = mulMV Hx d.
Proof. intros Lx Lz Ld C X NZ. rewrite sexec_app in NZ by (now rewrite records_checks_len). rewrite sexec_app in NZ by (now rewrite records_checks_len).
  destruct (xchecks N k Hx k ox psi) as [_ X2]; auto; try lia; [intros r q I J; exact (bound_rows Hx r q WX I J)|intros a Ha; apply C; lia|].
  destruct (zchecks N k Hz (k + length Hx) oz (sexec (checks true k Hx) ox psi)) as [_ Z2]; auto; try lia.
  - intros r q I J. exact (bound_rows Hz r q WZ I J).
  - intros a Ha. apply clean_sexec; [| |apply C; lia].
    + intros I. apply sq_checks in I as [I|(r & I & J)]; [lia|]. assert (B := bound_rows Hx r a WX I J). lia.
    + intros q I. apply sq_checks in I as [I|(r & I & J)]; [lia|]. assert (B := bound_rows Hx r q WX I J). lia.
  - apply mulMV_nth; auto. intros i Hi. assert (IR : In (nth i Hx []) Hx) by (apply nth_In; auto). assert (LR : length (nth i Hx []) = n) by (apply (wf_in n Hx); auto).
    set (R := supp_vec N (support (nth i Hx []))). assert (LRR : length R = N) by apply supp_length.
    assert (RA : forall a, n <= a -> nth a R false = false).
    { intros a Ha. destruct (Nat.lt_ge_cases a N) as [H|H]; [|apply nth_overflow; lia]. unfold R. rewrite nth_supp by auto. apply memb_out. intros I. apply support_lt in I. unfold vec in *; lia. }
    assert (RF : firstn n R = nth i Hx []).
    { apply (vec_ext n); auto; [rewrite firstn_length_le; lia|]. intros j Hj. assert (E : nth j (firstn n R) false = nth j R false) by (rewrite <- (firstn_skipn n R) at 2; rewrite app_nth1; auto; rewrite firstn_length_le; lia).
      rewrite E. unfold R. rewrite nth_supp by lia. destruct (nth j (nth i Hx []) false) eqn:EE; [apply memb_in, support_in; auto|apply memb_out; intros I; apply support_in in I; congruence]. }
    assert (EG := X2 i Hi). fold R in EG. assert (EG2 := Z2 R (nth i ox false) LRR ltac:(intros a Ha; apply RA; lia)).
    assert (PZ : forall r, In r Hz -> SimProofs4.par N r R = false).
    { intros r I. rewrite (par_firstn N n) by (auto; try lia; apply (wf_in n Hz); auto). rewrite RF, dot_comm. apply HO; auto. }
    specialize (EG2 PZ EG). assert (F := xdata N n 0 d _ R _ Ld LRR ltac:(lia) EG2 ltac:(intros a Ha; apply RA; lia) x X NZ). cbn [skipn] in F. rewrite RF in F. now symmetry. Qed.
End Block.

(** the columns of the record of set_p *)
Lemma columns_mid (a b c : list bool) : columns (seq (length a) (length b)) (a ++ b ++ c) = b.
Proof. unfold columns. revert a. induction b as [|x b IHb]; intros a; auto. cbn [length seq map]. f_equal; [rewrite app_nth2, Nat.sub_diag by lia; reflexivity|].
  specialize (IHb (a ++ [x])). rewrite app_length in IHb. cbn [length] in IHb. rewrite Nat.add_1_r in IHb. rewrite <- app_assoc in IHb. exact IHb. Qed.
Lemma list_split3 (l : list bool) a b c : length l = a + b + c -> exists l1 l2 l3, l = l1 ++ l2 ++ l3 /\ length l1 = a /\ length l2 = b /\ length l3 = c.
Proof. intros H. exists (firstn a l), (firstn b (skipn a l)), (skipn b (skipn a l)). rewrite firstn_skipn, firstn_skipn. split; auto. rewrite !firstn_length, !skipn_length. lia. Qed.
