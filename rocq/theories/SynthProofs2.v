(** * SynthProofs2: models of the two queries are sequences of column additions *)
From Verif Require Export SynthProofs.
Local Open Scope nat_scope.

Definition sat (a : asg cv gw) (fs : list sexpr) : Prop := forall f, In f fs -> eval a f = true.
Lemma land_pred_pow2 n : 2 <= n -> Nat.land n (n - 1) = 0 -> n = 2 ^ Nat.log2_up n.
Proof. intros N H. set (k := Nat.log2 n). destruct (Nat.log2_spec n ltac:(lia)) as [L U]. fold k in L, U.
  assert (E : n = 2 ^ k).
  { destruct (Nat.eq_dec n (2 ^ k)) as [E|E]; auto. exfalso.
    assert (K : Nat.log2 (n - 1) = k) by (apply Nat.log2_unique; lia).
    assert (B : Nat.testbit (Nat.land n (n - 1)) k = true).
    { rewrite Nat.land_spec. rewrite <- K at 2. rewrite (Nat.bit_log2 (n - 1)) by lia. unfold k. rewrite Nat.bit_log2 by lia. auto. }
    rewrite H, Nat.bits_0 in B. discriminate. }
  rewrite E at 2. rewrite Nat.log2_up_pow2; lia. Qed.
Lemma width_ge n : n <= bv_width n.
Proof. unfold bv_width. destruct n as [|[|n]]; [cbn; lia|cbn; lia|]. apply Nat.log2_log2_up_spec. lia. Qed.
Lemma Sseq_in d D : In d (seq 1 D) <-> exists d', d = S d' /\ d' < D.
Proof. rewrite in_seq. split; [intros H; exists (d - 1); lia|intros (d' & -> & H); lia]. Qed.

(** ** bounded gates *)
Definition gate_pairs (a : asg cv gw) (D : nat) : list (nat * nat) := map (fun d => (a_bv a (Ct d), a_bv a (Tg d))) (seq 0 D).
Lemma gates_formulas a rows n D : sat a (gates_query rows n D) <->
  eval a (column_addition_constraint rows n D (fun d i j => EAnd [EBvEq (Ct d) i; EBvEq (Tg d) j])) = true /\
  (forall d, d < D -> a_bv a (Ct d) <> a_bv a (Tg d)) /\
  (n <> 0 -> n - 1 <> 0 -> Nat.land n (n - 1) <> 0 -> forall d, d < D -> a_bv a (Ct d) < n /\ a_bv a (Tg d) < n) /\
  (forall d col0, d < D -> col0 < n -> a_bv a (Tg d) <> col0 -> col (matA a rows n (S d)) col0 = col (matA a rows n d) col0) /\
  eval a (final_matrix_constraint rows n D) = true.
Proof. unfold gates_query, sat. split.
  - intros H. split; [apply H; apply in_app_iff; left; left; auto|]. split; [|split; [|split]].
    + intros d Hd E. assert (X : eval a (EBvNe (Ct d) (Tg d)) = true).
      { apply H. apply in_app_iff; right. apply in_app_iff; left. apply in_flat_map. exists (S d). split; [apply Sseq_in; eauto|]. rewrite Nat.sub_succ, Nat.sub_0_r. left; auto. }
      cbn [eval] in X. rewrite E, Nat.eqb_refl in X. discriminate.
    + intros N0 N1 NL d Hd. assert (X : forall e, In e [EBvLt (Ct d) n; EBvLt (Tg d) n] -> eval a e = true).
      { intros e He. apply H. apply in_app_iff; right. apply in_app_iff; left. apply in_flat_map. exists (S d). split; [apply Sseq_in; eauto|]. rewrite Nat.sub_succ, Nat.sub_0_r. apply in_app_iff; right.
        destruct (Nat.eqb_spec n 0), (Nat.eqb_spec (n - 1) 0), (Nat.eqb_spec (Nat.land n (n - 1)) 0); try contradiction. exact He. }
      split; [specialize (X _ (or_introl eq_refl))|specialize (X _ (or_intror (or_introl eq_refl)))]; cbn [eval] in X; now apply Nat.ltb_lt.
    + intros d c Hd Hc N. assert (X : eval a (EImp (ENot (EBvEq (Tg d) c)) (symbolic_vector_eq (colS rows (S d) c) (colS rows d c))) = true).
      { apply H. apply in_app_iff; right. apply in_app_iff; right. apply in_app_iff; left. apply in_flat_map. exists (S d). split; [apply Sseq_in; eauto|]. rewrite Nat.sub_succ, Nat.sub_0_r.
        apply in_map_iff. exists c. split; auto. apply in_seq. lia. }
      cbn [eval] in X. destruct (Nat.eqb_spec (a_bv a (Tg d)) c); [contradiction|]. cbn [negb implb] in X. rewrite !matA_col by auto. apply eq_eval in X; auto. now rewrite !colS_length.
    + apply H. do 3 (apply in_app_iff; right). left; auto.
  - intros (H1 & H2 & H3 & H4 & H5) f Hf. rewrite !in_app_iff in Hf. destruct Hf as [[<-|[]]|[Hf|[Hf|[<-|[]]]]]; auto.
    + apply in_flat_map in Hf as (d & Hd & Hf). apply Sseq_in in Hd as (d' & -> & Hd). rewrite Nat.sub_succ, Nat.sub_0_r in Hf. apply in_app_iff in Hf as [[<-|[]]|Hf].
      * cbn [eval]. destruct (Nat.eqb_spec (a_bv a (Ct d')) (a_bv a (Tg d'))) as [E|E]; auto. now apply H2 in E.
      * destruct (Nat.eqb_spec n 0), (Nat.eqb_spec (n - 1) 0), (Nat.eqb_spec (Nat.land n (n - 1)) 0); try (destruct Hf; fail). destruct (H3 ltac:(auto) ltac:(auto) ltac:(auto) d' Hd).
        destruct Hf as [<-|[<-|[]]]; cbn [eval]; now apply Nat.ltb_lt.
    + apply in_flat_map in Hf as (d & Hd & Hf). apply Sseq_in in Hd as (d' & -> & Hd). rewrite Nat.sub_succ, Nat.sub_0_r in Hf. apply in_map_iff in Hf as (c & <- & Hc). apply in_seq in Hc.
      cbn [eval]. apply implb_true_iff. intros E. apply negb_true_iff, Nat.eqb_neq in E. specialize (H4 d' c Hd ltac:(lia) E). rewrite !matA_col in H4 by lia. apply eq_eval; auto. now rewrite !colS_length. Qed.

Lemma cxs_snoc cn p x : cxs (cn ++ [p]) x = cxv (fst p) (snd p) (cxs cn x).
Proof. unfold cxs. now rewrite fold_left_app. Qed.
Lemma gates_sat a rows n D : 2 <= n -> wf n rows -> (forall w, a_bv a w < bv_width n) -> sat a (gates_query rows n D) ->
  cn_ok n (gate_pairs a D) /\ matA a rows n D = map (cxs (gate_pairs a D)) rows /\ length rows <= n /\ is_reduced n (length rows) (map (cxs (gate_pairs a D)) rows) = true.
Proof. intros N W B S. apply gates_formulas in S as (H1 & H2 & H3 & H4 & H5). pose proof (proj1 (column_addition_eval _ _ _ _ _) H1) as H1'. clear H1. rename H1' into H1.
  assert (R : forall d, d < D -> a_bv a (Ct d) < n /\ a_bv a (Tg d) < n).
  { intros d Hd. destruct (Nat.eq_dec (Nat.land n (n - 1)) 0) as [E|E]; [|apply H3; auto; lia]. apply land_pred_pow2 in E; auto. unfold bv_width in B. rewrite E. auto. }
  assert (K : cn_ok n (gate_pairs a D)).
  { apply Forall_map, Forall_forall. intros d Hd. apply in_seq in Hd. cbn [fst snd]. destruct (R d ltac:(lia)). split; auto. split; auto. apply H2. lia. }
  assert (E : forall d, d <= D -> matA a rows n d = map (cxs (gate_pairs a d)) rows).
  { induction d as [|d IH]; intros Hd; [rewrite matA_0 by auto; cbn; symmetry; apply map_id|]. destruct (R d Hd) as [Rc Rt]. pose proof (H2 d Hd) as NE.
    unfold gate_pairs. rewrite seq_S, map_app. cbn [map]. rewrite Nat.add_0_l. fold (gate_pairs a d). rewrite (map_ext _ (fun x => cxv (a_bv a (Ct d)) (a_bv a (Tg d)) (cxs (gate_pairs a d) x))) by (intros x; now rewrite cxs_snoc).
    rewrite <- map_map with (f := cxs (gate_pairs a d)) (g := cxv (a_bv a (Ct d)) (a_bv a (Tg d))). rewrite <- IH by lia. fold (coladd (a_bv a (Ct d)) (a_bv a (Tg d)) (matA a rows n d)).
    apply (mat_cols_ext n); [apply matA_wf|apply coladd_wf, matA_wf|unfold coladd; now rewrite map_length, !matA_length|].
    intros j Hj. rewrite (col_coladd n) by (auto; apply matA_wf). destruct (Nat.eqb_spec j (a_bv a (Tg d))) as [->|Nj]; [|apply H4; auto].
    apply (H1 d (a_bv a (Ct d)) (a_bv a (Tg d))); auto. cbn [eval forallb]. now rewrite !Nat.eqb_refl. }
  split; auto. split; [apply E; auto|]. rewrite <- E by auto. now apply final_eval. Qed.

(** conversely, a sequence of additions gives a model *)
Definition gates_asg (rows : mat) (cn : list (nat * nat)) : asg cv gw :=
  mkAsg (fun v => match v with Xc d i j => nth j (cxs (firstn d cn) (nth i rows [])) false | Ad _ _ _ => false end)
        (fun w => match w with Ct d => fst (nth d cn (0, 0)) | Tg d => snd (nth d cn (0, 0)) end).
Lemma matA_of rows n a (f : nat -> vec -> vec) : (forall d i j, seval a (ent rows d i j) = nth j (f d (nth i rows [])) false) -> (forall d x, length (f d x) = length x) -> wf n rows ->
  forall d, matA a rows n d = map (f d) rows.
Proof. intros H L W d. apply (nth_ext _ _ [] []); [now rewrite matA_length, map_length|]. intros i Hi. rewrite matA_length in Hi. unfold matA. rewrite (nth_map_seq (length rows)) by auto.
  assert (Li : length (nth i rows []) = n) by (apply (wf_in n rows); auto; now apply nth_In).
  rewrite (nth_indep _ [] (f d [])) by now rewrite map_length. rewrite map_nth. apply (vec_ext n); [now rewrite map_length, seq_length|now rewrite L|]. intros j Hj. rewrite (nth_map_seq n) by auto. auto. Qed.
Lemma gates_asg_mat rows n cn : wf n rows -> forall d, matA (gates_asg rows cn) rows n d = map (cxs (firstn d cn)) rows.
Proof. intros W. apply (matA_of rows n (gates_asg rows cn) (fun d x => cxs (firstn d cn) x)); auto; [|intros; apply cxs_length]. intros [|d] i j; reflexivity. Qed.
Lemma firstn_S_nth {A} (l : list A) d x : d < length l -> firstn (S d) l = firstn d l ++ [nth d l x].
Proof. revert d; induction l as [|h l IH]; intros [|d] H; cbn in *; try lia; auto. f_equal. apply IH. lia. Qed.
Lemma gates_complete rows n cn : 2 <= n -> wf n rows -> cn_ok n cn -> length rows <= n -> is_reduced n (length rows) (map (cxs cn) rows) = true ->
  (forall w, a_bv (gates_asg rows cn) w < bv_width n) /\ sat (gates_asg rows cn) (gates_query rows n (length cn)).
Proof. intros N W K L R. pose proof (width_ge n) as WG.
  assert (B : forall d, fst (nth d cn (0, 0)) < n /\ snd (nth d cn (0, 0)) < n /\ (d < length cn -> fst (nth d cn (0, 0)) <> snd (nth d cn (0, 0)))).
  { intros d. destruct (Nat.lt_ge_cases d (length cn)) as [Hd|Hd].
    - pose proof (proj1 (Forall_forall _ _) K _ (nth_In cn (0, 0) Hd)) as (A & B & C). auto.
    - rewrite nth_overflow by auto. cbn. split; [lia|]. split; lia. }
  split; [intros [d|d]; cbn [gates_asg a_bv]; destruct (B d) as (? & ? & _); lia|].
  assert (ST : forall d, d < length cn -> matA (gates_asg rows cn) rows n (S d) = coladd (fst (nth d cn (0, 0))) (snd (nth d cn (0, 0))) (matA (gates_asg rows cn) rows n d)).
  { intros d Hd. rewrite !gates_asg_mat by auto. rewrite (firstn_S_nth cn d (0, 0)) by auto. unfold coladd. rewrite map_map. apply map_ext. intros x. apply cxs_snoc. }
  apply gates_formulas. split; [|split; [|split; [|split]]].
  - apply column_addition_eval. intros d c t Hd Hc Ht NE E. cbn [eval forallb] in E. rewrite andb_true_r in E. apply andb_true_iff in E as [E1 E2]. apply Nat.eqb_eq in E1, E2. cbn [gates_asg a_bv] in E1, E2.
    rewrite ST by auto. rewrite E1, E2. rewrite !(col_coladd n) by (auto; apply matA_wf). rewrite Nat.eqb_refl. destruct (Nat.eqb_spec c t); [contradiction|]. auto.
  - intros d Hd. cbn [gates_asg a_bv]. now apply B.
  - intros _ _ _ d Hd. cbn [gates_asg a_bv]. destruct (B d) as (? & ? & _); auto.
  - intros d c Hd Hc NE. rewrite ST by auto. cbn [gates_asg a_bv] in NE. rewrite (col_coladd n) by (try apply matA_wf; apply B). destruct (Nat.eqb_spec c (snd (nth d cn (0, 0)))); [congruence|auto].
  - apply final_eval. split; auto. rewrite gates_asg_mat, firstn_all by auto. auto. Qed.
