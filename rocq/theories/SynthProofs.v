(** * SynthProofs: what the models of the synthesis constraints are *)
From Verif Require Export SynthModel PrepProofs3 Z3Proofs.
Local Open Scope nat_scope.

Lemma nth_map_seq {A} n (f : nat -> A) i d : i < n -> nth i (map f (seq 0 n)) d = f i.
Proof. intros H. rewrite (nth_indep _ d (f 0)) by (rewrite map_length, seq_length; auto). rewrite (map_nth f (seq 0 n) 0 i). now rewrite seq_nth. Qed.
Lemma filter_map_len {A B} (f : A -> B) p l : length (filter p (map f l)) = length (filter (fun x => p (f x)) l).
Proof. induction l as [|x l IH]; auto. cbn. destruct (p (f x)); cbn; auto. Qed.
Lemma mat_cols_ext n A B : wf n A -> wf n B -> length A = length B -> (forall j, j < n -> col A j = col B j) -> A = B.
Proof. intros WA WB L H. unfold mat, vec in *. apply (nth_ext _ _ [] []); auto. intros i Hi. assert (Hi' : i < length B) by lia. apply (vec_ext n).
  - apply (wf_in n A); auto. now apply nth_In.
  - apply (wf_in n B); auto. apply nth_In. auto.
  - intros j Hj. rewrite <- (nth_col A) by auto. rewrite <- (nth_col B) by auto. now rewrite H. Qed.
Lemma cxs_wf n cn M : wf n M -> wf n (map (cxs cn) M).
Proof. intros W. apply Forall_map. eapply Forall_impl; [|exact W]. cbn. intros v Hv. now rewrite cxs_length. Qed.
Lemma coladd_wf n i j M : wf n M -> wf n (coladd i j M).
Proof. intros W. apply Forall_map. eapply Forall_impl; [|exact W]. cbn. intros v Hv. now rewrite cxv_length. Qed.

(** layers of additions on disjoint columns *)
Definition qubits (L : list (nat * nat)) : list nat := flat_map (fun p => [fst p; snd p]) L.
Lemma in_qubits L i j : In (i, j) L -> In i (qubits L) /\ In j (qubits L).
Proof. intros H. split; apply in_flat_map; exists (i, j); cbn; auto. Qed.
Lemma layer_col n L : NoDup (qubits L) -> cn_ok n L -> forall M, wf n M ->
  (forall i k, In (i, k) L -> col (map (cxs L) M) k = vxor (col M k) (col M i)) /\
  (forall k, (forall i, ~ In (i, k) L) -> col (map (cxs L) M) k = col M k).
Proof. induction L as [|[i j] L IH]; intros ND K M W.
  - split; [intros i k []|]. intros k _. cbn [cxs fold_left]. rewrite map_id. auto.
  - cbn [qubits flat_map fst snd app] in ND. fold (qubits L) in ND. apply NoDup_cons_iff in ND as [Ni ND]. apply NoDup_cons_iff in ND as [Nj ND].
    inversion K as [|? ? (Hi & Hj & N) K']; subst. cbn [fst snd] in *.
    assert (E : map (cxs ((i, j) :: L)) M = map (cxs L) (coladd i j M)) by (unfold coladd; now rewrite map_map).
    destruct (IH ND K' (coladd i j M) (coladd_wf n i j M W)) as [A B]. rewrite E. clear E. split.
    + intros i' k [H|H].
      * injection H as <- <-. rewrite B; [rewrite (col_coladd n) by auto; now rewrite Nat.eqb_refl|]. intros q Hq. apply Nj. now apply (in_qubits L q j).
      * rewrite (A i' k) by auto. destruct (in_qubits L i' k H) as [Q1 Q2]. rewrite !(col_coladd n) by auto.
        destruct (Nat.eqb_spec k j); [subst; contradiction|]. destruct (Nat.eqb_spec i' j); [subst; contradiction|]. auto.
    + intros k H. assert (k <> j) by (intros ->; apply (H i); left; auto). rewrite B by (intros q Hq; apply (H q); right; auto). rewrite (col_coladd n) by auto.
      destruct (Nat.eqb_spec k j); congruence. Qed.

(** ** the matrices of an assignment *)
Definition matA (a : asg cv gw) (rows : mat) (n d : nat) : mat := map (fun i => map (fun j => seval a (ent rows d i j)) (seq 0 n)) (seq 0 (length rows)).
Lemma matA_wf a rows n d : wf n (matA a rows n d).
Proof. apply Forall_map, Forall_forall. intros i _. now rewrite map_length, seq_length. Qed.
Lemma matA_length a rows n d : length (matA a rows n d) = length rows.
Proof. unfold matA. now rewrite map_length, seq_length. Qed.
Lemma matA_col a rows n d j : j < n -> col (matA a rows n d) j = evec a (colS rows d j).
Proof. intros Hj. unfold col, matA, colS, evec. rewrite !map_map. apply map_ext. intros i. now rewrite (nth_map_seq n). Qed.
Lemma matA_0 a rows n : wf n rows -> matA a rows n 0 = rows.
Proof. intros W. apply (nth_ext _ _ [] []); [apply matA_length|]. intros i Hi. rewrite matA_length in Hi. unfold matA. rewrite (nth_map_seq (length rows)) by auto. cbn [ent].
  assert (L : length (nth i rows []) = n) by (apply (wf_in n rows); auto; now apply nth_In). apply (vec_ext n); auto; [now rewrite map_length, seq_length|]. intros j Hj. rewrite (nth_map_seq n) by auto. reflexivity. Qed.
Lemma colS_length rows d j : length (colS rows d j) = length rows.
Proof. unfold colS. now rewrite map_length, seq_length. Qed.
Lemma veq_col a rows n d k M j : j < n -> k < n -> M = matA a rows n d -> forall d', eval a (symbolic_vector_eq (colS rows d' k) (colS rows d j)) = true <-> col (matA a rows n d') k = col M j.
Proof. intros Hj Hk -> d'. rewrite eq_eval by (now rewrite !colS_length). now rewrite !matA_col. Qed.

(** the column addition constraint *)
Lemma column_addition_eval a rows n D add : eval a (column_addition_constraint rows n D add) = true <->
  forall d c t, d < D -> c < n -> t < n -> c <> t -> eval a (add d c t) = true ->
    col (matA a rows n (S d)) t = vxor (col (matA a rows n d) t) (col (matA a rows n d) c) /\ col (matA a rows n (S d)) c = col (matA a rows n d) c.
Proof. unfold column_addition_constraint. cbn [eval]. rewrite forallb_forall. split.
  - intros H d c t Hd Hc Ht N E.
    assert (G : forall c1 c2, c1 < c2 -> c2 < n -> forall e, In e (let col_sum := symbolic_vector_add (colS rows (S d - 1) c1) (colS rows (S d - 1) c2) in
      [EImp (add (S d - 1) c1 c2) (EAnd [symbolic_vector_eq (colS rows (S d) c2) col_sum; symbolic_vector_eq (colS rows (S d) c1) (colS rows (S d - 1) c1)]);
       EImp (add (S d - 1) c2 c1) (EAnd [symbolic_vector_eq (colS rows (S d) c1) col_sum; symbolic_vector_eq (colS rows (S d) c2) (colS rows (S d - 1) c2)])]) -> eval a e = true).
    { intros c1 c2 L1 L2 e He. apply H. apply in_flat_map. exists (S d). split; [apply in_seq; lia|]. apply in_flat_map. exists c1. split; [apply in_seq; lia|]. apply in_flat_map. exists c2. split; [apply in_seq; lia|]. exact He. }
    cbv zeta in G. rewrite Nat.sub_succ, Nat.sub_0_r in G. rewrite !matA_col by auto.
    destruct (Nat.lt_trichotomy c t) as [L|[L|L]]; [|contradiction|].
    + specialize (G c t L Ht _ (or_introl eq_refl)). cbn [eval forallb] in G. rewrite E in G. cbn [implb] in G. rewrite andb_true_r in G. apply andb_true_iff in G as [G1 G2].
      apply eq_eval in G1; [|now rewrite add_length, !colS_length]. apply eq_eval in G2; [|now rewrite !colS_length]. rewrite add_eval in G1 by (now rewrite !colS_length). rewrite G1, G2. split; auto. apply vxor_comm.
    + specialize (G t c L Hc _ (or_intror (or_introl eq_refl))). cbn [eval forallb] in G. rewrite E in G. cbn [implb] in G. rewrite andb_true_r in G. apply andb_true_iff in G as [G1 G2].
      apply eq_eval in G1; [|now rewrite add_length, !colS_length]. apply eq_eval in G2; [|now rewrite !colS_length]. rewrite add_eval in G1 by (now rewrite !colS_length). rewrite G1, G2. split; auto.
  - intros H e He. apply in_flat_map in He as (d & Hd & He). apply in_flat_map in He as (c1 & Hc1 & He). apply in_flat_map in He as (c2 & Hc2 & He). apply in_seq in Hd, Hc1, Hc2.
    destruct d as [|d]; [lia|]. rewrite Nat.sub_succ, Nat.sub_0_r in He. cbv zeta in He. destruct He as [<-|[<-|[]]]; cbn [eval forallb]; apply implb_true_iff; intros E; rewrite andb_true_r; apply andb_true_iff.
    + destruct (H d c1 c2 ltac:(lia) ltac:(lia) ltac:(lia) ltac:(lia) E) as [H1 H2]. rewrite (matA_col a rows n (S d) c1), (matA_col a rows n (S d) c2), (matA_col a rows n d c1), (matA_col a rows n d c2) in * by lia. split; apply eq_eval; rewrite ?add_length, ?colS_length; auto.
      rewrite add_eval by (now rewrite !colS_length). rewrite H1. apply vxor_comm.
    + destruct (H d c2 c1 ltac:(lia) ltac:(lia) ltac:(lia) ltac:(lia) E) as [H1 H2]. rewrite (matA_col a rows n (S d) c1), (matA_col a rows n (S d) c2), (matA_col a rows n d c1), (matA_col a rows n d c2) in * by lia. split; apply eq_eval; rewrite ?add_length, ?colS_length; auto.
      rewrite add_eval by (now rewrite !colS_length). auto. Qed.

(** the final constraint counts zero columns *)
Lemma final_eval a rows n D : eval a (final_matrix_constraint rows n D) = true <-> length rows <= n /\ is_reduced n (length rows) (matA a rows n D) = true.
Proof. unfold final_matrix_constraint. destruct (Nat.ltb_spec n (length rows)) as [L|L]; [cbn [eval]; split; [discriminate|lia]|].
  assert (E : eval a (EPbEq (map (fun c => ENot (EOr (map (@toe cv gw) (colS rows D c)))) (seq 0 n)) (n - length rows)) = is_reduced n (length rows) (matA a rows n D)); [|rewrite E; tauto].
  cbn [eval]. unfold is_reduced. f_equal. rewrite filter_map_len. f_equal. apply filter_ext_in. intros c Hc. apply in_seq in Hc. cbn [eval]. unfold zero_col. rewrite matA_col by lia. unfold evec.
  unfold seval. induction (colS rows D c) as [|s l IH]; auto. cbn [map existsb forallb]. rewrite negb_orb, IH. auto. Qed.
