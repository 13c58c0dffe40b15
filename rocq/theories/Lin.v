(** * Lin: vectors and matrices over GF(2) as boolean lists.
    Pure specification: nothing in this file models repository code.
    A vector is a [list bool], a matrix is the list of its rows.            *)
From Coq Require Export List Arith Bool Lia.
Export ListNotations.

Definition vec := list bool.
Definition mat := list vec.

(** component-wise XOR *)
Fixpoint vxor (a b : vec) : vec :=
  match a, b with
  | x :: a', y :: b' => xorb x y :: vxor a' b'
  | _, _ => []
  end.

Definition vzero (n : nat) : vec := repeat false n.

(** every row has length n *)
Definition wf (n : nat) (M : mat) : Prop := Forall (fun r => length r = n) M.

(** sum over GF(2) of the rows selected by c *)
Fixpoint lincomb (n : nat) (c : vec) (M : mat) : vec :=
  match c, M with
  | b :: c', r :: M' => if b then vxor r (lincomb n c' M') else lincomb n c' M'
  | _, _ => vzero n
  end.

(** v is a linear combination of the rows of M *)
Definition span (n : nat) (M : mat) (v : vec) : Prop :=
  exists c, length c = length M /\ lincomb n c M = v.

(** no nontrivial combination of the rows of M vanishes *)
Definition indep (n : nat) (M : mat) : Prop :=
  forall c, length c = length M -> lincomb n c M = vzero n -> c = vzero (length M).

(** B is a basis of the row space of M *)
Definition basis_of (n : nat) (B M : mat) : Prop :=
  wf n B /\ indep n B /\ forall v, span n B v <-> span n M v.

(** the rank (dimension of the row space) of M is r *)
Definition has_rank (n : nat) (M : mat) (r : nat) : Prop :=
  exists B, basis_of n B M /\ length B = r.

(** inner product over GF(2) *)
Fixpoint dot (a b : vec) : bool :=
  match a, b with
  | x :: a', y :: b' => xorb (x && y) (dot a' b')
  | _, _ => false
  end.

(** matrix-vector product *)
Definition mulMV (M : mat) (x : vec) : vec := map (fun r => dot r x) M.

(** Hamming weight *)
Fixpoint weight (v : vec) : nat :=
  match v with [] => 0 | b :: v' => (if b then 1 else 0) + weight v' end.

Definition col (M : mat) (j : nat) : vec := map (fun r => nth j r false) M.

(** transpose of a matrix with n columns *)
Definition transpose (n : nat) (M : mat) : mat := map (col M) (seq 0 n).

(** matrix product A * B^T: all inner products of rows *)
Definition mulABt (A B : mat) : mat := map (fun a => mulMV B a) A.

Definition orthogonal (A B : mat) : Prop :=
  forall a b, In a A -> In b B -> dot a b = false.

(** The matrix given by column supports (CSC format). *)
Definition supp_vec (m : nat) (supp : list nat) : vec := map (fun i => existsb (Nat.eqb i) supp) (seq 0 m).
Definition csc_cols (m : nat) (csc : list (list nat)) : mat := map (supp_vec m) csc.
Definition csc_ok (m : nat) (csc : list (list nat)) : Prop := Forall (Forall (fun i => i < m)) csc.

(** ** Elementary facts *)

Lemma vxor_length a b : length a = length b -> length (vxor a b) = length a.
Proof. revert b; induction a as [|x a IH]; intros [|y b]; simpl; try discriminate; [reflexivity|].
  intros H; f_equal; apply IH; lia. Qed.

Lemma vxor_length' n a b : length a = n -> length b = n -> length (vxor a b) = n.
Proof. intros; rewrite vxor_length; lia. Qed.

Lemma vzero_length n : length (vzero n) = n.
Proof. apply repeat_length. Qed.

Lemma vxor_comm a b : vxor a b = vxor b a.
Proof. revert b; induction a as [|x a IH]; intros [|y b]; simpl; auto.
  rewrite xorb_comm, IH; auto. Qed.

Lemma vxor_assoc a b c : vxor a (vxor b c) = vxor (vxor a b) c.
Proof. revert b c; induction a as [|x a IH]; intros [|y b] [|z c]; simpl; auto.
  rewrite xorb_assoc, IH; auto. Qed.

Lemma vxor_zero_l n a : length a = n -> vxor (vzero n) a = a.
Proof. revert n; induction a as [|x a IH]; intros [|n]; simpl; auto; try discriminate.
  intros H; unfold vzero in *; simpl. rewrite IH by lia. destruct x; auto. Qed.

Lemma vxor_zero_r n a : length a = n -> vxor a (vzero n) = a.
Proof. intros; rewrite vxor_comm; now apply vxor_zero_l. Qed.

Lemma vxor_self a : vxor a a = vzero (length a).
Proof. induction a as [|x a IH]; simpl; auto. rewrite IH, xorb_nilpotent; auto. Qed.

Lemma vxor_self' n a : length a = n -> vxor a a = vzero n.
Proof. intros <-; apply vxor_self. Qed.

Lemma vxor_cancel_l n a b : length a = n -> length b = n -> vxor a (vxor a b) = b.
Proof. intros Ha Hb; rewrite vxor_assoc, (vxor_self' n) by auto; now apply vxor_zero_l. Qed.

Lemma vxor_eq_zero n a b : length a = n -> length b = n -> vxor a b = vzero n -> a = b.
Proof. intros Ha Hb H. rewrite <- (vxor_cancel_l n b a) by auto.
  rewrite (vxor_comm b a), H. rewrite vxor_zero_r; auto. Qed.

Lemma vxor_swap4 a b c d : vxor (vxor a b) (vxor c d) = vxor (vxor a c) (vxor b d).
Proof. rewrite !vxor_assoc. f_equal. rewrite <- !vxor_assoc. f_equal. apply vxor_comm. Qed.

Lemma nth_vxor a b i : length a = length b -> nth i (vxor a b) false = xorb (nth i a false) (nth i b false).
Proof. revert b i; induction a as [|x a IH]; intros [|y b] i; simpl; try discriminate.
  - intros _; destruct i; auto.
  - intros H; destruct i; [reflexivity|]. apply IH; lia. Qed.

Lemma nth_vzero n i : nth i (vzero n) false = false.
Proof. unfold vzero; revert i; induction n; intros [|i]; simpl; auto. Qed.

Lemma vec_ext n (a b : vec) : length a = n -> length b = n ->
  (forall i, i < n -> nth i a false = nth i b false) -> a = b.
Proof. intros Ha Hb H. apply nth_ext with (d:=false) (d':=false); [lia|].
  intros i Hi; apply H; lia. Qed.

Lemma vzero_S n : vzero (S n) = false :: vzero n.
Proof. reflexivity. Qed.

Lemma vzero_app n m : vzero (n + m) = vzero n ++ vzero m.
Proof. apply repeat_app. Qed.

Lemma vxor_app a b c d : length a = length c -> vxor (a ++ b) (c ++ d) = vxor a c ++ vxor b d.
Proof. revert c; induction a as [|x a IH]; intros [|y c]; simpl; try discriminate; auto.
  intros H; rewrite IH; auto. Qed.

Definition vec_eq_dec (a b : vec) : {a = b} + {a <> b} := list_eq_dec bool_dec a b.

Fixpoint veqb (a b : vec) : bool :=
  match a, b with
  | [], [] => true
  | x :: a', y :: b' => eqb x y && veqb a' b'
  | _, _ => false
  end.

Lemma veqb_eq a b : veqb a b = true <-> a = b.
Proof. revert b; induction a as [|x a IH]; intros [|y b]; simpl; split; try discriminate; auto.
  - intros H; apply andb_true_iff in H as [H1 H2]. apply eqb_prop in H1; apply IH in H2; congruence.
  - intros H; inversion H; subst. rewrite eqb_reflx; simpl; now apply IH. Qed.

(** ** dot *)
Lemma dot_comm a b : dot a b = dot b a.
Proof. revert b; induction a as [|x a IH]; intros [|y b]; simpl; auto. rewrite IH, andb_comm; auto. Qed.

Lemma dot_vxor_l a b c : length a = length b -> dot (vxor a b) c = xorb (dot a c) (dot b c).
Proof. revert b c; induction a as [|x a IH]; intros [|y b] [|z c]; simpl; try discriminate; auto.
  intros H; rewrite IH by lia. destruct x, y, z, (dot a c), (dot b c); reflexivity. Qed.

Lemma dot_vxor_r a b c : length b = length c -> dot a (vxor b c) = xorb (dot a b) (dot a c).
Proof. intros; rewrite dot_comm, dot_vxor_l by auto. now rewrite (dot_comm b), (dot_comm c). Qed.

Lemma dot_zero_l n a : dot (vzero n) a = false.
Proof. revert a; induction n as [|n IH]; intros [|x a]; simpl; auto. unfold vzero in IH; rewrite IH; auto. Qed.

Lemma dot_zero_r n a : dot a (vzero n) = false.
Proof. rewrite dot_comm; apply dot_zero_l. Qed.

Lemma dot_app a b c d : length a = length c -> dot (a ++ b) (c ++ d) = xorb (dot a c) (dot b d).
Proof. revert c; induction a as [|x a IH]; intros [|y c]; simpl; try discriminate; auto.
  - intros _. destruct (dot b d); auto.
  - intros H; rewrite IH by lia. now rewrite xorb_assoc. Qed.

(** unit vectors *)
Definition unitv (n i : nat) : vec := map (fun j => j =? i) (seq 0 n).

Lemma unitv_length n i : length (unitv n i) = n.
Proof. unfold unitv; now rewrite map_length, seq_length. Qed.

Lemma nth_unitv n i j : j < n -> nth j (unitv n i) false = (j =? i).
Proof. intros H. unfold unitv. rewrite nth_indep with (d' := (fun j => j =? i) 0) by (rewrite map_length, seq_length; auto).
  rewrite (map_nth (fun j => j =? i)), seq_nth by auto. reflexivity. Qed.

Lemma dot_map_seq_none f (a : vec) s : (forall j, s <= j -> j < s + length a -> f j = false) ->
  dot a (map f (seq s (length a))) = false.
Proof. revert s; induction a as [|x a IH]; simpl; intros s H; auto.
  rewrite H by lia. rewrite andb_false_r, xorb_false_l. apply IH. intros j H1 H2; apply H; lia. Qed.

Lemma dot_unitv_r n a i : length a = n -> i < n -> dot a (unitv n i) = nth i a false.
Proof.
  unfold unitv. intros Hl Hi. 
  assert (G : forall a s i, i < length a -> dot a (map (fun j => j =? s + i) (seq s (length a))) = nth i a false).
  { clear. induction a as [|x a IH]; simpl; intros s i Hi; [lia|]. destruct i.
    - replace (s =? s + 0) with true by (symmetry; apply Nat.eqb_eq; lia).
      rewrite andb_true_r. replace (dot a _) with false.
      + destruct x; auto.
      + symmetry. apply dot_map_seq_none.
        intros j H1 H2. apply Nat.eqb_neq; lia.
    - replace (s =? s + S i) with false by (symmetry; apply Nat.eqb_neq; lia).
      rewrite andb_false_r. simpl. rewrite <- (IH (S s) i) by lia.
      replace (S s + i) with (s + S i) by lia.
      destruct (dot _ _); auto. }
  subst n. rewrite <- (G a 0 i) by auto. reflexivity. Qed.

Lemma dot_unitv_l n a i : length a = n -> i < n -> dot (unitv n i) a = nth i a false.
Proof. intros; rewrite dot_comm; now apply dot_unitv_r. Qed.

(** a vector orthogonal to every unit vector is zero *)
Lemma dot_all_zero n v : length v = n -> (forall x, length x = n -> dot v x = false) -> v = vzero n.
Proof. intros Hl H. apply (vec_ext n); auto using vzero_length. intros i Hi.
  rewrite nth_vzero, <- (dot_unitv_r n) by auto. apply H, unitv_length. Qed.

(** ** linear combinations *)
Lemma lincomb_length n c M : wf n M -> length (lincomb n c M) = n.
Proof. intros H; revert c; induction H as [|r M Hr HM IH]; intros [|b c]; simpl; auto using vzero_length.
  destruct b; auto. apply vxor_length'; auto. Qed.

Lemma lincomb_vxor n c d M : wf n M -> length c = length M -> length d = length M ->
  lincomb n (vxor c d) M = vxor (lincomb n c M) (lincomb n d M).
Proof. intros H; revert c d; induction H as [|r M Hr HM IH]; intros [|b c] [|b' d]; simpl; try discriminate; intros.
  - now rewrite (vxor_zero_l n) by apply vzero_length.
  - rewrite IH by lia. pose proof (lincomb_length n c M HM). pose proof (lincomb_length n d M HM).
    destruct b, b'; simpl; auto.
    + rewrite vxor_swap4, (vxor_self' n r), (vxor_zero_l n); auto. apply vxor_length'; auto.
    + now rewrite vxor_assoc.
    + rewrite !vxor_assoc. f_equal. apply vxor_comm. Qed.

Lemma lincomb_zero n k M : lincomb n (vzero k) M = vzero n.
Proof. revert k; induction M as [|r M IH]; intros [|k]; simpl; auto. Qed.

Lemma lincomb_app n c d A B : wf n B -> wf n A -> length c = length A ->
  lincomb n (c ++ d) (A ++ B) = vxor (lincomb n c A) (lincomb n d B).
Proof. intros HB HA; revert c; induction HA as [|r A Hr HA IH]; intros [|b c]; simpl; try discriminate; intros.
  - rewrite (vxor_zero_l n); auto using lincomb_length.
  - rewrite IH by lia. destruct b; auto. now rewrite vxor_assoc. Qed.

Lemma dot_lincomb n c M v : wf n M -> length c = length M -> dot (lincomb n c M) v = dot c (mulMV M v).
Proof. intros H; revert c; induction H as [|r M Hr HM IH]; intros [|b c]; simpl; try discriminate; intros.
  - apply dot_zero_l.
  - destruct b; simpl.
    + rewrite dot_vxor_l by (rewrite lincomb_length; auto). rewrite IH by lia. reflexivity.
    + rewrite IH by lia. destruct (dot c _); auto. Qed.

Lemma nth_lincomb n c M j : wf n M -> length c = length M -> j < n ->
  nth j (lincomb n c M) false = dot c (col M j).
Proof. intros H Hc Hj.
  rewrite <- (dot_unitv_r n) by auto using lincomb_length.
  rewrite dot_lincomb by auto. f_equal. unfold mulMV, col. apply map_ext_in.
  intros r Hr. apply dot_unitv_r; auto. eapply Forall_forall in H; eauto. Qed.

(** ** span *)
Lemma span_length n M v : wf n M -> span n M v -> length v = n.
Proof. intros H (c & Hc & <-). now apply lincomb_length. Qed.

Lemma span_zero n M : span n M (vzero n).
Proof. exists (vzero (length M)). split; [apply vzero_length | apply lincomb_zero]. Qed.

Lemma span_vxor n M u v : wf n M -> span n M u -> span n M v -> span n M (vxor u v).
Proof. intros H (c & Hc & <-) (d & Hd & <-). exists (vxor c d). split.
  - now apply vxor_length'.
  - now apply lincomb_vxor. Qed.

Lemma span_cons n r M v : span n M v -> span n (r :: M) v.
Proof. intros (c & Hc & <-). exists (false :: c). simpl; auto. Qed.

Lemma span_in n M v : wf n M -> In v M -> span n M v.
Proof. intros H; induction H as [|r M Hr HM IH]; simpl; [tauto|]. intros [->|Hin].
  - exists (true :: vzero (length M)). simpl. rewrite vzero_length, lincomb_zero, vxor_zero_r; auto.
  - apply span_cons; auto. Qed.

Lemma wf_in n M r : wf n M -> In r M -> length r = n.
Proof. intros H Hr; eapply Forall_forall in H; eauto. Qed.

Lemma wf_app n A B : wf n (A ++ B) <-> wf n A /\ wf n B.
Proof. apply Forall_app. Qed.

Lemma wf_cons n r A : wf n (r :: A) <-> length r = n /\ wf n A.
Proof. split; [intros H; inversion H; auto | intros []; constructor; auto]. Qed.

(** anything closed under xor that contains zero and all rows contains the span *)
Lemma span_ind n M (P : vec -> Prop) : wf n M -> P (vzero n) ->
  (forall r v, In r M -> length v = n -> P v -> P (vxor r v)) -> forall v, span n M v -> P v.
Proof. intros Hwf H0 Hs v (c & Hc & <-). revert c Hc.
  induction Hwf as [|r M Hr HM IH]; intros [|b c]; simpl; try discriminate; auto. intros Hc.
  destruct b.
  - apply Hs; [now left | now apply lincomb_length |]. apply IH; auto. intros; apply Hs; auto. now right.
  - apply IH; auto. intros; apply Hs; auto. now right. Qed.

Lemma span_incl n A B v : wf n A -> wf n B -> (forall r, In r A -> span n B r) -> span n A v -> span n B v.
Proof. intros HA HB H. apply span_ind; auto using span_zero. intros r w Hr Hw Hs.
  apply span_vxor; auto. Qed.

Lemma span_incl_in n A B v : wf n A -> wf n B -> incl A B -> span n A v -> span n B v.
Proof. intros HA HB H. apply span_incl; auto. intros r Hr; apply span_in; auto. Qed.

Lemma span_app_l n A B v : wf n A -> wf n B -> span n A v -> span n (A ++ B) v.
Proof. intros HA HB. apply span_incl_in; auto. - apply wf_app; auto. - apply incl_appl, incl_refl. Qed.

Lemma span_app_r n A B v : wf n A -> wf n B -> span n B v -> span n (A ++ B) v.
Proof. intros HA HB. apply span_incl_in; auto. - apply wf_app; auto. - apply incl_appr, incl_refl. Qed.

Lemma span_cons_iff n r M v : wf n M -> length r = n ->
  (span n (r :: M) v <-> span n M v \/ (length v = n /\ span n M (vxor r v))).
Proof. intros HM Hr. split.
  - intros ([|b c] & Hc & <-); simpl in *; try discriminate. destruct b.
    + right. split; [apply vxor_length'; auto; now apply lincomb_length|].
      rewrite (vxor_cancel_l n); auto using lincomb_length. exists c; auto.
    + left; exists c; auto.
  - intros [H|[Hl H]].
    + now apply span_cons.
    + destruct H as (c & Hc & E). exists (true :: c). simpl. rewrite E, (vxor_cancel_l n); auto. Qed.

Lemma span_app_iff n A B v : wf n A -> wf n B ->
  (span n (A ++ B) v <-> exists a b, span n A a /\ span n B b /\ v = vxor a b).
Proof. intros HA HB; split.
  - intros (c & Hc & <-). rewrite app_length in Hc.
    exists (lincomb n (firstn (length A) c) A), (lincomb n (skipn (length A) c) B).
    assert (length (firstn (length A) c) = length A) by (rewrite firstn_length; lia).
    assert (length (skipn (length A) c) = length B) by (rewrite skipn_length; lia).
    split; [eexists; split; [|reflexivity]; auto|]. split; [eexists; split; [|reflexivity]; auto|].
    rewrite <- lincomb_app by auto. now rewrite firstn_skipn.
  - intros (a & b & Ha & Hb & ->). apply span_vxor; [apply wf_app; auto| |].
    + now apply span_app_l.
    + now apply span_app_r. Qed.

Lemma span_perm n A B v : wf n A -> wf n B -> (forall r, In r A <-> In r B) -> span n A v <-> span n B v.
Proof. intros HA HB H. split; apply span_incl_in; auto; intros r; apply H. Qed.

Fixpoint all_vecs (n : nat) : list vec :=
  match n with
  | 0 => [[]]
  | S k => flat_map (fun v => [false :: v; true :: v]) (all_vecs k)
  end.

Lemma all_vecs_in n v : length v = n <-> In v (all_vecs n).
Proof. revert v; induction n as [|n IH]; intros v; simpl.
  - split; [destruct v; simpl; auto; discriminate | intros [<-|[]]; auto].
  - rewrite in_flat_map. split.
    + destruct v as [|b v]; simpl; [discriminate|]. intros H. exists v. rewrite <- IH. split; [lia|].
      destruct b; auto.
    + intros (w & Hw & H). apply IH in Hw. simpl in H. destruct H as [<-|[<-|[]]]; simpl; lia. Qed.

(** membership in the span is decidable *)
Definition span_dec n M v : {span n M v} + {~ span n M v}.
Proof.
  destruct (existsb (fun c => veqb (lincomb n c M) v) (all_vecs (length M))) eqn:E.
  - left. apply existsb_exists in E as (c & Hc & E). apply all_vecs_in in Hc. apply veqb_eq in E.
    exists c; auto.
  - right. intros (c & Hc & Hv). apply all_vecs_in in Hc.
    assert (existsb (fun c => veqb (lincomb n c M) v) (all_vecs (length M)) = true) by
      (apply existsb_exists; exists c; split; auto; now apply veqb_eq). congruence.
Defined.

(** ** independence *)
Lemma indep_nil n : indep n [].
Proof. intros [|] ; simpl; auto; discriminate. Qed.

Lemma indep_cons n r M : wf n M -> length r = n -> (indep n (r :: M) <-> indep n M /\ ~ span n M r).
Proof. intros HM Hr. split.
  - intros H. split.
    + intros c Hc E. specialize (H (false :: c)). simpl in H. rewrite Hc in H. specialize (H eq_refl E).
      injection H; auto.
    + intros (c & Hc & E). specialize (H (true :: c)). simpl in H. rewrite E, (vxor_self' n) in H by auto.
      specialize (H (f_equal S Hc) eq_refl). discriminate.
  - intros [HI Hn] [|b c] Hc E; simpl in *; [discriminate|]. destruct b.
    + exfalso. apply Hn. exists c. split; [lia|]. symmetry. eapply vxor_eq_zero; eauto using lincomb_length.
    + rewrite vzero_S. f_equal. apply HI; auto. Qed.

Lemma indep_app_comm_in n A B : wf n A -> wf n B -> indep n (A ++ B) -> indep n (B ++ A).
Proof. intros HA HB H c Hc E. rewrite app_length in *.
  assert (L1 : length (firstn (length B) c) = length B) by (rewrite firstn_length; lia).
  assert (L2 : length (skipn (length B) c) = length A) by (rewrite skipn_length; lia).
  rewrite <- (firstn_skipn (length B) c) in E. rewrite lincomb_app in E by auto.
  rewrite vxor_comm, <- lincomb_app in E by auto.
  apply H in E; [|rewrite !app_length; lia]. rewrite app_length, vzero_app in E.
  assert (E1 : firstn (length A) (skipn (length B) c ++ firstn (length B) c) = firstn (length A) (vzero (length A) ++ vzero (length B))) by now rewrite E.
  assert (E2 : skipn (length A) (skipn (length B) c ++ firstn (length B) c) = skipn (length A) (vzero (length A) ++ vzero (length B))) by now rewrite E.
  rewrite !firstn_app in E1. rewrite !skipn_app in E2.
  rewrite L2, vzero_length, Nat.sub_diag in E1, E2. simpl in E1, E2.
  rewrite firstn_all2 in E1 by lia. rewrite firstn_all2 in E1 by (rewrite vzero_length; lia). 
  rewrite skipn_all2 in E2 by lia. rewrite skipn_all2 in E2 by (rewrite vzero_length; lia).
  rewrite !app_nil_r in E1. simpl in E2.
  rewrite <- (firstn_skipn (length B) c), E1, E2. now rewrite <- vzero_app. Qed.

Lemma indep_app_l n A B : wf n A -> wf n B -> indep n (A ++ B) -> indep n A.
Proof. intros HA HB H c Hc E. specialize (H (c ++ vzero (length B))).
  rewrite lincomb_app, lincomb_zero, E, vxor_zero_l in H by auto using vzero_length.
  rewrite !app_length, vzero_length, vzero_app in H. specialize (H ltac:(lia) eq_refl).
  apply app_inv_tail in H; auto. Qed.

Lemma indep_app_r n A B : wf n A -> wf n B -> indep n (A ++ B) -> indep n B.
Proof. intros HA HB H. apply indep_app_comm_in in H; auto. exact (indep_app_l n B A HB HA H). Qed.

(** trivial intersection of spans of an independent concatenation *)
Lemma indep_app_disjoint n A B v : wf n A -> wf n B -> indep n (A ++ B) -> span n A v -> span n B v -> v = vzero n.
Proof. intros HA HB H (c & Hc & Ec) (d & Hd & Ed). 
  assert (E : lincomb n (c ++ d) (A ++ B) = vzero n).
  { rewrite lincomb_app by auto. rewrite Ec, Ed. apply vxor_self'. subst v; now apply lincomb_length. }
  apply H in E; [|rewrite !app_length; lia]. rewrite app_length, vzero_app in E.
  assert (c = vzero (length A)).
  { assert (X : firstn (length A) (c ++ d) = firstn (length A) (vzero (length A) ++ vzero (length B))) by now rewrite E.
    rewrite !firstn_app, Hc, vzero_length, Nat.sub_diag in X. simpl in X. rewrite !app_nil_r in X.
    rewrite firstn_all2 in X by lia. rewrite firstn_all2 in X by (rewrite vzero_length; lia). auto. }
  subst. apply lincomb_zero. Qed.

(** Steinitz: independent vectors inside a span are at most as many as the spanning vectors. *)
Lemma steinitz_split n s S (B : mat) : wf n (s :: S) -> wf n B -> (forall b, In b B -> span n (s :: S) b) ->
  (forall b, In b B -> span n S b) \/
  exists B1 b B2, B = B1 ++ b :: B2 /\ length b = n /\ span n S (vxor s b).
Proof. intros HS HB. apply wf_cons in HS as [Hs HS]. induction HB as [|b B Hb HB IH]; intros H.
  - left; simpl; tauto.
  - assert (Hb' : span n (s :: S) b) by (apply H; now left).
    apply span_cons_iff in Hb'; auto. destruct Hb' as [Hb'|[_ Hb']].
    + destruct IH as [IH|(B1 & b' & B2 & -> & E1 & E2)].
      * intros; apply H; now right.
      * left. intros x [<-|Hx]; auto.
      * right. exists (b :: B1), b', B2; auto.
    + right. exists [], b, B. auto. Qed.

Lemma lincomb_map_add n (f : vec -> bool) p c B : wf n B -> length p = n -> length c = length B ->
  exists e, lincomb n c (map (fun b => if f b then vxor b p else b) B) = 
     if e : bool then vxor (lincomb n c B) p else lincomb n c B.
Proof. intros HB Hp; revert c; induction HB as [|r B Hr HB IH]; intros [|a c]; simpl; intros Hc; try discriminate.
  - exists false; auto.
  - destruct (IH c) as [e He]; [lia|]. pose proof (lincomb_length n c B HB).
    destruct a; [|exists e; auto]. rewrite He. destruct (f r), e.
    + exists false. rewrite (vxor_comm (lincomb n c B) p), <- vxor_assoc, (vxor_cancel_l n); auto.
    + exists true. rewrite <- !vxor_assoc, (vxor_comm p). reflexivity.
    + exists true. now rewrite vxor_assoc.
    + exists false. reflexivity. Qed.

Lemma indep_add_pivot n (f : vec -> bool) p B : wf n B -> length p = n -> indep n (p :: B) ->
  indep n (map (fun b => if f b then vxor b p else b) B).
Proof. intros HB Hp H c Hc E. rewrite map_length in *.
  destruct (lincomb_map_add n f p c B HB Hp Hc) as [e He]. rewrite He in E.
  specialize (H (e :: c)). simpl in H. destruct e.
  - rewrite (vxor_comm p) in H. specialize (H (f_equal S Hc) E). discriminate.
  - specialize (H (f_equal S Hc) E). injection H; auto. Qed.

Lemma steinitz n S B : wf n S -> wf n B -> indep n B -> (forall b, In b B -> span n S b) -> length B <= length S.
Proof. revert B; induction S as [|s S IH]; intros B HS HB HI Hsub.
  - destruct B as [|b B]; simpl; auto. exfalso.
    destruct (Hsub b) as (c & Hc & E); [now left|]. destruct c; simpl in *; try discriminate.
    specialize (HI (true :: vzero (length B))). simpl in HI.
    rewrite lincomb_zero, <- E, vxor_zero_l, vzero_length in HI by apply vzero_length.
    specialize (HI eq_refl eq_refl). discriminate.
  - destruct (steinitz_split n s S B HS HB Hsub) as [H|(B1 & p & B2 & -> & Hp & Hsp)].
    + apply wf_cons in HS as [_ HS]. simpl. specialize (IH B HS HB HI H). lia.
    + apply wf_cons in HS as [Hs HS].
      apply wf_app in HB as [HB1 HB2]. apply wf_cons in HB2 as [_ HB2].
      set (B' := B2 ++ B1).
      assert (HB' : wf n B') by (apply wf_app; auto).
      assert (HIp : indep n (p :: B')).
      { exact (indep_app_comm_in n B1 (p :: B2) HB1 (proj2 (wf_cons n p B2) (conj Hp HB2)) HI). }
      set (f := fun b => if span_dec n S b then false else true).
      set (B'' := map (fun b => if f b then vxor b p else b) B').
      assert (length B'' = length B1 + length B2) by (unfold B'', B'; rewrite map_length, app_length; lia).
      rewrite app_length. simpl.
      enough (length B'' <= length S) by lia.
      apply IH; auto.
      * unfold B''. apply Forall_map. eapply Forall_impl; [|exact HB']. simpl. intros b Hb. destruct (f b); auto.
        apply vxor_length'; auto.
      * apply indep_add_pivot; auto.
      * intros x Hx. unfold B'' in Hx. apply in_map_iff in Hx as (b & <- & Hb). unfold f.
        destruct (span_dec n S b); auto.
        assert (Hin : span n (s :: S) b).
        { apply Hsub. unfold B' in Hb. apply in_app_iff in Hb. apply in_app_iff; simpl; tauto. }
        apply span_cons_iff in Hin; auto. destruct Hin as [|[Hb' Hin]]; [tauto|].
        replace (vxor b p) with (vxor (vxor s b) (vxor s p)).
        { apply span_vxor; auto. }
        rewrite vxor_swap4, (vxor_self' n), (vxor_zero_l n); auto. apply vxor_length'; auto. Qed.

Lemma has_rank_unique n M r s : wf n M -> has_rank n M r -> has_rank n M s -> r = s.
Proof. intros HM (B & (HB & HI & HS) & <-) (C & (HC & HJ & HT) & <-).
  apply Nat.le_antisymm; apply (steinitz n); auto; intros b Hb.
  - apply HT, HS, span_in; auto.
  - apply HS, HT, span_in; auto. Qed.

Lemma has_rank_exists n M : wf n M -> exists r, has_rank n M r.
Proof. intros H; induction H as [|v M Hr HM IH].
  - exists 0, []. repeat split; auto using indep_nil; constructor.
  - destruct IH as (r & B & (HB & HI & HS) & <-). destruct (span_dec n M v).
    + exists (length B), B. repeat split; auto; intros H.
      * apply span_cons, HS; auto.
      * apply HS. apply span_cons_iff in H; auto. destruct H as [|[Hl H]]; auto.
        rewrite <- (vxor_cancel_l n v v0) by auto. apply span_vxor; auto.
    + exists (S (length B)), (v :: B). split; [split; [|split]|]; simpl; auto.
      * constructor; auto.
      * apply indep_cons; auto. split; auto. rewrite HS; auto.
      * intros w. rewrite !span_cons_iff, !HS by auto. reflexivity. Qed.

Lemma has_rank_le n A B r s : wf n A -> wf n B -> (forall v, In v A -> span n B v) ->
  has_rank n A r -> has_rank n B s -> r <= s.
Proof. intros HA HB Hin (C & (HC & HI & HS) & <-) (D & (HD & HJ & HT) & <-).
  apply (steinitz n); auto. intros b Hb. apply HT. apply (span_incl n A); auto. apply HS, span_in; auto. Qed.

Lemma has_rank_span n A B r : (forall v, span n A v <-> span n B v) -> has_rank n A r <-> has_rank n B r.
Proof. intros H. unfold has_rank, basis_of. split; intros (C & (HC & HI & HS) & E); exists C; repeat split; auto; intros HX.
  - apply H, HS; auto. - apply HS, H; auto. - apply H, HS; auto. - apply HS, H; auto. Qed.

(** an independent family of the dimension's size inside the span spans it *)
Lemma indep_full_span n M r C : wf n M -> has_rank n M r -> wf n C -> indep n C -> length C = r ->
  (forall c, In c C -> span n M c) -> forall v, span n M v <-> span n C v.
Proof. intros HM (B & (HB & HI & HS) & <-) HC HJ HL Hin v. split; [|apply span_incl; auto].
  intros Hv. destruct (span_dec n C v) as [|Hn]; auto. exfalso.
  assert (indep n (v :: C)) by (apply indep_cons; eauto using span_length).
  assert (length (v :: C) <= length B); [|simpl in *; lia].
  apply (steinitz n); auto.
  - constructor; eauto using span_length.
  - intros b [<-|Hb]; apply HS; auto. Qed.

Lemma has_rank_eq_span n A B r : wf n A -> wf n B -> (forall v, In v A -> span n B v) ->
  has_rank n A r -> has_rank n B r -> forall v, span n A v <-> span n B v.
Proof. intros HA HB Hin (C & (HC & HI & HS) & HL) HBr v.
  rewrite (indep_full_span n B r C HB HBr HC HI HL).
  - rewrite HS; tauto.
  - intros c Hc. apply (span_incl n A); auto. apply HS, span_in; auto. Qed.

Lemma has_rank_indep n B : wf n B -> indep n B -> has_rank n B (length B).
Proof. intros; exists B; repeat split; auto. Qed.

Lemma has_rank_le_rows n M r : wf n M -> has_rank n M r -> r <= length M.
Proof. intros HM (B & (HB & HI & HS) & <-). apply (steinitz n); auto. intros b Hb; apply HS, span_in; auto. Qed.

Lemma has_rank_indep_iff n M : wf n M -> (has_rank n M (length M) <-> indep n M).
Proof. intros HM; split; [|apply has_rank_indep; auto]. induction HM as [|r M Hr HM IH].
  - intros; apply indep_nil.
  - intros H. apply indep_cons; auto. destruct (has_rank_exists n M HM) as [k Hk].
    assert (k <= length M) by eauto using has_rank_le_rows.
    destruct (span_dec n M r) as [Hs|Hs].
    + exfalso. assert (has_rank n (r :: M) k).
      { eapply has_rank_span; [|exact Hk]. intros v. rewrite span_cons_iff by auto. split; [|tauto].
        intros [|[Hl H']]; auto. rewrite <- (vxor_cancel_l n r v) by auto. apply span_vxor; auto. }
      assert (k = S (length M)) by (eapply has_rank_unique with (M := r :: M); eauto; constructor; auto). lia.
    + split; auto. apply IH. destruct Hk as (B & (HB & HI & HS) & HL).
      assert (has_rank n (r :: M) (S k)).
      { exists (r :: B). split; [split; [|split]|]; simpl; auto.
        - constructor; auto. - apply indep_cons; auto. split; auto. rewrite HS; auto.
        - intros w. rewrite !span_cons_iff, !HS by auto. reflexivity. }
      assert (S k = S (length M)) by (eapply has_rank_unique with (M := r :: M); eauto; constructor; auto).
      exists B. split; [split; auto | injection H2 as H2; rewrite HL; exact H2]. Qed.

(** rank change when adding a row at the end *)
Lemma has_rank_snoc n M v r s : wf n M -> length v = n -> has_rank n M r -> has_rank n (M ++ [v]) s ->
  (span n M v /\ s = r) \/ (~ span n M v /\ s = S r).
Proof. intros HM Hv Hr Hs.
  assert (HMv : wf n (M ++ [v])) by (apply wf_app; split; auto; constructor; auto).
  assert (HvM : wf n (v :: M)) by (constructor; auto).
  assert (HP : forall w, span n (M ++ [v]) w <-> span n (v :: M) w).
  { intros; apply span_perm; auto. intros; rewrite in_app_iff; simpl; tauto. }
  destruct (span_dec n M v) as [H|H].
  - left; split; auto. apply (has_rank_unique n (M ++ [v])); auto.
    eapply has_rank_span; [|exact Hr]. intros w. rewrite HP, span_cons_iff by auto. split; [|tauto].
    intros [|[Hl H']]; auto. rewrite <- (vxor_cancel_l n v w) by auto. apply span_vxor; auto.
  - right; split; auto. apply (has_rank_unique n (M ++ [v])); auto.
    destruct Hr as (B & (HB & HI & HS) & HL). exists (v :: B). split; [split; [|split]|]; simpl; auto.
    + constructor; auto.
    + apply indep_cons; auto. split; auto. rewrite HS; auto.
    + intros w. rewrite HP, !span_cons_iff, !HS by auto. reflexivity. Qed.

Lemma span_iff_rank n M v r : wf n M -> length v = n -> has_rank n M r ->
  (span n M v <-> has_rank n (M ++ [v]) r).
Proof. intros HM Hv Hr.
  assert (HMv : wf n (M ++ [v])) by (apply wf_app; split; auto; constructor; auto).
  destruct (has_rank_exists n _ HMv) as [s Hs].
  destruct (has_rank_snoc n M v r s HM Hv Hr Hs) as [[H ->]|[H ->]].
  - tauto.
  - split; [tauto|]. intros H'. exfalso. assert (r = S r) by (eapply has_rank_unique; eauto). lia. Qed.
