(** * PluProofs2: rank and luSolve theorems for the PLU model. *)
From Verif Require Import Lin2 PluModel PluProofs.

Definition final (m : nat) (csc : list (list nat)) (st : plu) : Prop :=
  exists d, d <= length csc /\ Inv m csc d st /\
  forall j, j < length csc -> supp_lt (matrixRank st) (rp st (supp_vec m (nth j csc []))).

Lemma supp_lt_all m c : length c = m -> supp_lt m c.
Proof. intros H j Hj. apply nth_overflow; lia. Qed.

Lemma rrefLoop_final m csc : csc_ok m csc -> forall k d st, d + k = length csc -> Inv m csc d st ->
  final m csc (rrefLoop m (Nat.min m (length csc)) csc (seq d k) st).
Proof. intros Hcsc. induction k as [|k IH]; simpl; intros d st Hd HI.
  - exists d. split; [lia|]. split; auto. intros j Hj. apply HI; lia.
  - assert (HI' : Inv m csc (S d) (eliminateColumn m csc st d)) by (apply elim_inv; auto; lia).
    destruct (Nat.eqb_spec (matrixRank (eliminateColumn m csc st d)) (Nat.min m (length csc))) as [E|E].
    + exists (S d). split; [lia|]. split; auto. intros j Hj.
      destruct (Nat.lt_ge_cases j (S d)); [apply HI'; auto|].
      pose proof (inv_rank2 _ _ _ _ HI'). replace (matrixRank (eliminateColumn m csc st d)) with m by lia.
      apply supp_lt_all. unfold rp. rewrite replayN_length. apply supp_vec_length.
    + apply IH; auto; lia. Qed.

Lemma plu_final m csc : csc_ok m csc -> final m csc (pluDecompose m (length csc) csc).
Proof. intros H. unfold pluDecompose. apply rrefLoop_final; auto. apply inv_init. Qed.

Lemma csc_cols_wf m csc : wf m (csc_cols m csc).
Proof. unfold csc_cols. apply Forall_map, Forall_forall. intros; apply supp_vec_length. Qed.

Lemma nth_csc_cols m csc j : j < length csc -> nth j (csc_cols m csc) [] = supp_vec m (nth j csc []).
Proof. intros H. unfold csc_cols. rewrite nth_indep with (d' := supp_vec m []) by (rewrite map_length; auto). now rewrite map_nth. Qed.

(** vectors with a triangular pattern are independent *)
Lemma triangular_indep m (P : mat) : wf m P ->
  (forall k, k < length P -> nth k (nth k P []) false = true /\ supp_lt (S k) (nth k P [])) -> length P <= m -> indep m P.
Proof. intros HP. induction P as [|v P IH] using rev_ind; intros HT HL; [apply indep_nil|].
  apply wf_app in HP as [HP Hv]. apply wf_cons in Hv as [Hv _]. rewrite app_length in *. simpl in *.
  assert (HTP : forall k, k < length P -> nth k (nth k P []) false = true /\ supp_lt (S k) (nth k P [])).
  { intros k Hk. specialize (HT k ltac:(lia)). rewrite app_nth1 in HT by lia. auto. }
  apply (indep_app_comm_in m [v]); auto; [constructor; auto|]. simpl. apply indep_cons; auto. split; [apply IH; auto; lia|].
  intros Hs. assert (Hlow : forall u, span m P u -> supp_lt (length P) u).
  { apply span_ind; auto.
    - intros j _. apply nth_vzero.
    - intros r u Hr Hu IHu j Hj. rewrite nth_vxor by (rewrite Hu; eapply wf_in; eauto).
      rewrite IHu by auto. apply In_nth with (d := []) in Hr as (k & Hk & <-).
      destruct (HTP k Hk) as [_ Hk2]. rewrite Hk2 by lia. auto. }
  specialize (HT (length P) ltac:(lia)). rewrite app_nth2, Nat.sub_diag in HT by lia. simpl in HT.
  rewrite (Hlow v Hs) in HT by lia. destruct HT; discriminate. Qed.

Lemma supp_lt_span m (P : mat) : wf m P -> length P <= m ->
  (forall k, k < length P -> nth k (nth k P []) false = true /\ supp_lt (S k) (nth k P [])) ->
  forall v, length v = m -> supp_lt (length P) v -> span m P v.
Proof. intros HP. induction P as [|p P IH] using rev_ind; intros HL HT v Hv Hs.
  - replace v with (vzero m); [apply span_zero|]. symmetry. apply (vec_ext m); auto using vzero_length.
    intros i _. rewrite nth_vzero. apply Hs. simpl; lia.
  - apply wf_app in HP as [HP Hp]. assert (Hp' := Hp). apply wf_cons in Hp' as [Hpl _]. rewrite app_length in *. simpl in *.
    assert (HTP : forall k, k < length P -> nth k (nth k P []) false = true /\ supp_lt (S k) (nth k P [])).
    { intros k Hk. specialize (HT k ltac:(lia)). rewrite app_nth1 in HT by lia. auto. }
    specialize (HT (length P) ltac:(lia)). rewrite app_nth2, Nat.sub_diag in HT by lia. simpl in HT. destruct HT as [HT1 HT2].
    destruct (nth (length P) v false) eqn:E.
    + replace v with (vxor p (vxor p v)) by (apply (vxor_cancel_l m); auto).
      apply span_vxor; [apply wf_app; auto| |].
      * apply span_in; [apply wf_app; auto|]. apply in_app_iff; simpl; auto.
      * apply span_app_l; auto. apply IH; auto; [lia|apply vxor_length'; auto|].
        intros j Hj. rewrite nth_vxor by lia. destruct (Nat.eq_dec j (length P)) as [->|].
        -- now rewrite HT1, E. -- rewrite HT2, Hs by lia. auto.
    + apply span_app_l; auto. apply IH; auto; [lia|]. intros j Hj. destruct (Nat.eq_dec j (length P)) as [->|]; auto.
      apply Hs; lia. Qed.

Definition pivot_vecs (m : nat) (csc : list (list nat)) (st : plu) : mat :=
  map (fun j => supp_vec m (nth j csc [])) (pivotCols st).

Lemma pivot_vecs_wf m csc st : wf m (pivot_vecs m csc st).
Proof. unfold pivot_vecs. apply Forall_map, Forall_forall. intros; apply supp_vec_length. Qed.

Lemma map_nth' {A B} (f : A -> B) l d d' k : k < length l -> nth k (map f l) d = f (nth k l d').
Proof. intros H. rewrite nth_indep with (d' := f d') by (rewrite map_length; auto). apply map_nth. Qed.

Lemma rp_map_wf m st M : wf m M -> wf m (map (rp st) M).
Proof. intros H. apply Forall_map. eapply Forall_impl; [|exact H]. simpl; intros. unfold rp. now rewrite replayN_length. Qed.

Lemma pivot_basis m csc : csc_ok m csc ->
  let st := pluDecompose m (length csc) csc in
  basis_of m (pivot_vecs m csc st) (csc_cols m csc) /\ length (pivot_vecs m csc st) = matrixRank st /\
  Forall (fun j => j < length csc) (pivotCols st) /\ NoDup (pivotCols st).
Proof. intros Hcsc st. destruct (plu_final m csc Hcsc) as (d & Hd & HI & Hall). fold st in HI, Hall.
  assert (HL : length (pivot_vecs m csc st) = matrixRank st) by (unfold pivot_vecs; rewrite map_length; apply HI).
  assert (Hops := inv_ops _ _ _ _ HI).
  assert (Hpc : forall k, k < matrixRank st -> nth k (pivotCols st) 0 < length csc) by (intros k Hk; destruct (inv_piv _ _ _ _ HI k Hk); lia).
  assert (HT : forall k, k < length (map (rp st) (pivot_vecs m csc st)) ->
     nth k (nth k (map (rp st) (pivot_vecs m csc st)) []) false = true /\ supp_lt (S k) (nth k (map (rp st) (pivot_vecs m csc st)) [])).
  { rewrite map_length, HL. intros k Hk. unfold pivot_vecs. rewrite map_map, (map_nth' _ _ _ 0) by (rewrite (inv_pc _ _ _ _ HI); auto).
    apply (inv_piv _ _ _ _ HI k Hk). }
  assert (HLr : length (map (rp st) (pivot_vecs m csc st)) = matrixRank st) by (now rewrite map_length).
  assert (Hw : wf m (map (rp st) (pivot_vecs m csc st))) by (apply rp_map_wf, pivot_vecs_wf).
  assert (Hind : indep m (pivot_vecs m csc st)).
  { intros c Hc E. apply (triangular_indep m (map (rp st) (pivot_vecs m csc st))) in Hw; auto; [|rewrite HLr; apply HI].
    specialize (Hw c). rewrite map_length in Hw. apply Hw; auto.
    assert (E2 : rp st (lincomb m c (pivot_vecs m csc st)) = vzero m).
    { rewrite E. unfold rp. now apply replayN_zero. }
    unfold rp in *. now rewrite replayN_lincomb in E2 by (auto using pivot_vecs_wf). }
  split; [|split; [auto|split]].
  - split; [apply pivot_vecs_wf|]. split; auto. intros v; split; intros Hv.
    + eapply span_incl; [apply pivot_vecs_wf|apply csc_cols_wf| |exact Hv]. intros r Hr. unfold pivot_vecs in Hr.
      apply in_map_iff in Hr as (j & <- & Hj). apply span_in; [apply csc_cols_wf|].
      apply In_nth with (d := 0) in Hj as (k & Hk & <-). rewrite (inv_pc _ _ _ _ HI) in Hk.
      unfold csc_cols. apply in_map, nth_In; auto.
    + eapply span_incl; [apply csc_cols_wf|apply pivot_vecs_wf| |exact Hv]. intros r Hr. unfold csc_cols in Hr.
      apply in_map_iff in Hr as (s & <- & Hs). apply In_nth with (d := []) in Hs as (j & Hj & <-).
      assert (Hsp : span m (map (rp st) (pivot_vecs m csc st)) (rp st (supp_vec m (nth j csc [])))).
      { apply supp_lt_span; auto; rewrite ?HLr; auto. - apply HI. - unfold rp; rewrite replayN_length; apply supp_vec_length. }
      destruct Hsp as (c & Hc & E). rewrite map_length in Hc. exists c. split; auto.
      unfold rp in E. rewrite <- replayN_lincomb in E by (auto using pivot_vecs_wf).
      apply (vxor_eq_zero m); auto using lincomb_length, pivot_vecs_wf, supp_vec_length.
      apply (replayN_inj m (swapRows st) (eliminationRows st) (matrixRank st)); auto.
      * apply vxor_length'; auto using lincomb_length, pivot_vecs_wf, supp_vec_length.
      * rewrite (replayN_vxor m); auto using lincomb_length, pivot_vecs_wf, supp_vec_length.
        rewrite E. apply vxor_self'. rewrite replayN_length. apply supp_vec_length.
  - apply Forall_forall. intros j Hj. apply In_nth with (d := 0) in Hj as (k & Hk & <-). rewrite (inv_pc _ _ _ _ HI) in Hk. auto.
  - apply NoDup_nth with (d := 0). rewrite (inv_pc _ _ _ _ HI). intros i j Hi Hj E.
    destruct (Nat.lt_trichotomy i j) as [Hlt|[|Hlt]]; auto; apply (inv_inc _ _ _ _ HI) in Hlt; auto; lia. Qed.

Theorem plu_rank m csc : csc_ok m csc -> has_rank m (csc_cols m csc) (matrixRank (pluDecompose m (length csc) csc)).
Proof. intros H. destruct (pivot_basis m csc H) as (HB & HL & _). eexists; split; eauto. Qed.

(** ** forward substitution *)
Lemma forward_ok m csc d st y : Inv m csc d st -> length y = m ->
  forall i, i < matrixRank st -> nth i (forwardSubst st y) false = nth i (rp st y) false.
Proof. intros HI Hy.
  set (step := fun b i => set_nth i (xorb (xorSum b (nth i (lower st) [])) (nth (nth i (prows st) 0) y false)) b).
  assert (Hrank := inv_rank _ _ _ _ HI).
  assert (G : forall k, k <= matrixRank st ->
    let b := fold_left step (seq 0 k) (repeat false (matrixRank st)) in
    length b = matrixRank st /\ (forall i, i < k -> nth i b false = nth i (rp st y) false) /\ (forall i, k <= i -> nth i b false = false)).
  { induction k as [|k IH]; intros Hk.
    - simpl. repeat split; [apply repeat_length|lia|]. intros; apply nth_repeat.
    - rewrite seq_S, fold_left_app. simpl. destruct (IH ltac:(lia)) as (H1 & H2 & H3).
      set (b := fold_left step (seq 0 k) (repeat false (matrixRank st))) in *.
      unfold step. repeat split.
      + now rewrite set_nth_length.
      + intros i Hi. rewrite nth_set_nth by lia. destruct (Nat.eqb_spec i k) as [->|]; [|apply H2; lia].
        rewrite (inv_lower _ _ _ _ HI y k) by (auto; lia). rewrite xorb_comm. f_equal.
        (* own index contributes b[k] = false *)
        assert (HL : forall c, In c (nth k (lower st) []) -> c <= k) by (intros c Hc; apply (inv_lowerc _ _ _ _ HI) in Hc; [tauto|lia]).
        clear - H2 H3 HL. revert HL. induction (nth k (lower st) []) as [|a l IH]; intros HL; auto.
        replace (a :: l) with ([a] ++ l) by auto. rewrite filter_app, !xorSum_app, IH by (intros; apply HL; now right).
        f_equal. simpl. destruct (Nat.eqb_spec a k) as [->|Hne]; unfold xorSum; simpl.
        * rewrite H3; auto. * rewrite H2; auto. specialize (HL a (or_introl eq_refl)). lia.
      + intros i Hi. rewrite nth_set_nth by lia. destruct (Nat.eqb_spec i k); [lia|]. apply H3; lia. }
  intros i Hi. apply (G (matrixRank st)); auto. Qed.

(** ** backward substitution *)
Lemma fold_rev_seq_S {A} (f : A -> nat -> A) r a : 
  fold_left f (rev (seq 0 (S r))) a = fold_left f (rev (seq 0 r)) (f a r).
Proof. rewrite seq_S, rev_app_distr. reflexivity. Qed.

(** sum over k in l of x[pc k] * f k *)
Definition wsum (x : vec) (pc : nat -> nat) (f : nat -> bool) (l : list nat) : bool :=
  fold_right (fun k s => xorb (nth (pc k) x false && f k) s) false l.

Lemma xorSum_wsum x pc f l : xorSum x (map pc (filter f l)) = wsum x pc f l.
Proof. induction l as [|a l IH]; auto. simpl. destruct (f a); simpl.
  - replace (pc a :: map pc (filter f l)) with ([pc a] ++ map pc (filter f l)) by auto. rewrite xorSum_app, IH.
    unfold xorSum; simpl. rewrite andb_true_r. destruct (nth (pc a) x false); auto.
  - rewrite andb_false_r, IH. destruct (wsum x pc f l); auto. Qed.

Lemma wsum_ext x x' pc f l : (forall k, In k l -> nth (pc k) x false = nth (pc k) x' false) -> wsum x pc f l = wsum x' pc f l.
Proof. induction l as [|a l IH]; simpl; intros H; auto. rewrite H by now left. rewrite IH; auto. Qed.

Lemma backward_ok n r pc up (F : nat -> nat -> bool) b :
  length pc = r -> (forall k, k < r -> nth k pc 0 < n) -> NoDup pc ->
  (forall i, i < r -> nth i up [] = map (fun k => nth k pc 0) (filter (fun k => F i k) (seq i (r - i)))) ->
  (forall i, i < r -> F i i = true) ->
  let x := fold_left (fun x i => set_nth (nth i pc 0) (xorb (xorSum x (nth i up [])) (nth i b false)) x) (rev (seq 0 r)) (repeat false n) in
  length x = n /\ (forall j, ~ In j pc -> nth j x false = false) /\
  forall i, i < r -> wsum x (fun k => nth k pc 0) (F i) (seq i (r - i)) = nth i b false.
Proof. intros Hl Hpc Hnd Hup Hdiag.
  set (step := fun x i => set_nth (nth i pc 0) (xorb (xorSum x (nth i up [])) (nth i b false)) x).
  assert (G : forall q x, q <= r -> length x = n -> (forall j, ~ In j pc -> nth j x false = false) ->
     (forall i, i < q -> nth (nth i pc 0) x false = false) ->
     (forall i, q <= i -> i < r -> wsum x (fun k => nth k pc 0) (F i) (seq i (r - i)) = nth i b false) ->
     let x' := fold_left step (rev (seq 0 q)) x in
     length x' = n /\ (forall j, ~ In j pc -> nth j x' false = false) /\
     forall i, i < r -> wsum x' (fun k => nth k pc 0) (F i) (seq i (r - i)) = nth i b false).
  { induction q as [|q IH]; intros x Hq Hx Hnp Hz Hs.
    - simpl. repeat split; auto. intros; apply Hs; auto; lia.
    - rewrite fold_rev_seq_S. 
      assert (Hpq : nth q pc 0 < length x) by (rewrite Hx; apply Hpc; lia).
      assert (Hneq : forall k, k < r -> k <> q -> nth k pc 0 <> nth q pc 0).
      { intros k Hk Hkq E. apply Hkq. eapply NoDup_nth with (d := 0); eauto; lia. }
      apply IH; try lia.
      + unfold step. now rewrite set_nth_length.
      + intros j Hj. unfold step. rewrite nth_set_nth by auto. destruct (Nat.eqb_spec j (nth q pc 0)) as [->|]; auto.
        exfalso; apply Hj, nth_In; lia.
      + intros i Hi. unfold step. rewrite nth_set_nth by auto. destruct (Nat.eqb_spec (nth i pc 0) (nth q pc 0)) as [E|]; [|apply Hz; lia].
        exfalso. apply (Hneq i); auto; lia.
      + intros i Hi Hir. destruct (Nat.eq_dec i q) as [->|Hiq].
        * replace (r - q) with (S (r - S q)) by lia. cbn [seq wsum fold_right]. fold (wsum (step x q) (fun k => nth k pc 0) (F q) (seq (S q) (r - S q))).
          rewrite (wsum_ext _ x).
          2:{ intros k Hk. apply in_seq in Hk. unfold step. rewrite nth_set_nth by auto.
              destruct (Nat.eqb_spec (nth k pc 0) (nth q pc 0)) as [E|]; auto. exfalso. apply (Hneq k); auto; lia. }
          rewrite Hdiag, andb_true_r by lia. unfold step at 1. rewrite nth_set_nth_eq by auto.
          rewrite Hup, xorSum_wsum by lia. replace (r - q) with (S (r - S q)) by lia. cbn [seq wsum fold_right].
          fold (wsum x (fun k => nth k pc 0) (F q) (seq (S q) (r - S q))). rewrite Hz by lia. simpl.
          destruct (wsum _ _ _ _), (nth q b false); auto.
        * rewrite (wsum_ext _ x); [apply Hs; lia|]. intros k Hk. apply in_seq in Hk. unfold step. rewrite nth_set_nth by auto.
          destruct (Nat.eqb_spec (nth k pc 0) (nth q pc 0)) as [E|]; auto. exfalso. apply (Hneq k); auto; lia. }
  apply (G r (repeat false n)); auto; try apply repeat_length; intros; try apply nth_repeat; lia. Qed.

(** the product of the matrix with x, when x is supported on the pivot columns *)
Lemma lincomb_supported m (M : mat) x l : wf m M -> length x = length M -> NoDup l -> Forall (fun j => j < length M) l ->
  (forall j, ~ In j l -> nth j x false = false) ->
  lincomb m x M = lincomb m (map (fun j => nth j x false) l) (map (fun j => nth j M []) l).
Proof. intros HM Hx Hnd Hl Hz.
  assert (Hwl : wf m (map (fun j => nth j M []) l)).
  { apply Forall_map. eapply Forall_impl; [|exact Hl]. simpl. intros j Hj. eapply wf_in; eauto. apply nth_In; auto. }
  apply (vec_ext m); auto using lincomb_length. intros i Hi.
  rewrite !nth_lincomb by (auto; now rewrite !map_length).
  unfold col. rewrite map_map. clear Hwl.
  assert (G : forall (x c : vec) l, length x = length c -> NoDup l -> Forall (fun j => j < length x) l ->
     (forall j, ~ In j l -> nth j x false = false) -> dot x c = dot (map (fun j => nth j x false) l) (map (fun j => nth j c false) l)).
  { clear. intros x c l. revert x. induction l as [|a l IH]; intros x Hxc Hnd Hl Hz; simpl.
    - replace x with (vzero (length x)); [apply dot_zero_l|]. symmetry. apply (vec_ext (length x)); auto using vzero_length.
      intros i _. rewrite nth_vzero. apply Hz; auto.
    - inversion Hnd as [|? ? Ha Hnd']; inversion Hl as [|? ? Hal Hl']; subst.
      set (x0 := set_nth a false x). 
      assert (L0 : length x0 = length x) by (unfold x0; apply set_nth_length).
      assert (E0 : forall j, nth j x0 false = if j =? a then false else nth j x false) by (intros; unfold x0; now apply nth_set_nth).
      specialize (IH x0). rewrite L0 in IH.
      assert (Ex : x = if nth a x false then vxor x0 (unitv (length x) a) else x0).
      { destruct (nth a x false) eqn:E; apply (vec_ext (length x)); auto.
        - apply vxor_length'; auto using unitv_length.
        - intros i Hi. rewrite nth_vxor by (rewrite unitv_length; auto). rewrite nth_unitv, E0 by auto.
          destruct (Nat.eqb_spec i a) as [->|]; auto. now rewrite xorb_false_r.
        - intros i Hi. rewrite E0. destruct (Nat.eqb_spec i a) as [->|]; auto. }
      assert (Emap : map (fun j => nth j x0 false) l = map (fun j => nth j x false) l).
      { apply map_ext_in. intros j Hj. rewrite E0. destruct (Nat.eqb_spec j a) as [->|]; auto. tauto. }
      rewrite <- Emap. rewrite <- IH; auto.
      + rewrite Ex at 1. destruct (nth a x false).
        * rewrite dot_vxor_l by (rewrite unitv_length; auto). rewrite dot_unitv_l by auto. apply xorb_comm.
        * simpl. destruct (dot x0 c); auto.
      + intros j Hj. rewrite E0. destruct (Nat.eqb_spec j a) as [->|]; auto. apply Hz. intros [->|]; auto. }
  rewrite (G x (map (fun r => nth i r false) M) l); auto.
  - f_equal. apply map_ext_in. intros j Hj. eapply Forall_forall in Hl; eauto. simpl in Hl. 
    rewrite (map_nth' _ _ _ []) by auto. auto.
  - now rewrite map_length.
  - rewrite Hx; auto. Qed.

Lemma csc_entry_lincomb m pc (P : nat -> vec) x i : Forall (fun k => length (P k) = m) pc -> i < m ->
  nth i (lincomb m (map (fun j => nth j x false) pc) (map P pc)) false =
  fold_right (fun j s => xorb (nth j x false && nth i (P j) false) s) false pc.
Proof. intros H Hi. induction H as [|a pc Ha H IH]; simpl; [apply nth_vzero|].
  assert (wf m (map P pc)) by (now apply Forall_map).
  destruct (nth a x false).
  - rewrite nth_vxor by (rewrite lincomb_length; auto). rewrite IH. reflexivity.
  - rewrite IH. simpl. destruct (fold_right _ _ _); auto. Qed.

Lemma lusolve_ok m csc y : csc_ok m csc -> length y = m -> span m (csc_cols m csc) y ->
  exists x, luSolve m (length csc) (pluDecompose m (length csc) csc) y = Some x /\ length x = length csc /\
    lincomb m x (csc_cols m csc) = y.
Proof. intros Hcsc Hy Hspan. set (st := pluDecompose m (length csc) csc).
  destruct (plu_final m csc Hcsc) as (d & Hd & HI & Hall). fold st in HI, Hall.
  destruct (pivot_basis m csc Hcsc) as (_ & _ & Hpcb & Hpcn). fold st in Hpcb, Hpcn.
  unfold luSolve. rewrite Hy, Nat.eqb_refl. eexists. split; [reflexivity|].
  set (b := forwardSubst st y).
  set (r := matrixRank st) in *.
  assert (Hr : r <= m) by apply HI.
  set (P := fun j => supp_vec m (nth j csc [])).
  set (F := fun i k => nth i (rp st (P (nth k (pivotCols st) 0))) false).
  destruct (backward_ok (length csc) r (pivotCols st) (upper st) F b) as (X1 & X2 & X3).
  - apply HI.
  - intros k Hk. destruct (inv_piv _ _ _ _ HI k Hk); lia.
  - auto.
  - apply (inv_upper _ _ _ _ HI).
  - intros i Hi. apply (inv_piv _ _ _ _ HI i Hi).
  - change (fold_left _ _ _) with (backwardSubst (length csc) st b) in X1, X2, X3.
    set (x := backwardSubst (length csc) st b) in *. split; auto.
    assert (Hwc := csc_cols_wf m csc).
    assert (Hlc : length (csc_cols m csc) = length csc) by (unfold csc_cols; apply map_length).
    assert (Hops := inv_ops _ _ _ _ HI).
    assert (Hlow : forall v, span m (csc_cols m csc) v -> supp_lt r (rp st v)).
    { apply span_ind; auto.
      - intros j _. unfold rp. rewrite replayN_zero by auto. apply nth_vzero.
      - intros u v Hu Hv IHv j Hj. assert (Hul : length u = m) by exact (wf_in m _ _ Hwc Hu).
        unfold rp. rewrite (replayN_vxor m) by auto. rewrite nth_vxor by (rewrite !replayN_length; lia).
        fold (rp st u) (rp st v). rewrite IHv by auto. apply In_nth with (d := []) in Hu as (q & Hq & <-).
        rewrite Hlc in Hq. rewrite nth_csc_cols by auto. rewrite Hall by auto. auto. }
    assert (Hax : span m (csc_cols m csc) (lincomb m x (csc_cols m csc))) by (exists x; rewrite Hlc; auto).
    assert (Haxl : length (lincomb m x (csc_cols m csc)) = m) by (now apply lincomb_length).
    apply (vxor_eq_zero m); auto.
    apply (replayN_inj m (swapRows st) (eliminationRows st) r); auto; [apply vxor_length'; auto|].
    rewrite (replayN_vxor m) by auto. fold (rp st).
    rewrite <- (vxor_self' m (rp st y)) by (unfold rp; now rewrite replayN_length).
    change (replayN (swapRows st) (eliminationRows st) r) with (rp st). f_equal.
    apply (vec_ext m); try (unfold rp; now rewrite replayN_length).
    intros i Hi. destruct (Nat.lt_ge_cases i r) as [Hir|Hir].
    2:{ rewrite (Hlow y Hspan i Hir), (Hlow _ Hax i Hir). auto. }
    rewrite <- (forward_ok m csc d st y HI Hy i Hir). fold b. rewrite <- (X3 i Hir).
    rewrite (lincomb_supported m _ x (pivotCols st)); auto; rewrite ?Hlc; auto.
    unfold rp. rewrite (replayN_lincomb m); auto.
    2:{ apply Forall_map. eapply Forall_impl; [|exact Hpcb]. simpl; intros j Hj. rewrite nth_csc_cols by auto. apply supp_vec_length. }
    2:{ now rewrite !map_length. }
    rewrite map_map. fold (rp st).
    rewrite (map_ext_in _ (fun j => rp st (P j))).
    2:{ intros j Hj. eapply Forall_forall in Hpcb; eauto. simpl in Hpcb. rewrite nth_csc_cols by auto. reflexivity. }
    rewrite csc_entry_lincomb; auto.
    2:{ apply Forall_forall. intros j _. unfold rp, P. rewrite replayN_length. apply supp_vec_length. }
    (* sum over all pivots = sum over pivots k >= i *)
    assert (Hpl : length (pivotCols st) = r) by apply HI.
    assert (Esum : fold_right (fun j s => xorb (nth j x false && nth i (rp st (P j)) false) s) false (pivotCols st)
       = wsum x (fun k => nth k (pivotCols st) 0) (F i) (seq 0 r)).
    { rewrite <- (map_nth_seq (pivotCols st) 0) at 1. rewrite Hpl. unfold wsum.
      induction (seq 0 r) as [|a l IHl]; simpl; auto. rewrite IHl. reflexivity. }
    rewrite Esum. replace r with (i + (r - i)) at 1 by lia. rewrite seq_app. unfold wsum. rewrite fold_right_app. simpl.
    fold (wsum x (fun k => nth k (pivotCols st) 0) (F i) (seq i (r - i))).
    assert (Hzero : forall k, In k (seq 0 i) -> F i k = false).
    { intros k Hk. apply in_seq in Hk. unfold F. destruct (inv_piv _ _ _ _ HI k ltac:(fold r; lia)) as (_ & _ & Hs). apply Hs; lia. }
    clear - Hzero. induction (seq 0 i) as [|a l IHl]; simpl; auto.
    rewrite Hzero by now left. rewrite andb_false_r, xorb_false_l. apply IHl. intros; apply Hzero; now right.
Qed.
