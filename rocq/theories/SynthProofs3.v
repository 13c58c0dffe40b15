(** * SynthProofs3: models of the depth query are sequences of layers of additions *)
From Verif Require Export SynthProofs2.
Local Open Scope nat_scope.

Lemma NoDup_app_intro {A} (l m : list A) : NoDup l -> NoDup m -> (forall x, In x l -> In x m -> False) -> NoDup (l ++ m).
Proof. intros N M H. induction N as [|x l NI N IH]; auto. cbn. constructor; [|apply IH; intros y Hy; apply H; right; auto].
  rewrite in_app_iff. intros [I|I]; [auto|]. apply (H x); auto. left; auto. Qed.
Lemma filter_le1 {A} (f : A -> bool) l : NoDup l -> (length (filter f l) <= 1 <-> forall x y, In x l -> In y l -> f x = true -> f y = true -> x = y).
Proof. intros ND. split.
  - intros H x y Hx Hy Fx Fy. assert (Ix : In x (filter f l)) by (apply filter_In; auto). assert (Iy : In y (filter f l)) by (apply filter_In; auto).
    destruct (filter f l) as [|u [|v t]]; [destruct Ix| |cbn in H; lia]. destruct Ix as [<-|[]], Iy as [<-|[]]. auto.
  - intros H. pose proof (NoDup_filter f ND) as NF. destruct (filter f l) as [|u [|v t]] eqn:E; cbn; try lia. exfalso.
    assert (Iu : In u (filter f l)) by (rewrite E; left; auto). assert (Iv : In v (filter f l)) by (rewrite E; right; left; auto). apply filter_In in Iu as [? ?], Iv as [? ?].
    inversion NF as [|? ? N _]; subst. apply N. left. symmetry. apply H; auto. Qed.

(** the possible additions a column takes part in *)
Definition prs (n k : nat) : list (nat * nat) := map (fun c => (c, k)) (others n k) ++ map (fun c => (k, c)) (others n k).
Lemma others_in n k c : In c (others n k) <-> c < n /\ c <> k.
Proof. unfold others. rewrite filter_In, in_seq. destruct (Nat.eqb_spec k c); cbn; split; intros; intuition lia. Qed.
Lemma prs_in n k i j : In (i, j) (prs n k) <-> i <> j /\ ((j = k /\ i < n) \/ (i = k /\ j < n)).
Proof. unfold prs. rewrite in_app_iff, !in_map_iff. split.
  - intros [(c & E & H)|(c & E & H)]; injection E as <- <-; apply others_in in H as [? ?]; auto.
  - intros (N & [[-> H]|[-> H]]); [left; exists i|right; exists j]; split; auto; apply others_in; auto. Qed.
Lemma prs_NoDup n k : NoDup (prs n k).
Proof. unfold prs. assert (ND : NoDup (others n k)) by apply NoDup_filter, seq_NoDup. apply NoDup_app_intro.
  - apply FinFun.Injective_map_NoDup; auto. intros x y E. congruence.
  - apply FinFun.Injective_map_NoDup; auto. intros x y E. congruence.
  - intros p Hp Hq. apply in_map_iff in Hp as (c & <- & Hc), Hq as (c' & E & Hc'). injection E as -> ->. apply others_in in Hc. lia. Qed.
Lemma involving_prs n d k : involving n d k = map (fun p => EVar (Ad d (fst p) (snd p))) (prs n k).
Proof. unfold involving, prs. rewrite map_app, !map_map. reflexivity. Qed.
Lemma involving_count a n d k : length (filter (eval a) (involving n d k)) = length (filter (fun p => a_bool a (Ad d (fst p) (snd p))) (prs n k)).
Proof. rewrite involving_prs, filter_map_len. reflexivity. Qed.
Lemma involving_none a n d k : existsb (eval a) (involving n d k) = existsb (fun p => a_bool a (Ad d (fst p) (snd p))) (prs n k).
Proof. rewrite involving_prs. induction (prs n k) as [|p l IH]; auto. cbn [map existsb eval]. now rewrite IH. Qed.

Lemma depth_formulas a rows n D : sat a (depth_query rows n D) <->
  eval a (column_addition_constraint rows n D (fun d i j => EVar (Ad d i j))) = true /\
  (forall d k, d < D -> k < n -> length (filter (fun p => a_bool a (Ad d (fst p) (snd p))) (prs n k)) <= 1) /\
  (forall d k, d < D -> k < n -> existsb (fun p => a_bool a (Ad d (fst p) (snd p))) (prs n k) = false -> col (matA a rows n (S d)) k = col (matA a rows n d) k) /\
  eval a (final_matrix_constraint rows n D) = true.
Proof. unfold depth_query, sat. split.
  - intros H. split; [apply H; apply in_app_iff; left; left; auto|]. split; [|split].
    + intros d k Hd Hk. assert (X : eval a (EPbLe (involving n d k) 1) = true).
      { apply H. apply in_app_iff; right. apply in_app_iff; left. apply in_flat_map. exists d. split; [apply in_seq; lia|]. apply in_map_iff. exists k. split; auto. apply in_seq. lia. }
      cbn [eval] in X. apply Nat.leb_le in X. now rewrite <- involving_count.
    + intros d k Hd Hk NO. assert (X : eval a (EImp (ENot (EOr (involving n d k))) (symbolic_vector_eq (colS rows (S d) k) (colS rows d k))) = true).
      { apply H. apply in_app_iff; right. apply in_app_iff; right. apply in_app_iff; left. apply in_flat_map. exists (S d). split; [apply Sseq_in; eauto|]. rewrite Nat.sub_succ, Nat.sub_0_r.
        apply in_map_iff. exists k. split; auto. apply in_seq. lia. }
      cbn [eval] in X. rewrite involving_none, NO in X. cbn [negb implb] in X. rewrite !matA_col by auto. apply eq_eval in X; auto. now rewrite !colS_length.
    + apply H. do 3 (apply in_app_iff; right). left; auto.
  - intros (H1 & H2 & H3 & H4) f Hf. rewrite !in_app_iff in Hf. destruct Hf as [[<-|[]]|[Hf|[Hf|[<-|[]]]]]; auto.
    + apply in_flat_map in Hf as (d & Hd & Hf). apply in_seq in Hd. apply in_map_iff in Hf as (k & <- & Hk). apply in_seq in Hk. cbn [eval]. apply Nat.leb_le. rewrite involving_count. apply H2; lia.
    + apply in_flat_map in Hf as (d & Hd & Hf). apply Sseq_in in Hd as (d' & -> & Hd). rewrite Nat.sub_succ, Nat.sub_0_r in Hf. apply in_map_iff in Hf as (k & <- & Hk). apply in_seq in Hk.
      cbn [eval]. apply implb_true_iff. intros E. apply negb_true_iff in E. rewrite involving_none in E. specialize (H3 d' k Hd ltac:(lia) E). rewrite !matA_col in H3 by lia. apply eq_eval; auto. now rewrite !colS_length. Qed.

(** disjoint layers *)
Lemma qubits_in L k : In k (qubits L) <-> exists p, In p L /\ (fst p = k \/ snd p = k).
Proof. unfold qubits. rewrite in_flat_map. split; intros (p & Hp & H); exists p; split; auto; cbn in *; intuition. Qed.
Lemma qubits_share L p q k : NoDup (qubits L) -> In p L -> In q L -> (fst p = k \/ snd p = k) -> (fst q = k \/ snd q = k) -> p = q.
Proof. induction L as [|x L IH]; intros ND Hp Hq Sp Sq; [destruct Hp|]. cbn [qubits flat_map app] in ND. fold (qubits L) in ND. apply NoDup_cons_iff in ND as [N1 ND]. apply NoDup_cons_iff in ND as [N2 ND].
  assert (X : forall r, In r L -> (fst r = k \/ snd r = k) -> (fst x = k \/ snd x = k) -> False).
  { intros r Hr Sr Sx. assert (In k (qubits L)) by (apply qubits_in; eauto). destruct Sx; subst k; [apply N1; right; auto|apply N2; auto]. }
  destruct Hp as [<-|Hp], Hq as [<-|Hq]; auto; exfalso; eauto. Qed.
Lemma qubits_NoDup L : NoDup L -> (forall p, In p L -> fst p <> snd p) -> (forall p q k, In p L -> In q L -> (fst p = k \/ snd p = k) -> (fst q = k \/ snd q = k) -> p = q) -> NoDup (qubits L).
Proof. intros ND. induction ND as [|x L NI ND IH]; intros OD SH; [constructor|]. cbn [qubits flat_map app]. fold (qubits L).
  assert (NQ : forall k, (fst x = k \/ snd x = k) -> ~ In k (qubits L)).
  { intros k Sx Hk. apply qubits_in in Hk as (p & Hp & Sp). apply NI. rewrite (SH x p k); auto; [left; auto|right; auto]. }
  apply NoDup_cons_iff. split; [|apply NoDup_cons_iff; split].
  - intros [H|H]; [apply (OD x); auto; left; auto|]. apply (NQ (fst x)); auto.
  - intros H. apply (NQ (snd x)); auto.
  - apply IH; [intros; apply OD; right; auto|]. intros p q k Hp Hq. apply SH; right; auto. Qed.

(** the layer of an assignment, in the order of the code *)
Definition layerA (a : asg cv gw) (n d : nat) : list (nat * nat) := flat_map (fun j => map (fun i => (i, j)) (filter (fun i => a_bool a (Ad d i j)) (seq 0 n))) (seq 0 n).
Lemma layerA_in a n d i j : In (i, j) (layerA a n d) <-> i < n /\ j < n /\ a_bool a (Ad d i j) = true.
Proof. unfold layerA. rewrite in_flat_map. split.
  - intros (j' & Hj & H). apply in_map_iff in H as (i' & E & Hi). injection E as -> ->. apply filter_In in Hi as [Hi Ha]. apply in_seq in Hi, Hj. repeat split; auto; lia.
  - intros (Hi & Hj & Ha). exists j. split; [apply in_seq; lia|]. apply in_map_iff. exists i. split; auto. apply filter_In. split; auto. apply in_seq. lia. Qed.
Lemma layerA_NoDup a n d : NoDup (layerA a n d).
Proof. unfold layerA. generalize (seq_NoDup n 0). generalize (seq 0 n) at 1 3 as js. intros js NDj. induction NDj as [|j js NI ND IH]; [constructor|]. cbn [flat_map]. apply NoDup_app_intro; auto.
  - apply FinFun.Injective_map_NoDup; [intros x y E; congruence|]. apply NoDup_filter, seq_NoDup.
  - intros p Hp Hq. apply in_map_iff in Hp as (i & <- & _). apply in_flat_map in Hq as (j' & Hj' & Hq). apply in_map_iff in Hq as (i' & E & _). injection E as -> ->. auto. Qed.
Definition disjoint_layer (n : nat) (L : list (nat * nat)) : Prop := cn_ok n L /\ NoDup (qubits L).

Lemma depth_sat a rows n D : wf n rows -> (forall d i, a_bool a (Ad d i i) = false) -> sat a (depth_query rows n D) ->
  Forall (disjoint_layer n) (map (layerA a n) (seq 0 D)) /\ matA a rows n D = map (cxs (concat (map (layerA a n) (seq 0 D)))) rows /\ length rows <= n /\
  is_reduced n (length rows) (map (cxs (concat (map (layerA a n) (seq 0 D)))) rows) = true.
Proof. intros W DG S. apply depth_formulas in S as (H1 & H2 & H3 & H5). pose proof (proj1 (column_addition_eval _ _ _ _ _) H1) as H1'. clear H1. rename H1' into H1. cbn [eval] in H1.
  assert (OD : forall d i j, In (i, j) (layerA a n d) -> i <> j). { intros d i j H ->. apply layerA_in in H as (_ & _ & H). now rewrite DG in H. }
  assert (K : forall d, d < D -> disjoint_layer n (layerA a n d)).
  { intros d Hd. split.
    - apply Forall_forall. intros [i j] H. pose proof (OD d i j H). apply layerA_in in H as (Hi & Hj & _). auto.
    - apply qubits_NoDup; [apply layerA_NoDup|intros [i j] H; exact (OD d i j H)|]. intros [i j] [i' j'] k Hp Hq Sp Sq. cbn [fst snd] in *.
      pose proof (OD d i j Hp). pose proof (OD d i' j' Hq). apply layerA_in in Hp as (Hi & Hj & Ap), Hq as (Hi' & Hj' & Aq). assert (Hk : k < n) by lia.
      apply (proj1 (filter_le1 _ _ (prs_NoDup n k)) (H2 d k Hd Hk)); auto; apply prs_in; intuition. }
  assert (E : forall d, d <= D -> matA a rows n d = map (cxs (concat (map (layerA a n) (seq 0 d)))) rows).
  { induction d as [|d IH]; intros Hd; [rewrite matA_0 by auto; cbn; symmetry; apply map_id|]. destruct (K d Hd) as [Kd ND].
    rewrite seq_S, map_app, concat_app. cbn [map concat]. rewrite Nat.add_0_l, app_nil_r. rewrite (map_ext _ (fun x => cxs (layerA a n d) (cxs (concat (map (layerA a n) (seq 0 d))) x))) by (intros x; apply cxs_app).
    rewrite <- map_map with (g := cxs (layerA a n d)). rewrite <- IH by lia. destruct (layer_col n (layerA a n d) ND Kd _ (matA_wf a rows n d)) as [A B].
    apply (mat_cols_ext n); [apply matA_wf|apply cxs_wf, matA_wf|now rewrite map_length, !matA_length|].
    intros k Hk. destruct (existsb (fun i => a_bool a (Ad d i k)) (seq 0 n)) eqn:EX.
    - apply existsb_exists in EX as (i & Hi & Ai). apply in_seq in Hi. assert (HI : In (i, k) (layerA a n d)) by (apply layerA_in; repeat split; auto; lia). rewrite (A i k HI). apply (H1 d i k); auto; [lia|exact (OD d i k HI)].
    - assert (NT : forall i, ~ In (i, k) (layerA a n d)).
      { intros i HI. apply layerA_in in HI as (Hi & _ & Ai). assert (existsb (fun i => a_bool a (Ad d i k)) (seq 0 n) = true) by (apply existsb_exists; exists i; split; auto; apply in_seq; lia). congruence. }
      rewrite B by auto. destruct (existsb (fun p => a_bool a (Ad d (fst p) (snd p))) (prs n k)) eqn:EP; [|now apply H3].
      apply existsb_exists in EP as ([i j] & Hp & Ap). cbn [fst snd] in Ap. apply prs_in in Hp as (N & [[-> Hi]|[-> Hj]]).
      + exfalso. apply (NT i). apply layerA_in. auto.
      + apply (H1 d k j); auto. }
  split; [apply Forall_map, Forall_forall; intros d Hd; apply in_seq in Hd; apply K; lia|]. split; [apply E; auto|]. rewrite <- E by auto. now apply final_eval. Qed.

(** conversely, layers give a model *)
Definition pair_eqb (p q : nat * nat) : bool := (fst p =? fst q) && (snd p =? snd q).
Lemma pair_mem p L : existsb (pair_eqb p) L = true <-> In p L.
Proof. rewrite existsb_exists. split.
  - intros (q & Hq & E). unfold pair_eqb in E. apply andb_true_iff in E as [E1 E2]. apply Nat.eqb_eq in E1, E2. destruct p, q; cbn in *; subst; auto.
  - intros H. exists p. split; auto. unfold pair_eqb. now rewrite !Nat.eqb_refl. Qed.
Definition depth_asg (rows : mat) (ls : list (list (nat * nat))) : asg cv gw :=
  mkAsg (fun v => match v with Xc d i j => nth j (cxs (concat (firstn d ls)) (nth i rows [])) false | Ad d i j => existsb (pair_eqb (i, j)) (nth d ls []) end) (fun _ => 0).
Lemma depth_asg_mat rows n ls : wf n rows -> forall d, matA (depth_asg rows ls) rows n d = map (cxs (concat (firstn d ls))) rows.
Proof. intros W. apply (matA_of rows n (depth_asg rows ls) (fun d x => cxs (concat (firstn d ls)) x)); auto; [|intros; apply cxs_length]. intros [|d] i j; reflexivity. Qed.
Lemma depth_complete rows n ls : wf n rows -> Forall (disjoint_layer n) ls -> length rows <= n -> is_reduced n (length rows) (map (cxs (concat ls)) rows) = true ->
  sat (depth_asg rows ls) (depth_query rows n (length ls)).
Proof. intros W K L R.
  assert (KD : forall d, d < length ls -> disjoint_layer n (nth d ls [])) by (intros d Hd; apply (proj1 (Forall_forall _ _) K); now apply nth_In).
  assert (ST : forall d, d < length ls -> matA (depth_asg rows ls) rows n (S d) = map (cxs (nth d ls [])) (matA (depth_asg rows ls) rows n d)).
  { intros d Hd. rewrite !depth_asg_mat by auto. rewrite (firstn_S_nth ls d []) by auto. rewrite concat_app. cbn [concat]. rewrite app_nil_r, map_map. apply map_ext. intros x. apply cxs_app. }
  assert (AD : forall d i j, a_bool (depth_asg rows ls) (Ad d i j) = true <-> In (i, j) (nth d ls [])) by (intros; apply pair_mem).
  apply depth_formulas. split; [|split; [|split]].
  - apply column_addition_eval. intros d c t Hd Hc Ht NE E. cbn [eval] in E. apply AD in E. destruct (KD d Hd) as [Kd ND]. destruct (layer_col n _ ND Kd _ (matA_wf (depth_asg rows ls) rows n d)) as [A B].
    rewrite ST by auto. split; [now apply A|]. apply B. intros i Hi. assert (X : (i, c) = (c, t)) by (apply (qubits_share _ _ _ c ND Hi E); cbn; auto). injection X as _ ->. auto.
  - intros d k Hd Hk. apply filter_le1; [apply prs_NoDup|]. intros [i j] [i' j'] Hp Hq Ap Aq. cbn [fst snd] in *. apply AD in Ap, Aq. destruct (KD d Hd) as [Kd ND].
    apply prs_in in Hp as [_ Hp], Hq as [_ Hq]. apply (qubits_share _ _ _ k ND Ap Aq); cbn; intuition.
  - intros d k Hd Hk NO. destruct (KD d Hd) as [Kd ND]. destruct (layer_col n _ ND Kd _ (matA_wf (depth_asg rows ls) rows n d)) as [A B]. rewrite ST by auto. apply B. intros i Hi.
    pose proof (proj1 (Forall_forall _ _) Kd _ Hi) as (Ri & Rk & N). cbn [fst snd] in *.
    assert (existsb (fun p => a_bool (depth_asg rows ls) (Ad d (fst p) (snd p))) (prs n k) = true); [|congruence]. apply existsb_exists. exists (i, k). split; [apply prs_in; auto|]. now apply AD.
  - apply final_eval. split; auto. rewrite depth_asg_mat, firstn_all by auto. auto. Qed.

(** ** the diagonal additions do not occur in the query *)
Section Free.
Variable v : cv.
Notation free e := (~ occurs v (e : sexpr)).
Definition sfree (l : svec cv gw) : Prop := forall s, In s l -> free (toe s).
Lemma occ_list (l : list sexpr) : (fix go (l : list sexpr) : Prop := match l with [] => False | e :: l' => occurs v e \/ go l' end) l <-> exists e, In e l /\ occurs v e.
Proof. induction l as [|e l IH]; [split; [intros []|intros (e & [] & _)]|]. rewrite IH. split.
  - intros [H|(x & Hx & H)]; [exists e; split; auto; left; auto|exists x; split; auto; right; auto].
  - intros (x & [->|Hx] & H); [auto|right; eauto]. Qed.
Lemma free_and (l : list sexpr) : (forall e, In e l -> free e) -> free (EAnd l).
Proof. intros H O. cbn [occurs] in O. apply occ_list in O as (e & He & O). exact (H e He O). Qed.
Lemma free_or (l : list sexpr) : (forall e, In e l -> free e) -> free (EOr l).
Proof. intros H O. cbn [occurs] in O. apply occ_list in O as (e & He & O). exact (H e He O). Qed.
Lemma free_pb (l : list sexpr) k : (forall e, In e l -> free e) -> free (EPbEq l k) /\ free (EPbLe l k).
Proof. intros H. split; intros O; cbn [occurs] in O; apply occ_list in O as (e & He & O); exact (H e He O). Qed.
Lemma sfree_nth l i : sfree l -> free (toe (nth i l (Con false))).
Proof. intros H. destruct (nth_in_or_default i l (Con false)) as [I|I]; [now apply H|]. rewrite I. cbn. auto. Qed.
Lemma free_veq a b : sfree a -> sfree b -> free (symbolic_vector_eq a b).
Proof. intros A B. apply free_and. intros e He. apply in_map_iff in He as (i & <- & _). pose proof (sfree_nth a i A) as HA. pose proof (sfree_nth b i B) as HB.
  destruct (nth i a (Con false)) as [[]|ea], (nth i b (Con false)) as [[]|eb]; cbn in *; tauto. Qed.
Lemma free_vadd a b : sfree a -> sfree b -> sfree (symbolic_vector_add a b).
Proof. intros A B s Hs. apply in_map_iff in Hs as (i & <- & _). pose proof (sfree_nth a i A) as HA. pose proof (sfree_nth b i B) as HB.
  destruct (nth i a (Con false)) as [[]|ea], (nth i b (Con false)) as [[]|eb]; cbn in *; tauto. Qed.
End Free.
Lemma colS_free d0 i0 rows d j : sfree (Ad d0 i0 i0) (colS rows d j).
Proof. intros s Hs. apply in_map_iff in Hs as (i & <- & _). destruct d; cbn; auto. discriminate. Qed.
Lemma diag_free d0 i0 rows n D f : In f (depth_query rows n D) -> ~ occurs (Ad d0 i0 i0) f.
Proof. unfold depth_query. rewrite !in_app_iff. intros [[<-|[]]|[H|[H|[<-|[]]]]].
  - apply free_and. intros e He. apply in_flat_map in He as (d & Hd & He). apply in_flat_map in He as (c1 & Hc1 & He). apply in_flat_map in He as (c2 & Hc2 & He). apply in_seq in Hc2. cbv zeta in He.
    assert (FV : forall x y, sfree (Ad d0 i0 i0) x -> sfree (Ad d0 i0 i0) y -> ~ occurs (Ad d0 i0 i0) (symbolic_vector_eq x y)) by (intros; now apply free_veq).
    destruct He as [<-|[<-|[]]]; intros [O|O]; try (cbn in O; injection O as _ -> O; lia); revert O; apply free_and; intros e [<-|[<-|[]]]; apply FV; try apply free_vadd; apply colS_free.
  - apply in_flat_map in H as (d & Hd & H). apply in_map_iff in H as (k & <- & Hk). apply free_pb. intros e He. rewrite involving_prs in He. apply in_map_iff in He as ([i j] & <- & Hp). apply prs_in in Hp as [N _]. cbn. intros E. injection E as _ -> ->. auto.
  - apply in_flat_map in H as (d & Hd & H). apply in_map_iff in H as (k & <- & Hk). intros [O|O].
    + revert O. apply free_or. intros e He. rewrite involving_prs in He. apply in_map_iff in He as ([i j] & <- & Hp). apply prs_in in Hp as [N _]. cbn. intros E. injection E as _ -> ->. auto.
    + revert O. apply free_veq; apply colS_free.
  - unfold final_matrix_constraint. destruct (_ <? _); [cbn; auto|]. apply free_pb. intros e He. apply in_map_iff in He as (c & <- & _). intros O. cbn [occurs] in O. apply occ_list in O as (e & He & O).
    apply in_map_iff in He as (s & <- & Hs). exact (colS_free d0 i0 rows D c s Hs O). Qed.
