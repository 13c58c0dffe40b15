(** * FaultProofs2: compute_fault_set over any history of calls, combine_faults *)
From Verif Require Export FaultProofs.
Local Open Scope nat_scope.

Lemma nth_error_set {A} i (x : A) l j : i < length l -> nth_error (set_nth i x l) j = if j =? i then Some x else nth_error l j.
Proof. revert i j. induction l as [|y l IH]; intros [|i] [|j] H; cbn in *; try lia; auto. rewrite IH by lia. reflexivity. Qed.
Lemma single_faults_in n x nodes e : In e (single_faults n x nodes) <-> exists pre p rest, nodes = pre ++ p :: rest /\ e = fold_left (prop1 x) rest (unitv n (if x then fst p else snd p)).
Proof. induction nodes as [|p nodes IH]; cbn [single_faults].
  - split; [intros []|]. intros (pre & p & rest & H & _). destruct pre; discriminate.
  - cbn [In]. rewrite IH. cbn [propagate_error]. split.
    + intros [<-|(pre & q & rest & -> & ->)]; [exists [], p, nodes; auto|exists (p :: pre), q, rest; auto].
    + intros ([|q pre] & p' & rest & E & ->); injection E as E1 E2; subst; auto. right. exists pre, p', rest. auto. Qed.
Lemma prop_length x rest : forall e, length (fold_left (prop1 x) rest e) = length e.
Proof. induction rest as [|p rest IH]; intros e; cbn [fold_left]; auto. rewrite IH. unfold prop1. destruct x; apply cxv_length. Qed.
Lemma single_faults_wf n x nodes : wf n (single_faults n x nodes).
Proof. apply Forall_forall. intros e He. apply single_faults_in in He as (pre & p & rest & _ & ->). rewrite prop_length. apply unitv_length. Qed.

Lemma np_unique_wf n l : wf n l -> wf n (np_unique l).
Proof. intros W. apply Forall_forall. intros e He. pose proof (proj1 (np_unique_in l e) He) as H. exact (wf_in n l e W H). Qed.
Lemma ret_pair {A B} (a c : A) (b d : B) : Ret (a, b) = Ret (c, d) -> a = c /\ b = d.
Proof. intros H. now injection H. Qed.

Section Cache.
Variables (lin : list (nat * nat) -> list (nat * nat)) (opt : cl_solver) (s : spc) (x : bool) (nodes : list (nat * nat)).
Notation n := (sp_n s).
Notation stabs := (stabs_of s x).
Notation mw := (max_weight s x).
Hypotheses (OK : optimizer_ok 1 opt) (WS : wf n stabs) (MW : 1 <= mw) (EN : cnots_of (drop_front [] (sp_circ s)) = Ret nodes).
Definition base (b : vec) : Prop := In b (single_faults n x (lin nodes)) \/ In b (identity n).
Lemma base_length b : base b -> length b = n.
Proof. intros [H|H]; [apply (wf_in n (single_faults n x (lin nodes)))|apply (wf_in n (identity n))]; auto; [apply single_faults_wf|apply identity_wf]. Qed.
(** what a fault set for j errors over the error predicate P must be *)
Definition fault_ok (P : vec -> Prop) (j : nat) (F : mat) : Prop :=
  (forall f, In f F -> length f = n /\ mw * j < weight f /\ (exists e, P e /\ span n stabs (vxor e f)) /\ forall w, span n stabs w -> weight f <= weight (vxor f w)) /\
  (forall e, P e -> (forall w, span n stabs w -> mw * j < weight (vxor e w)) -> exists f, In f F /\ span n stabs (vxor e f)).
Lemma reduce_ok (P : vec -> Prop) j U (reduce : bool) : wf n U -> (forall e, In e U -> P e) -> (forall e, P e -> In e U \/ exists w, span n stabs w /\ weight (vxor e w) <= mw * j) ->
  let F := remove_trivial_faults opt U stabs mw j in fault_ok P j (if reduce then remove_stabilizer_equivalent_faults n F stabs else F).
Proof. intros WU UP PU F. assert (T : fault_ok P j F).
  { split.
    - intros f Hf. destruct (trivial_sound n opt stabs OK WS U mw j f WU Hf) as (A & B & (e & He & E) & C). split; auto. split; auto. split; auto. exists e. auto.
    - intros e He H. destruct (PU e He) as [HU|(w & Hw & X)]; [|specialize (H w Hw); lia]. apply (trivial_complete n opt stabs OK WS U mw j e WU HU H). }
  destruct reduce; auto. assert (WFF : wf n F) by (apply Forall_forall; intros f Hf; apply T; auto). destruct (rse_ok n stabs WS F WFF) as (A & B & _). split.
  - intros f Hf. apply T. now apply A.
  - intros e He H. destruct (proj2 T e He H) as (f & Hf & E). destruct (proj1 T f Hf) as (Lf & Wf & _ & Mf).
    assert (NS : ~ span n stabs f). { intros SP. specialize (Mf f SP). rewrite (vxor_self' n) in Mf by auto. assert (weight (vzero n) = 0) by (apply weight_zero_iff; intros; apply nth_vzero). lia. }
    destruct (B f Hf NS) as (r & Hr & Er). exists r. split; auto. assert (Lr : length r = n) by (apply (wf_in n F); auto; now apply A).
    destruct (proj1 T f Hf) as (_ & _ & (e' & _ & _) & _). assert (Le_ : length e = n).
    { destruct (PU e He) as [HU|(w & Hw & X)]; [now apply (wf_in n U)|specialize (H w Hw); lia]. }
    apply (equiv_trans n stabs WS e f r); auto. Qed.

Notation max := (max_errors s).
Definition cache_inv (k : cache) : Prop :=
  length (k_sets k) = S max /\ length (k_unred k) = S max /\
  (forall j U, nth_error (k_unred k) j = Some (Some U) -> wf n U /\ forall e, In e U <-> ksum n base j e) /\
  (forall j F, nth_error (k_sets k) j = Some (Some F) -> fault_ok (ksum n base j) j F /\ (exists U, nth_error (k_unred k) j = Some (Some U)) /\ exists U, nth_error (k_unred k) 1 = Some (Some U)).
Lemma cache0_inv : cache_inv (cache0 s).
Proof. assert (N : forall j y, nth_error (repeat (@None mat) (S max)) j <> Some (Some y)).
  { intros j y H. apply nth_error_In in H. apply repeat_spec in H. discriminate. }
  unfold cache_inv, cache0. cbn [k_sets k_unred]. rewrite !repeat_length. split; auto. split; auto. split; intros j y H; exfalso; eapply N; eauto. Qed.
Lemma ksum1 e : ksum n base 1 e <-> base e.
Proof. split.
  - intros (a & b & -> & Hb & ->). rewrite (vxor_zero_l n); auto. now apply base_length.
  - intros H. exists (vzero n), e. split; [reflexivity|]. split; auto. rewrite (vxor_zero_l n); auto. now apply base_length. Qed.
Lemma identity_small e : In e (identity n) -> weight (vxor e (vzero n)) <= mw * 1.
Proof. intros H. unfold identity in H. apply in_map_iff in H as (i & <- & Hi). apply in_seq in Hi. rewrite vxor_zero_r by apply unitv_length. rewrite weight_unitv by lia. lia. Qed.

Lemma compute_inv j : forall reduce k k' F, cache_inv k -> compute_fault_set lin opt s x reduce j k = Ret (k', F) ->
  cache_inv k' /\ fault_ok (ksum n base j) j F /\ nth_error (k_sets k') j = Some (Some F) /\
  (forall i y, nth_error (k_sets k) i = Some (Some y) -> nth_error (k_sets k') i = Some (Some y)) /\
  (forall i y, nth_error (k_unred k) i = Some (Some y) -> exists y', nth_error (k_unred k') i = Some (Some y')).
Proof. induction j as [|pred IH]; intros reduce k k' F I; cbn [compute_fault_set]; [discriminate|].
  destruct (nth_error (k_sets k) (S pred)) as [[Fs|]|] eqn:ES; try discriminate.
  - intros E. injection E as <- <-. split; [exact I|]. destruct I as (I1 & I2 & I3 & I4). split; [apply (I4 _ _ ES)|]. split; [exact ES|]. split; eauto.
  - assert (LJ : S pred < length (k_sets k)) by (apply nth_error_Some; congruence).
    (* the state after the unreduced set was computed *)
    intros H.
    match type of H with pbind ?A ?B = _ => destruct A as [[k1 U]|] eqn:EA; [cbn [pbind fst snd] in H|discriminate] end.
    assert (STEP : length (k_sets k1) = S max /\ length (k_unred k1) = S max /\ 
      (forall i y, nth_error (k_unred k1) i = Some (Some y) -> wf n y /\ forall e, In e y <-> ksum n base i e) /\
      (forall i y, nth_error (k_sets k1) i = Some (Some y) -> fault_ok (ksum n base i) i y /\ (exists z, nth_error (k_unred k1) i = Some (Some z))) /\
      (exists z, nth_error (k_unred k1) (S pred) = Some (Some z)) /\ (exists z, nth_error (k_unred k1) 1 = Some (Some z)) /\
      wf n U /\ (forall e, In e U -> ksum n base (S pred) e) /\ (forall e, ksum n base (S pred) e -> In e U \/ exists w, span n stabs w /\ weight (vxor e w) <= mw * S pred) /\
      (forall i y, nth_error (k_sets k) i = Some (Some y) -> nth_error (k_sets k1) i = Some (Some y)) /\
      (forall i y, nth_error (k_unred k) i = Some (Some y) -> exists y', nth_error (k_unred k1) i = Some (Some y'))).
    { destruct pred as [|pred].
      - rewrite EN in EA. cbn [pbind] in EA. destruct (lin nodes) as [|p0 l0] eqn:EL; [discriminate|]. rewrite <- EL in EA. apply ret_pair in EA as [<- <-]. cbn [k_sets k_unred].
        destruct I as (I1 & I2 & I3 & I4). assert (L1 : 1 < length (k_unred k)) by lia.
        assert (UQ : forall e, In e (np_unique (single_faults n x (lin nodes)) ++ identity n) <-> ksum n base 1 e).
        { intros e. rewrite in_app_iff, np_unique_in, ksum1. reflexivity. }
        assert (UW : wf n (np_unique (single_faults n x (lin nodes)))). { apply np_unique_wf, single_faults_wf. }
        split; auto. split; [now rewrite set_nth_length|]. split; [|split; [|split; [|split; [|split; [|split; [|split; [|split]]]]]]]; auto.
        + intros i y. rewrite nth_error_set by auto. destruct (i =? 1) eqn:E; [|apply I3]. apply Nat.eqb_eq in E. subst i. intros [= <-]. split; auto. apply wf_app. split; auto. apply identity_wf.
        + intros i y Hy. destruct (I4 i y Hy) as (A & (z & B) & _). split; auto. rewrite nth_error_set by auto. destruct (i =? 1); eauto.
        + rewrite nth_error_set by auto. cbn. eauto.
        + rewrite nth_error_set by auto. cbn. eauto.
        + intros e He. apply UQ. apply in_app_iff. auto.
        + intros e He. apply ksum1 in He as [He|He]; [left; now apply np_unique_in|]. right. exists (vzero n). split; [apply span_zero|]. now apply identity_small.
        + intros i y Hy. rewrite nth_error_set by auto. destruct (i =? 1); eauto.
      - destruct (compute_fault_set lin opt s x reduce (S pred) k) as [[k2 F2]|] eqn:EC; [cbn [pbind fst snd] in EA|discriminate].
        destruct (IH reduce k k2 F2 I EC) as (I' & G2 & ES2 & MS & MU). destruct I' as (I1 & I2 & I3 & I4).
        destruct (I4 _ _ ES2) as (_ & (U2 & EU2) & (U1 & EU1)). rewrite EU2, EU1 in EA. apply ret_pair in EA as [<- <-]. cbn [k_sets k_unred].
        assert (LJ' : S (S pred) < length (k_unred k2)) by (destruct I as (J1 & _); lia).
        destruct (I3 _ _ EU2) as [W2 Q2]. destruct (I3 _ _ EU1) as [W1 Q1].
        assert (UQ : forall e, In e (np_unique (sums U2 U1)) <-> ksum n base (S (S pred)) e).
        { intros e. rewrite np_unique_in, sums_in. change (ksum n base (S (S pred)) e) with (exists a b, ksum n base (S pred) a /\ base b /\ e = vxor a b).
          split; intros (a & b & A & B & E); exists a, b; (split; [apply Q2; auto|split; [|auto]]); [apply ksum1, Q1|apply Q1, ksum1]; auto. }
        assert (UW : wf n (np_unique (sums U2 U1))). { apply Forall_forall. intros e He. apply UQ in He. eapply ksum_length; eauto. apply base_length. }
        split; auto. split; [now rewrite set_nth_length|]. split; [|split; [|split; [|split; [|split; [|split; [|split; [|split]]]]]]]; auto.
        + intros i y. rewrite nth_error_set by auto. destruct (i =? S (S pred)) eqn:E; [|apply I3]. apply Nat.eqb_eq in E. subst i. intros [= <-]. split; auto.
        + intros i y Hy. destruct (I4 i y Hy) as (A & (z & B) & _). split; auto. rewrite nth_error_set by auto. destruct (i =? S (S pred)); eauto.
        + rewrite nth_error_set by auto. rewrite Nat.eqb_refl. eauto.
        + rewrite nth_error_set by auto. cbn. eauto.
        + intros e He. now apply UQ.
        + intros e He. left. now apply UQ.
        + intros i y Hy. destruct (MU i y Hy) as (y' & Hy'). rewrite nth_error_set by auto. destruct (i =? S (S pred)); eauto. }
    clear EA. destruct STEP as (L1 & L2 & S3 & S4 & S5 & S6 & WU & UP & PU & MS & MU). apply ret_pair in H as [<- <-]. cbn [k_sets k_unred].
    pose proof (reduce_ok (ksum n base (S pred)) (S pred) U reduce WU UP PU) as FO. cbv zeta in FO.
    assert (LK : S pred < length (k_sets k1)) by (destruct I as (J1 & _); lia).
    split; [|split; [|split; [|split]]]; auto.
    + unfold cache_inv. cbn [k_sets k_unred]. rewrite set_nth_length. split; auto. split; auto. split; auto. intros i y. rewrite nth_error_set by auto. destruct (i =? S pred) eqn:E.
      * apply Nat.eqb_eq in E. subst i. intros [= <-]. auto.
      * intros Hy. destruct (S4 i y Hy) as (A & B). split; [|split]; auto.
    + rewrite nth_error_set by auto. now rewrite Nat.eqb_refl.
    + intros i y Hy. rewrite nth_error_set by auto. destruct (i =? S pred) eqn:E; auto. apply Nat.eqb_eq in E. subst i. congruence. Qed.
(** every call with an admissible number of errors returns, in every reachable state *)
Lemma compute_total j : forall reduce k, lin nodes <> [] -> cache_inv k -> 1 <= j <= max -> exists r, compute_fault_set lin opt s x reduce j k = Ret r.
Proof. induction j as [|pred IH]; intros reduce k NE I LJ; [lia|]. cbn [compute_fault_set]. pose proof I as (I1 & I2 & I3 & I4).
  destruct (nth_error (k_sets k) (S pred)) as [[Fs|]|] eqn:ES; [eauto| |apply nth_error_None in ES; lia].
  destruct pred as [|pred].
  - rewrite EN. cbn [pbind]. destruct (lin nodes) as [|p l] eqn:EL; [congruence|]. cbn [pbind]. eauto.
  - destruct (IH reduce k NE I ltac:(lia)) as ([k2 F2] & EC). rewrite EC. cbn [pbind fst snd].
    destruct (compute_inv (S pred) reduce k k2 F2 I EC) as ((J1 & J2 & J3 & J4) & _ & ES2 & _). destruct (J4 _ _ ES2) as (_ & (U2 & EU2) & (U1 & EU1)). rewrite EU2, EU1. cbn [pbind]. eauto. Qed.
(** pairwise inequivalence, when all sets were reduced *)
Definition reduced_set (F : mat) : Prop := forall pre a mid b post, F = pre ++ a :: mid ++ b :: post -> ~ span n stabs (vxor a b).
Lemma compute_reduced j k k' F : nth_error (k_sets k) j = Some None -> cache_inv k -> compute_fault_set lin opt s x true j k = Ret (k', F) -> reduced_set F.
Proof. intros EN' I H. destruct j as [|pred]; [discriminate|]. pose proof H as H0. cbn [compute_fault_set] in H. rewrite EN' in H.
  match type of H with pbind ?A ?B = _ => destruct A as [[k1 U]|] eqn:EA; [cbn [pbind fst snd] in H|discriminate] end. apply ret_pair in H as [_ <-]. intros pre a mid b post E.
  destruct (compute_inv (S pred) true k k' _ I H0) as (_ & FO & _).
  assert (WU : wf n U).
  { destruct pred as [|pred].
    - rewrite EN in EA. cbn [pbind] in EA. destruct (lin nodes) eqn:EL; [discriminate|]. rewrite <- EL in EA. apply ret_pair in EA as [_ <-]. apply np_unique_wf, single_faults_wf.
    - destruct (compute_fault_set lin opt s x true (S pred) k) as [[k2 F2]|] eqn:EC; [cbn [pbind fst snd] in EA|discriminate].
      destruct (compute_inv (S pred) true k k2 F2 I EC) as ((J1 & J2 & J3 & J4) & _ & ES2 & _). destruct (J4 _ _ ES2) as (_ & (U2 & EU2) & (U1 & EU1)). rewrite EU2, EU1 in EA. apply ret_pair in EA as [_ <-].
      destruct (J3 _ _ EU2) as [W2 _]. destruct (J3 _ _ EU1) as [W1 _]. apply np_unique_wf, Forall_forall. intros e He. apply sums_in in He as (u & v & Hu & Hv & ->). apply vxor_length'; [apply (wf_in n U2)|apply (wf_in n U1)]; auto. }
  eapply (rse_ok n stabs WS); [|exact E]. apply trivial_wf; auto. Qed.

(** ** combine_faults *)
Lemma nth_nth_error {A} (l : list A) i d v : nth_error l i = Some v -> nth i l d = v.
Proof. apply nth_error_nth. Qed.
Lemma combine_inv additional (A := fun a => In a additional) : wf n additional -> forall count i unred, 1 <= i -> i + count = max -> length unred = S max ->
  (forall j, 1 <= j <= i -> exists U, nth_error unred j = Some (Some U) /\ wf n U /\ forall e, In e U <-> ksum n (fun b => base b \/ A b) j e) ->
  (forall j, i < j <= max -> exists U, nth_error unred j = Some (Some U) /\ wf n U /\ forall e, In e U <-> ksum n base j e) ->
  exists r, combine_loop additional i count unred = Ret r /\ length r = S max /\ forall j, 1 <= j <= max -> exists U, nth_error r j = Some (Some U) /\ wf n U /\ forall e, In e U <-> ksum n (fun b => base b \/ A b) j e.
Proof. intros WA. induction count as [|count IH]; intros i unred Hi E L LO HI; cbn [combine_loop].
  - exists unred. split; auto. split; auto. intros j Hj. apply LO. lia.
  - destruct (LO i ltac:(lia)) as (U & EU & WU & QU). destruct (HI (S i) ltac:(lia)) as (V & EV & WV & QV). rewrite (nth_nth_error _ _ _ _ EU), (nth_nth_error _ _ _ _ EV).
    apply IH; try lia; [now rewrite set_nth_length| |].
    + intros j Hj. rewrite nth_error_set by lia. destruct (j =? S i) eqn:EJ; [|apply LO; apply Nat.eqb_neq in EJ; lia]. apply Nat.eqb_eq in EJ. subst j. eexists. split; [reflexivity|]. split.
      * apply wf_app. split; auto. apply Forall_forall. intros e He. apply sums_in in He as (a & b & Ha & Hb & ->). apply vxor_length'; [apply (wf_in n U)|apply (wf_in n additional)]; auto.
      * intros e. rewrite in_app_iff, QV, sums_in, ksum_split by (try apply base_length; intros b Hb; apply (wf_in n additional); auto).
        split; (intros [H|(a & b & Ha & Hb & ->)]; [left; auto|right; exists a, b; split; [apply QU; auto|auto]]).
    + intros j Hj. rewrite nth_error_set by lia. replace (j =? S i) with false by (symmetry; apply Nat.eqb_neq; lia). apply HI. lia. Qed.
Lemma combine_ok additional k : wf n additional -> additional <> [] -> cache_inv k -> 1 <= max -> (forall j, 1 <= j <= max -> exists F, nth_error (k_sets k) j = Some (Some F)) ->
  exists sets, combine_faults opt s x additional k = Ret sets /\ forall j, 1 <= j <= max -> exists F, nth_error sets j = Some (Some F) /\ fault_ok (ksum n (fun b => base b \/ In b additional) j) j F.
Proof. intros WA NE (I1 & I2 & I3 & I4) M1 FULL. unfold combine_faults. destruct additional as [|a0 l0] eqn:EA; [congruence|]. rewrite <- EA in *.
  assert (UN : forall j, 1 <= j <= max -> exists U, nth_error (k_unred k) j = Some (Some U) /\ wf n U /\ forall e, In e U <-> ksum n base j e).
  { intros j Hj. destruct (FULL j Hj) as (F & EF). destruct (I4 _ _ EF) as (_ & (U & EU) & _). exists U. split; auto. }
  destruct (UN 1 ltac:(lia)) as (U1 & E1 & W1 & Q1). rewrite E1.
  destruct (combine_inv additional WA (max - 1) 1 (set_nth 1 (Some (U1 ++ additional)) (k_unred k))) as (r & ER & LR & HR); try lia.
  - now rewrite set_nth_length.
  - intros j Hj. replace j with 1 by lia. rewrite nth_error_set by lia. cbn [Nat.eqb]. eexists. split; [reflexivity|]. split; [apply wf_app; auto|]. intros e. rewrite in_app_iff, Q1. 
    rewrite ksum_split by (try apply base_length; intros b Hb; apply (wf_in n additional); auto). split; (intros [H|H]; [left; auto|right]).
    + exists (vzero n), e. split; [reflexivity|]. split; auto. rewrite (vxor_zero_l n); auto. apply (wf_in n additional); auto.
    + destruct H as (u & a & -> & Ha & ->). rewrite (vxor_zero_l n); auto. apply (wf_in n additional); auto.
  - intros j Hj. rewrite nth_error_set by lia. replace (j =? 1) with false by (symmetry; apply Nat.eqb_neq; lia). apply UN. lia.
  - rewrite ER. cbn [pbind]. eexists. split; [reflexivity|]. intros j Hj. destruct j as [|j]; [lia|]. cbn [nth_error]. destruct (HR (S j) Hj) as (U & EU & WU & QU).
    exists (remove_trivial_faults opt U stabs mw (S j)). split.
    + rewrite nth_error_map. rewrite (nth_error_nth' _ 0) by (rewrite seq_length; lia). rewrite seq_nth by lia. cbn [option_map plus]. now rewrite (nth_nth_error _ _ _ _ EU).
    + apply (reduce_ok _ (S j) U false); auto; intros e He; [apply QU|left; apply QU]; auto. Qed.
End Cache.
