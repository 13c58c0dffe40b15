(** * UfhForest: the union-find forest *)
From Verif Require Export UfhModel UfProofs3.
From Coq Require Export Permutation Relations.

Definition par (f : forest) (v : nat) : option nat := t_parent (nd f v).
(** [r] is the root reached from [v] by following [k] parent links *)
Inductive path (f : forest) : nat -> nat -> nat -> Prop :=
| path0 v : par f v = None -> path f v v 0
| pathS v p r k : par f v = Some p -> path f p r k -> path f v r (S k).

Lemma upd_length f v g : length (upd f v g) = length f.
Proof. apply set_nth_length. Qed.
Lemma nd_upd f v g w : v < length f -> nd (upd f v g) w = if w =? v then g (nd f v) else nd f w.
Proof. intros Hv. unfold nd, upd. destruct (Nat.eqb_spec w v) as [->|E]; [now apply nth_set_nth_eq|now apply nth_set_nth_neq]. Qed.

Lemma path_root f v r k : path f v r k -> par f r = None.
Proof. induction 1; auto. Qed.
Lemma path_inv f v r k : path f v r k -> match k with 0 => par f v = None /\ r = v | S k' => exists p, par f v = Some p /\ path f p r k' end.
Proof. intros P. destruct P; eauto. Qed.
Lemma path_fun f v r k : path f v r k -> forall r' k', path f v r' k' -> r = r' /\ k = k'.
Proof. induction 1 as [v E|v p r k E P IHp]; intros r' k' Q; apply path_inv in Q; destruct k' as [|k'].
  - destruct Q; subst; auto.
  - destruct Q as (p & E' & _). congruence.
  - destruct Q. congruence.
  - destruct Q as (p' & E' & Q). assert (p' = p) by congruence. subst p'. destruct (IHp _ _ Q). subst; auto. Qed.
Lemma findLoop_ok f : forall k v r fuel, path f v r k -> k <= S fuel -> findLoop fuel f v (par f v) = Some r.
Proof. induction k as [|k IHk]; intros v r fuel P Hk; apply path_inv in P.
  - destruct P as [E ->]. rewrite E. destruct fuel; reflexivity.
  - destruct P as (p & E & P). rewrite E. assert (P' := P). apply path_inv in P'. destruct k as [|k].
    + destruct P' as [E' ->]. unfold par in E'. destruct fuel; cbn [findLoop]; rewrite E'; reflexivity.
    + destruct P' as (q & E' & _). destruct fuel as [|fuel]; [lia|]. cbn [findLoop]. unfold par in E'. rewrite E'. rewrite <- E'. apply (IHk p r fuel P). lia. Qed.

Lemma perm_filter_or {A} (p q : A -> bool) l : (forall x, In x l -> p x = true -> q x = false) ->
  Permutation (filter (fun x => p x || q x) l) (filter p l ++ filter q l).
Proof. induction l as [|x l IHl]; intros D; simpl; auto. assert (D' : forall y, In y l -> p y = true -> q y = false) by (intros; apply D; auto; right; auto).
  destruct (p x) eqn:Ep; simpl.
  - rewrite (D x (or_introl eq_refl) Ep). simpl. apply perm_skip. apply IHl; auto.
  - destruct (q x); auto. apply Permutation_cons_app. apply IHl; auto. Qed.
Lemma filter_ext_in' {A} (p q : A -> bool) l : (forall x, In x l -> p x = q x) -> filter p l = filter q l.
Proof. apply filter_ext_in. Qed.

(** [rho] is the function from vertices to roots *)
Definition forest_ok (n N : nat) (f : forest) (rho : nat -> nat) : Prop :=
  length f = N /\
  (forall v, v < N -> rho v < N /\ exists k, path f v (rho v) k /\ k < t_size (nd f (rho v))) /\
  (forall r, r < N -> par f r = None ->
     t_size (nd f r) = length (filter (fun v => rho v =? r) (seq 0 N)) /\
     Permutation (t_checks (nd f r)) (filter (fun v => (n <=? v) && (rho v =? r)) (seq 0 N))) /\
  (forall v c, v < N -> (In c (t_children (nd f v)) <-> c < N /\ par f c = Some v)) /\
  (forall v, v < N -> NoDup (t_children (nd f v))) /\
  (forall c v, c < N -> par f c = Some v -> v < N).

Section F.
Variables (n N : nat).

Lemma rho_root f rho v : forest_ok n N f rho -> v < N -> par f (rho v) = None /\ rho (rho v) = rho v /\ rho v < N.
Proof. intros (L & P & _) Hv. destruct (P v Hv) as (Hr & k & Pk & _). assert (Hn := path_root _ _ _ _ Pk). split; auto. split; auto.
  destruct (P (rho v) Hr) as (_ & k' & Pk' & _). assert (Q := path0 f (rho v) Hn). now destruct (path_fun _ _ _ _ Pk' _ _ Q). Qed.
Lemma root_rho f rho v : forest_ok n N f rho -> v < N -> par f v = None -> rho v = v.
Proof. intros (L & P & _) Hv Hn. destruct (P v Hv) as (Hr & k & Pk & _). now destruct (path_fun _ _ _ _ Pk _ _ (path0 f v Hn)). Qed.
Lemma size_le f rho r : forest_ok n N f rho -> r < N -> par f r = None -> 1 <= t_size (nd f r) <= N.
Proof. intros F Hr Hn. assert (F' := F). destruct F as (L & P & R & _). destruct (R r Hr Hn) as [E _]. split.
  - destruct (P r Hr) as (_ & k & _ & Hk). rewrite (root_rho _ _ _ F' Hr Hn) in Hk. lia.
  - rewrite E. assert (K : forall l : list nat, length (filter (fun v => rho v =? r) l) <= length l).
    { induction l as [|x l IHl]; simpl; auto. destruct (rho x =? r); simpl; lia. }
    specialize (K (seq 0 N)). now rewrite seq_length in K. Qed.
Lemma findOpt_ok f rho v : forest_ok n N f rho -> v < N -> findOpt f v = Some (rho v).
Proof. intros F Hv. assert (F' := F). destruct F as (L & P & R & _). destruct (P v Hv) as (Hr & k & Pk & Hk).
  unfold findOpt. apply (findLoop_ok f k); auto. destruct (rho_root _ _ _ F' Hv) as (Hn & _). destruct (size_le _ _ _ F' Hr Hn). lia. Qed.
Lemma Find_ok f rho v : forest_ok n N f rho -> v < N -> Find f v = rho v.
Proof. intros F Hv. unfold Find. now rewrite (findOpt_ok f rho v F Hv). Qed.

Lemma init_ok : forall m, N = n + m -> forest_ok n N (initForest n m) (fun v => v).
Proof. intros m ->. assert (E : forall v, v < n + m -> nd (initForest n m) v = fresh n v).
  { intros v Hv. unfold nd, initForest. rewrite (nth_indep _ _ (fresh n 0)) by (rewrite map_length, seq_length; auto). rewrite map_nth. now rewrite seq_nth. }
  assert (F1 : forall a len r, a <= r -> r < a + len -> filter (fun v => v =? r) (seq a len) = [r]).
  { intros a len. revert a. induction len as [|len IHl]; intros a r H1 H2; [lia|]. simpl. destruct (Nat.eqb_spec a r) as [->|].
    - f_equal. assert (K : forall b l, r < b -> filter (fun v => v =? r) (seq b l) = []).
      { clear. intros b l. revert b. induction l as [|l IHl]; intros b Hb; simpl; auto. destruct (Nat.eqb_spec b r); [lia|]. apply IHl. lia. }
      apply K. lia.
    - apply IHl; lia. }
  split; [unfold initForest; now rewrite map_length, seq_length|]. split.
  { intros v Hv. split; auto. exists 0. split; [constructor; unfold par; now rewrite E|rewrite E; auto]. }
  split.
  { intros r Hr _. rewrite E by auto. simpl. rewrite F1 by lia. split; auto.
    replace (filter (fun v => (n <=? v) && (v =? r)) (seq 0 (n + m))) with (filter (fun v => n <=? v) (filter (fun v => v =? r) (seq 0 (n + m)))).
    - rewrite F1 by lia. simpl. destruct (n <=? r); auto.
    - clear. induction (seq 0 (n + m)) as [|x l IHl]; simpl; auto. destruct (x =? r); simpl; [destruct (n <=? x); simpl; now rewrite IHl|].
      rewrite andb_false_r. auto. }
  split; [intros v c Hv; rewrite E by auto; simpl; split; [intros []|]; intros [Hc Ec]; unfold par in Ec; rewrite E in Ec by auto; discriminate|].
  split; [intros v Hv; rewrite E by auto; constructor|]. intros c v Hc Ec. unfold par in Ec. rewrite E in Ec by auto. discriminate. Qed.

(** changes to the boundary lists and flags do not matter *)
Definition same_tree (f g : forest) : Prop := length f = length g /\ forall v, t_parent (nd f v) = t_parent (nd g v) /\ t_children (nd f v) = t_children (nd g v) /\
  t_size (nd f v) = t_size (nd g v) /\ t_checks (nd f v) = t_checks (nd g v).
Lemma same_tree_path f g v r k : same_tree f g -> path f v r k -> path g v r k.
Proof. intros [_ S]. induction 1 as [v E|v p r k E P IHp].
  - constructor. unfold par in *. destruct (S v) as (<- & _). auto.
  - econstructor; eauto. unfold par in *. destruct (S v) as (<- & _). auto. Qed.
Lemma same_tree_ok f g rho : same_tree f g -> forest_ok n N f rho -> forest_ok n N g rho.
Proof. intros S (F1 & F2 & F3 & F4 & F5 & F6). assert (S' := S). destruct S as [SL S]. unfold par in *.
  split; [congruence|]. split. { intros v Hv. destruct (F2 v Hv) as (Hr & k & P & Hk). split; auto. exists k. split; [eapply same_tree_path; eauto|]. destruct (S (rho v)) as (_ & _ & <- & _). auto. }
  split. { intros r Hr Hn. destruct (S r) as (E1 & _ & <- & <-). apply F3; auto. unfold par in *. congruence. }
  split. { intros v c Hv. destruct (S v) as (_ & <- & _). unfold par. destruct (S c) as (<- & _). apply F4; auto. }
  split. { intros v Hv. destruct (S v) as (_ & <- & _). auto. }
  intros c v Hc. unfold par. destruct (S c) as (<- & _). apply F6; auto. Qed.
Lemma same_tree_refl f : same_tree f f.
Proof. split; auto. Qed.
Lemma same_tree_trans f g h : same_tree f g -> same_tree g h -> same_tree f h.
Proof. intros [L1 S1] [L2 S2]. split; [congruence|]. intros v. destruct (S1 v) as (? & ? & ? & ?), (S2 v) as (? & ? & ? & ?). repeat split; congruence. Qed.
Lemma same_tree_upd f v g : v < length f -> (forall a, t_parent (g a) = t_parent a /\ t_children (g a) = t_children a /\ t_size (g a) = t_size a /\ t_checks (g a) = t_checks a) ->
  same_tree f (upd f v g).
Proof. intros Hv Hg. split; [now rewrite upd_length|]. intros w. rewrite (nd_upd f v g w Hv). destruct (Nat.eqb_spec w v) as [->|]; auto.
  destruct (Hg (nd f v)) as (-> & -> & -> & ->). auto. Qed.

Definition moved (rho : nat -> nat) (loser winner v : nat) : nat := if rho v =? loser then winner else rho v.

Lemma add_nd f a b w : length f = N -> a < N -> b < N -> a <> b ->
  nd (addFirstToSecondTree n f a b) w =
    if w =? a then mkN (Some b) (t_children (nd f a)) (t_size (nd f a)) (t_boundary (nd f a)) (if n <=? a then [a] else []) (t_marked (nd f a)) (t_deleted (nd f a))
    else if w =? b then mkN (t_parent (nd f b)) (t_children (nd f b) ++ [a]) (t_size (nd f b) + t_size (nd f a)) (t_boundary (nd f b)) (t_checks (nd f b) ++ t_checks (nd f a)) (t_marked (nd f b)) (t_deleted (nd f b))
    else nd f w.
Proof. intros L Ha Hb D. unfold addFirstToSecondTree. rewrite nd_upd by (rewrite upd_length; lia). rewrite !nd_upd by lia.
  destruct (Nat.eqb_spec a b); [tauto|]. destruct (Nat.eqb_spec w a); auto. Qed.

Lemma add_ok f rho a b : forest_ok n N f rho -> a < N -> b < N -> a <> b -> par f a = None -> par f b = None ->
  forest_ok n N (addFirstToSecondTree n f a b) (moved rho a b).
Proof. intros F Ha Hb D Na Nb. assert (F' := F). destruct F as (L & F2 & F3 & F4 & F5 & F6).
  set (g := addFirstToSecondTree n f a b). assert (E : forall w, nd g w = _) by (intros w; apply (add_nd f a b w L Ha Hb D)).
  assert (Pa : par g a = Some b) by (unfold par; rewrite E, Nat.eqb_refl; auto).
  assert (Pw : forall w, w <> a -> par g w = par f w).
  { intros w Hw. unfold par. rewrite E. destruct (Nat.eqb_spec w a); [tauto|]. destruct (Nat.eqb_spec w b) as [->|]; auto. }
  assert (Ra := root_rho _ _ _ F' Ha Na). assert (Rb := root_rho _ _ _ F' Hb Nb).
  assert (Q : forall v r k, path f v r k -> r <> a -> path g v r k).
  { induction 1 as [v Ev|v p r k Ev P IHp]; intros Hr.
    - constructor. now rewrite Pw.
    - econstructor; [|apply IHp; auto]. rewrite Pw; auto. intros ->. congruence. }
  assert (Qa : forall v r k, path f v r k -> r = a -> path g v b (S k)).
  { induction 1 as [v Ev|v p r k Ev P IHp]; intros Hr.
    - subst. econstructor; [exact Pa|]. constructor. rewrite Pw; auto.
    - econstructor; [|apply IHp; auto]. rewrite Pw; auto. intros ->. congruence. }
  assert (Sb : t_size (nd g b) = t_size (nd f b) + t_size (nd f a)) by (rewrite E; destruct (Nat.eqb_spec b a); [congruence|now rewrite Nat.eqb_refl]).
  split; [unfold g, addFirstToSecondTree; now rewrite !upd_length|]. split.
  { intros v Hv. destruct (F2 v Hv) as (Hr & k & Pk & Hk). unfold moved. destruct (Nat.eqb_spec (rho v) a) as [Ea|Ea].
    - split; auto. exists (S k). split; [apply (Qa v (rho v)); auto|]. rewrite Sb. rewrite Ea in Hk. destruct (size_le _ _ _ F' Hb Nb). lia.
    - split; auto. exists k. split; [apply Q; auto|]. destruct (Nat.eq_dec (rho v) b) as [Eb|Eb]; [rewrite Eb in *; lia|].
      rewrite E. destruct (Nat.eqb_spec (rho v) a); [tauto|]. destruct (Nat.eqb_spec (rho v) b); [tauto|auto]. }
  split.
  { intros r Hr Hn. assert (r <> a) by congruence. rewrite Pw in Hn by auto. destruct (F3 r Hr Hn) as [S1 S2]. destruct (Nat.eq_dec r b) as [->|Db].
    - destruct (F3 a Ha Na) as [A1 A2]. rewrite Sb.
      assert (Eq1 : Permutation (filter (fun v => moved rho a b v =? b) (seq 0 N)) (filter (fun v => rho v =? b) (seq 0 N) ++ filter (fun v => rho v =? a) (seq 0 N))).
      { rewrite <- perm_filter_or. 2:{ intros x _ E1. apply Nat.eqb_eq in E1. apply Nat.eqb_neq. congruence. }
        rewrite (filter_ext_in' _ (fun x => (rho x =? b) || (rho x =? a))); auto. intros x _. unfold moved. destruct (Nat.eqb_spec (rho x) a).
        - rewrite Nat.eqb_refl. now rewrite orb_true_r.
        - now rewrite orb_false_r. }
      split.
      + rewrite (Permutation_length Eq1), app_length. lia.
      + rewrite E. destruct (Nat.eqb_spec b a); [congruence|]. rewrite Nat.eqb_refl. simpl.
        rewrite (Permutation_app S2 A2). rewrite <- perm_filter_or.
        2:{ intros x _ E1. apply andb_true_iff in E1 as [_ E1]. apply Nat.eqb_eq in E1. destruct (Nat.eqb_spec (rho x) a); [congruence|]. apply andb_false_r. }
        rewrite (filter_ext_in' _ (fun v => (n <=? v) && (moved rho a b v =? b))); auto. intros x _. unfold moved. destruct (n <=? x); simpl; auto.
        destruct (Nat.eqb_spec (rho x) a); [rewrite Nat.eqb_refl; now rewrite orb_true_r|now rewrite orb_false_r].
    - assert (Em : forall x, (moved rho a b x =? r) = (rho x =? r)).
      { intros x. unfold moved. destruct (Nat.eqb_spec (rho x) a) as [->|]; auto. destruct (Nat.eqb_spec b r), (Nat.eqb_spec a r); congruence. }
      rewrite (filter_ext_in' _ (fun v => rho v =? r)) by (intros; apply Em).
      rewrite (filter_ext_in' (fun v => (n <=? v) && (moved rho a b v =? r)) (fun v => (n <=? v) && (rho v =? r))) by (intros; now rewrite Em).
      rewrite E. destruct (Nat.eqb_spec r a); [tauto|]. destruct (Nat.eqb_spec r b); [tauto|]. auto. }
  split.
  { intros v c Hv. rewrite E. destruct (Nat.eqb_spec v a) as [->|Dv].
    - cbn [t_children]. rewrite F4 by auto. destruct (Nat.eq_dec c a) as [->|Dc].
      + rewrite Pa, Na. split; intros [_ ?]; [discriminate|congruence].
      + now rewrite (Pw c Dc).
    - destruct (Nat.eqb_spec v b) as [->|Db].
      + cbn [t_children]. rewrite in_app_iff, F4 by auto. simpl. destruct (Nat.eq_dec c a) as [->|Dc].
        * rewrite Pa. split; auto.
        * rewrite (Pw c Dc). split; auto. intros [?|[?|[]]]; auto. congruence.
      + rewrite F4 by auto. destruct (Nat.eq_dec c a) as [->|Dc].
        * rewrite Pa, Na. split; intros [_ ?]; congruence.
        * now rewrite (Pw c Dc). }
  split.
  { intros v Hv. rewrite E. destruct (Nat.eqb_spec v a) as [->|Dv]; [apply F5; auto|]. destruct (Nat.eqb_spec v b) as [->|Db]; [|apply F5; auto].
    cbn [t_children]. apply Permutation_NoDup with (a :: t_children (nd f b)); [apply Permutation_cons_append|]. constructor; [|apply F5; auto].
    rewrite F4 by auto. rewrite Na. intros [_ ?]; discriminate. }
  intros c v Hc Ec. destruct (Nat.eq_dec c a) as [->|Dc]; [rewrite Pa in Ec; congruence|]. rewrite (Pw c Dc) in Ec. eapply F6; eauto. Qed.

Lemma union_ok f rho v w : forest_ok n N f rho -> v < N -> w < N ->
  (rho v = rho w /\ Union n f v w = f) \/
  exists a b, rho v <> rho w /\ ((a = rho v /\ b = rho w /\ t_size (nd f a) <= t_size (nd f b)) \/ (a = rho w /\ b = rho v /\ t_size (nd f b) > t_size (nd f a))) /\
    Union n f v w = addFirstToSecondTree n f a b /\ forest_ok n N (Union n f v w) (moved rho a b).
Proof. intros F Hv Hw. unfold Union. rewrite !(Find_ok f rho) by auto. destruct (Nat.eqb_spec (rho v) (rho w)) as [E|D]; auto. right.
  destruct (rho_root _ _ _ F Hv) as (Nv & _ & Lv). destruct (rho_root _ _ _ F Hw) as (Nw & _ & Lw).
  destruct (Nat.leb_spec (t_size (nd f (rho v))) (t_size (nd f (rho w)))).
  - exists (rho v), (rho w). split; [auto|]. split; [left; auto|]. split; [auto|]. apply add_ok; auto.
  - exists (rho w), (rho v). split; [auto|]. split; [right; auto|]. split; [auto|]. apply add_ok; auto. Qed.

(** ** sequences of unions *)
Definition runUnions (f : forest) (ops : list (nat * nat)) : forest := fold_left (fun f e => Union n f (fst e) (snd e)) ops f.
Definition joined (ops : list (nat * nat)) : nat -> nat -> Prop := clos_refl_sym_trans nat (fun v w => In (v, w) ops).

Lemma joined_mono ops ops' v w : incl ops ops' -> joined ops v w -> joined ops' v w.
Proof. intros I. induction 1; [apply rst_step; auto|apply rst_refl|apply rst_sym; auto|eapply rst_trans; eauto]. Qed.

Lemma run_ok ops : forall done f rho, forest_ok n N f rho -> (forall v w, In (v, w) ops -> v < N /\ w < N) -> (forall v w, In (v, w) done -> v < N /\ w < N) ->
  (forall v w, v < N -> w < N -> (rho v = rho w <-> joined done v w)) ->
  exists rho', forest_ok n N (runUnions f ops) rho' /\ forall v w, v < N -> w < N -> (rho' v = rho' w <-> joined (done ++ ops) v w).
Proof. induction ops as [|[a b] ops IHo]; intros done f rho F Ho Hd J; simpl.
  - exists rho. split; auto. now rewrite app_nil_r.
  - destruct (Ho a b (or_introl eq_refl)) as [Ha Hb].
    assert (Hbd : forall v w, joined (done ++ [(a, b)]) v w -> v < N -> w < N).
    { assert (K : forall v w, joined (done ++ [(a, b)]) v w -> (v < N <-> w < N)); [|intros v w K1 Hv; apply (K v w K1); auto].
      induction 1 as [v w K|v|v w K IHk|v w x K1 IH1 K2 IH2]; try tauto.
      apply in_app_or in K as [K|[K|[]]]; [destruct (Hd v w K); tauto|]. injection K as <- <-. tauto. }
    replace (done ++ (a, b) :: ops) with ((done ++ [(a, b)]) ++ ops) by (now rewrite <- app_assoc).
    assert (Hd' : forall v w, In (v, w) (done ++ [(a, b)]) -> v < N /\ w < N).
    { intros v w K. apply in_app_or in K as [K|[K|[]]]; auto. injection K as <- <-. auto. }
    assert (Jab : joined (done ++ [(a, b)]) a b) by (apply rst_step, in_or_app; right; left; auto).
    assert (Inc : incl done (done ++ [(a, b)])) by (intros x Hx; apply in_or_app; auto).
    destruct (union_ok f rho a b F Ha Hb) as [(E & Eu)|(x & y & D & O & Eu & F')].
    + rewrite Eu. apply (IHo (done ++ [(a, b)]) f rho); auto. { intros v w K; apply Ho; right; auto. }
      intros v w Hv Hw. split; [intros K; apply (joined_mono done); auto; apply J; auto|].
      intros K. induction K as [v w K|v|v w K IHk|v w z K1 IH1 K2 IH2]; auto.
      * apply in_app_or in K as [K|[K|[]]]; [apply J; auto; apply rst_step; auto|]. injection K as <- <-. auto.
      * symmetry. apply IHk; auto.
      * assert (Hz : w < N) by (apply (Hbd v w); auto). rewrite IH1, IH2; auto.
    + apply (IHo (done ++ [(a, b)]) (Union n f a b) (moved rho x y)); auto. { intros v w K; apply Ho; right; auto. }
      assert (Exy : (x = rho a /\ y = rho b) \/ (x = rho b /\ y = rho a)) by (destruct O as [(-> & -> & _)|(-> & -> & _)]; auto).
      assert (Jxy : forall v w, v < N -> w < N -> rho v = x -> rho w = y -> joined (done ++ [(a, b)]) v w).
      { intros v w Hv Hw E1 E2. destruct Exy as [[-> ->]|[-> ->]].
        - apply rst_trans with a; [apply (joined_mono done); auto; apply J; auto|]. apply rst_trans with b; auto. apply (joined_mono done); auto. apply J; auto.
        - apply rst_trans with b; [apply (joined_mono done); auto; apply J; auto|]. apply rst_trans with a; [apply rst_sym; auto|]. apply (joined_mono done); auto. apply J; auto. }
      intros v w Hv Hw. unfold moved. split.
      * destruct (Nat.eqb_spec (rho v) x), (Nat.eqb_spec (rho w) x); intros E.
        -- apply (joined_mono done); auto. apply J; auto. congruence.
        -- apply Jxy; auto.
        -- apply rst_sym, Jxy; auto.
        -- apply (joined_mono done); auto. apply J; auto.
      * intros K. induction K as [v w K|v|v w K IHk|v w z K1 IH1 K2 IH2]; auto.
        -- apply in_app_or in K as [K|[K|[]]].
           ++ assert (E : rho v = rho w) by (apply J; auto; apply rst_step; auto). now rewrite E.
           ++ injection K as <- <-. destruct Exy as [[-> ->]|[-> ->]].
              ** rewrite Nat.eqb_refl. destruct (Nat.eqb_spec (rho b) (rho a)); congruence.
              ** rewrite Nat.eqb_refl. destruct (Nat.eqb_spec (rho a) (rho b)); congruence.
        -- symmetry. apply IHk; auto.
        -- assert (Hz : w < N) by (apply (Hbd v w); auto). rewrite IH1, IH2; auto. Qed.
End F.
