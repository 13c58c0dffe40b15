(** * UfhProofs3: the erasure decoder of UFHeuristic *)
From Verif Require Export UfhProofs2.

Lemma NoDup_app_j {A} (l m : list A) : NoDup l -> NoDup m -> (forall x, In x l -> In x m -> False) -> NoDup (l ++ m).
Proof. intros Nl Nm D. induction l as [|x l IHl]; simpl; auto. apply NoDup_cons_iff in Nl as [N1 N2]. constructor.
  - rewrite in_app_iff. intros [K|K]; [auto|apply (D x); simpl; auto].
  - apply IHl; auto. intros y K1 K2. apply (D y); simpl; auto. Qed.
Section U.
Variables (n : nat) (H : mat).
Hypothesis HH : wf n H.
Hypothesis Hne : H <> [].
Hypothesis Hn : 0 < n.
Let m := length H.
Let N := n + m.

(** only marks are added *)
Definition R (f g : forest) : Prop := same_tree f g /\ forall v, t_deleted (nd f v) = t_deleted (nd g v) /\ (t_marked (nd f v) = true -> t_marked (nd g v) = true).
Lemma R_refl f : R f f.
Proof. split; [apply same_tree_refl|auto]. Qed.
Lemma R_trans f g h : R f g -> R g h -> R f h.
Proof. intros [A B] [C D]. split; [eapply same_tree_trans; eauto|]. intros v. destruct (B v), (D v). split; [congruence|auto]. Qed.
Definition J (f : forest) (acc : list nat) : Prop := forall x, In x acc -> x < N /\ t_marked (nd f x) = true.

Lemma visit_ok root f acc v : length f = N -> v < N -> J f acc ->
  forall st, visit n root (f, acc) v = st -> R f (fst st) /\ J (fst st) (snd st) /\ (n <= v -> t_marked (nd (fst st) v) = true).
Proof. intros L Hv HJ st <-. unfold visit. destruct (_ || _) eqn:E; cbn [fst snd].
  - assert (En := nd_upd f v setMarked). rewrite L in En. specialize (fun w => En w Hv).
    assert (Rr : R f (upd f v setMarked)).
    { split; [apply same_tree_upd; [lia|auto]|]. intros w. rewrite En by auto. destruct (Nat.eqb_spec w v) as [->|]; auto. }
    split; auto. split.
    + intros x Hx. apply in_app_iff in Hx as [Hx|[<-|[]]].
      * destruct (HJ x Hx) as [K1 K2]. split; auto. apply Rr; auto.
      * split; auto. rewrite En, Nat.eqb_refl. auto.
    + intros _. rewrite En, Nat.eqb_refl. auto.
  - split; [apply R_refl|]. split; auto. intros K. apply orb_false_iff in E as [_ E]. apply Nat.leb_gt in E. lia. Qed.
Lemma visits_ok root l : forall f acc, length f = N -> (forall v, In v l -> v < N) -> J f acc ->
  forall st, fold_left (visit n root) l (f, acc) = st -> R f (fst st) /\ J (fst st) (snd st) /\ forall v, In v l -> n <= v -> t_marked (nd (fst st) v) = true.
Proof. induction l as [|v l IHl]; intros f acc L Hl HJ st Est; cbn [fold_left] in Est.
  - subst st. split; [apply R_refl|]. split; [auto|]. intros v [].
  - destruct (visit n root (f, acc) v) as [f1 acc1] eqn:Ev. destruct (visit_ok root f acc v L (Hl v (or_introl eq_refl)) HJ _ Ev) as (R1 & J1 & M1). cbn [fst snd] in *.
    assert (L1 : length f1 = N) by (destruct R1 as [[K _] _]; congruence).
    destruct (IHl f1 acc1 L1 (fun x Hx => Hl x (or_intror Hx)) J1 st Est) as (R2 & J2 & M2). split; [eapply R_trans; eauto|]. split; auto.
    intros w [<-|Hw] Hk; auto. apply R2, M1; auto. Qed.

Lemma desc_path f r x : desc f r x -> forall t k, path f r t k -> exists k', path f x t k' /\ k <= k'.
Proof. induction 1 as [|v p E D IHd]; intros t k P; [eauto|]. destruct (IHd t k P) as (k' & P' & Hk). exists (S k'). split; [econstructor; eauto|lia]. Qed.
Lemma acyclic f rho r x : forest_ok n N f rho -> r < N -> desc f r x -> par f r = Some x -> False.
Proof. intros (_ & F2 & _) Hr D E. destruct (F2 r Hr) as (_ & k & P & _). destruct (desc_path f r x D _ _ P) as (k' & P' & Hk).
  assert (P2 := pathS f r x _ _ E P'). destruct (path_fun _ _ _ _ P _ _ P2). lia. Qed.

Lemma bfs_ok f0 rho r : forest_ok n N f0 rho -> r < N -> forall fuel popped queue f acc, R f0 f -> J f acc ->
  NoDup (popped ++ queue) -> (forall x, In x (popped ++ queue) -> x < N /\ desc f0 r x /\ (x = r \/ exists p, In p popped /\ par f0 x = Some p)) ->
  (forall x c, In x popped -> In c (t_children (nd f0 x)) -> In c (popped ++ queue)) ->
  (forall x, In x popped -> n <= x -> t_marked (nd f x) = true) -> N <= length popped + fuel ->
  exists f' acc' popped', bfs fuel n r queue (f, acc) = Some (f', acc') /\ R f f' /\ J f' acc' /\ incl (popped ++ queue) popped' /\
    (forall x c, In x popped' -> In c (t_children (nd f0 x)) -> In c popped') /\ (forall x, In x popped' -> x < N /\ (n <= x -> t_marked (nd f' x) = true)).
Proof. intros F Hr. assert (F' := F). destruct F' as (_ & _ & _ & F4 & F5 & F6). induction fuel as [|fuel IHf]; intros popped queue f acc HR HJ Nd Hin Hch Hm Hl.
  - destruct queue as [|v queue].
    + exists f, acc, popped. split; auto. split; [apply R_refl|]. split; auto. rewrite app_nil_r in *. split; [intros x; auto|]. split; eauto. intros x Hx. split; [apply Hin; auto|auto].
    + exfalso. assert (K : length (popped ++ v :: queue) <= length (seq 0 N)) by (apply NoDup_incl_length; auto; intros x Hx; apply in_seq; destruct (Hin x Hx); lia).
      rewrite app_length, seq_length in K. simpl in K. lia.
  - destruct queue as [|v queue].
    + exists f, acc, popped. split; auto. split; [apply R_refl|]. split; auto. rewrite app_nil_r in *. split; [intros x; auto|]. split; eauto. intros x Hx. split; [apply Hin; auto|auto].
    + cbn [bfs]. destruct (Hin v (in_elt v popped queue)) as (Hv & Dv & _).
      assert (Lf : length f = N) by (destruct HR as [[K _] _], F as (L0 & _); congruence).
      destruct (visit n r (f, acc) v) as [f1 acc1] eqn:Ev. destruct (visit_ok r f acc v Lf Hv HJ _ Ev) as (R1 & J1 & M1). cbn [fst snd] in *.
      assert (L1 : length f1 = N) by (destruct R1 as [[K _] _]; congruence).
      assert (R01 : R f0 f1) by (eapply R_trans; eauto).
      assert (Ec : t_children (nd f1 v) = t_children (nd f0 v)) by (destruct R01 as [[_ K] _]; destruct (K v) as (_ & -> & _); auto). rewrite Ec.
      destruct (fold_left (visit n r) (t_children (nd f0 v)) (f1, acc1)) as [f2 acc2] eqn:Ef.
      destruct (fun K => visits_ok r (t_children (nd f0 v)) f1 acc1 L1 K J1 _ Ef) as (R2 & J2 & M2).
      { intros c Hc. apply F4 in Hc; auto. tauto. }
      cbn [fst snd] in *.
      assert (Pm : Permutation (popped ++ v :: queue) ((popped ++ [v]) ++ queue)) by (rewrite <- app_assoc; apply Permutation_refl).
      destruct (IHf (popped ++ [v]) (queue ++ t_children (nd f0 v)) f2 acc2) as (f' & acc' & popped' & E & Rf & Jf & If & Cf & Mf).
      * eapply R_trans; eauto.
      * auto.
      * rewrite app_assoc. apply NoDup_app_j; [apply (Permutation_NoDup Pm Nd)|apply F5; auto|].
        intros c Hc Hc'. apply F4 in Hc'; auto. destruct Hc' as [Hcn Hcp]. apply (Permutation_in _ (Permutation_sym Pm)) in Hc.
        destruct (Hin c Hc) as (_ & _ & [->|(p & Hp & Ep)]); [apply (acyclic f0 rho r v F Hr Dv Hcp)|].
        assert (p = v) by congruence. subst p. apply NoDup_remove_2 in Nd. apply Nd, in_or_app. auto.
      * intros x Hx. rewrite app_assoc in Hx. apply in_app_iff in Hx as [Hx|Hx].
        -- apply (Permutation_in _ (Permutation_sym Pm)) in Hx. destruct (Hin x Hx) as (? & ? & D). split; auto. split; auto. destruct D as [?|(p & ? & ?)]; auto.
           right. exists p. split; auto. apply in_or_app; auto.
        -- apply F4 in Hx; auto. destruct Hx as [Hxn Hxp]. split; auto. split; [econstructor; eauto|]. right. exists v. split; auto. apply in_or_app. right; left; auto.
      * intros x c Hx Hc. rewrite app_assoc. apply in_app_iff in Hx as [Hx|[<-|[]]]; [|apply in_or_app; auto].
        apply in_or_app. left. apply (Permutation_in _ Pm). eapply Hch; eauto.
      * intros x Hx Hk. apply R2. apply in_app_iff in Hx as [Hx|[<-|[]]]; [|auto]. apply R1, Hm; auto.
      * rewrite app_length. simpl. lia.
      * exists f', acc', popped'. split; auto. split; [apply (R_trans f f1); auto; apply (R_trans f1 f2); auto|]. split; auto. split; auto.
        intros x Hx. apply If. rewrite app_assoc. apply in_or_app. left. apply (Permutation_in _ Pm); auto. Qed.

Lemma interiors_ok rho roots : forall f, forest_ok n N f rho -> (forall r, In r roots -> r < N) ->
  exists f' comps, interiors n roots f = Some (f', comps) /\ R f f' /\ (forall C x, In C comps -> In x C -> x < N /\ t_marked (nd f' x) = true) /\
    forall r v, In r roots -> desc f r v -> v < N -> n <= v -> t_marked (nd f' v) = true.
Proof. induction roots as [|r roots IHr]; intros f F Hr; cbn [interiors].
  - exists f, []. split; auto. split; [apply R_refl|]. split; [intros C x []|intros r v []].
  - assert (Lf : length f = N) by apply F. destruct (bfs_ok f rho r F (Hr r (or_introl eq_refl)) (length f) [] [r] f []) as (f1 & acc1 & P & E & R1 & J1 & I1 & C1 & M1).
    + apply R_refl.
    + intros x [].
    + simpl. constructor; [intros []|constructor].
    + intros x [<-|[]]. split; [apply Hr; left; auto|]. split; [constructor|auto].
    + intros x c [].
    + intros x [].
    + simpl. lia.
    + rewrite E. assert (F1 : forest_ok n N f1 rho) by (apply (same_tree_ok _ _ f); auto; apply R1).
      destruct (IHr f1 F1 (fun x Hx => Hr x (or_intror Hx))) as (f2 & comps & E2 & R2 & K2 & D2). rewrite E2.
      exists f2, (acc1 :: comps). split; auto. split; [eapply R_trans; eauto|]. split.
      * intros C x [<-|HC] Hx; [|eapply K2; eauto]. destruct (J1 x Hx). split; auto. apply R2; auto.
      * intros r' v [<-|Hr'] Dv Hv Hk.
        -- apply R2. apply M1; auto. clear Hk. destruct F as (_ & _ & _ & F4 & _ & F6). induction Dv as [|v p Ep Dp IHd].
           ++ apply I1. left; auto.
           ++ assert (Hp : p < N) by (eapply F6; eauto). apply (C1 p); auto. apply F4; auto.
        -- apply (D2 r'); auto. destruct R1 as [[_ K] _]. clear - Dv K. induction Dv as [|v p Ep Dp IHd]; [constructor|].
           apply descS with p; auto. unfold par in *. destruct (K v) as (<- & _). auto. Qed.
End U.
