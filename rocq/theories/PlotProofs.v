(** * PlotProofs: sorting, dictionaries, loops *)
From Verif Require Export PlotModel.
Local Open Scope nat_scope.

Record ord {A} (le : A -> A -> bool) : Prop := mkOrd { o_tot : forall a b, le a b = false -> le b a = true; o_trn : forall a b c, le a b = true -> le b c = true -> le a c = true }.
Record lin {A} (le : A -> A -> bool) : Prop := mkLin { l_ord : ord le; l_asym : forall a b, le a b = true -> le b a = true -> a = b }.
Lemma lin_Z : lin Z.leb.
Proof. split; [split|]; intros; lia. Qed.
Lemma ord_key {V} : ord (@by_key V).
Proof. unfold by_key. split; intros; lia. Qed.
Lemma lin_lle : lin lle.
Proof. split; [split|].
  - induction a as [|x a IHa]; intros [|y b]; cbn; auto; try discriminate. destruct (Z.eqb_spec x y) as [->|N]; [rewrite Z.eqb_refl; auto|]. destruct (Z.eqb_spec y x); [congruence|]. lia.
  - induction a as [|x a IHa]; intros [|y b] [|z c]; cbn; auto; try discriminate. destruct (Z.eqb_spec x y) as [->|N].
    + destruct (Z.eqb_spec y z) as [->|N']; eauto.
    + destruct (Z.eqb_spec y z) as [->|N'].
      * destruct (Z.eqb_spec x z); [congruence|auto].
      * destruct (Z.eqb_spec x z) as [->|N'']; lia.
  - induction a as [|x a IHa]; intros [|y b]; cbn; auto; try discriminate. destruct (Z.eqb_spec x y) as [->|N]; [rewrite Z.eqb_refl; intros; f_equal; auto|]. destruct (Z.eqb_spec y x); [congruence|]. lia. Qed.
Lemma lin_lex {A B} (lea : A -> A -> bool) (leb : B -> B -> bool) : lin lea -> lin leb -> lin (lex lea leb).
Proof. intros [[Ta Ra] Sa] [[Tb Rb] Sb]. unfold lex. split; [split|]; intros [a b] [a' b']; cbn [fst snd].
  - specialize (Ta a a'). destruct (lea a a') eqn:E, (lea a' a) eqn:E'; cbn; auto; try (specialize (Ta eq_refl); discriminate); discriminate.
  - intros [a'' b'']. cbn [fst snd]. destruct (lea a a') eqn:E1, (lea a' a) eqn:E1', (lea a' a'') eqn:E2, (lea a'' a') eqn:E2'; cbn; try discriminate; intros H1 H2.
    + rewrite (Ra _ _ _ E1 E2), (Ra _ _ _ E2' E1'). cbn. eauto.
    + rewrite (Ra _ _ _ E1 E2). destruct (lea a'' a) eqn:E; auto. rewrite (Ra _ _ _ E E1) in E2'. discriminate.
    + rewrite (Ra _ _ _ E1 E2). destruct (lea a'' a) eqn:E; auto. rewrite (Ra _ _ _ E2 E) in E1'. discriminate.
    + rewrite (Ra _ _ _ E1 E2). destruct (lea a'' a) eqn:E; auto. rewrite (Ra _ _ _ E2 E) in E1'. discriminate.
  - destruct (lea a a') eqn:E, (lea a' a) eqn:E'; cbn; try discriminate. intros. f_equal; auto. Qed.
Lemma lin_row : lin row_le.
Proof. unfold row_le. apply lin_lex; [apply lin_Z|]. apply lin_lex; [apply lin_lle|]. apply lin_lex; [apply lin_Z|apply lin_lle]. Qed.

Section Sort.
Context {A : Type} (le : A -> A -> bool) (O : ord le).
Lemma insert_perm a l : Permutation (insert le a l) (a :: l).
Proof. induction l as [|b l IHl]; cbn; auto. destruct (le a b); auto. etransitivity; [apply perm_skip, IHl|apply perm_swap]. Qed.
Lemma isort_perm l : Permutation (isort le l) l.
Proof. induction l as [|a l IHl]; cbn; auto. etransitivity; [apply insert_perm|auto]. Qed.
Definition leP a b := le a b = true.
Lemma insert_sorted a l : Sorted leP l -> Sorted leP (insert le a l).
Proof. induction l as [|b l IHl]; intros H; cbn; [repeat constructor|]. destruct (le a b) eqn:E; [constructor; auto; constructor; auto|].
  apply Sorted_inv in H as [H H0]. constructor; auto. apply o_tot in E; auto. destruct l as [|c l]; cbn; [constructor; auto|]. destruct (le a c); constructor; auto. now apply HdRel_inv in H0. Qed.
Lemma isort_sorted l : Sorted leP (isort le l).
Proof. induction l; cbn; [constructor|]. now apply insert_sorted. Qed.
Lemma insert_comm a b l : (le a b = true -> le b a = true -> a = b) -> insert le a (insert le b l) = insert le b (insert le a l).
Proof. destruct O as [T R]. intros AS. induction l as [|c l IHl]; cbn.
  - destruct (le a b) eqn:E, (le b a) eqn:E'; auto; [rewrite AS; auto|]. apply T in E. congruence.
  - destruct (le b c) eqn:Eb, (le a c) eqn:Ea; cbn; rewrite ?Ea, ?Eb.
    + destruct (le a b) eqn:E, (le b a) eqn:E'; auto; [rewrite AS; auto|]. apply T in E. congruence.
    + destruct (le a b) eqn:E; auto. rewrite (R _ _ _ E Eb) in Ea. discriminate.
    + destruct (le b a) eqn:E; auto. rewrite (R _ _ _ E Ea) in Eb. discriminate.
    + now rewrite IHl. Qed.
Lemma isort_perm_eq l l' : Permutation l l' -> (forall a b, In a l -> In b l -> le a b = true -> le b a = true -> a = b) -> isort le l = isort le l'.
Proof. induction 1 as [|x l l' P IHP|x y l|l l' l'' P1 IH1 P2 IH2]; intros H; cbn; auto.
  - rewrite IHP; auto. intros; apply H; cbn; auto.
  - apply insert_comm. apply H; cbn; auto.
  - rewrite IH1 by auto. apply IH2. intros a b Ha Hb. apply H; eapply Permutation_in; [apply Permutation_sym; exact P1| |apply Permutation_sym; exact P1|]; auto. Qed.
End Sort.

(** ** dictionaries *)
Section Dict.
Context {V : Type}.
Notation dict := (list (Z * V)).
Lemma lookup_upsert k k' d f (m : dict) : lookup k' (upsert k d f m) = if (k' =? k)%Z then Some (f (match lookup k m with Some v => v | None => d end)) else lookup k' m.
Proof. induction m as [|[c v] m IHm]; cbn; auto.
  destruct (Z.eqb_spec k c) as [->|N]; cbn.
  - destruct (Z.eqb_spec k' c); auto.
  - rewrite IHm. destruct (Z.eqb_spec k' k) as [->|N']; auto. destruct (Z.eqb_spec k c); [congruence|auto]. Qed.
Lemma keys_upsert k d f (m : dict) x : In x (map fst (upsert k d f m)) <-> x = k \/ In x (map fst m).
Proof. induction m as [|[c v] m IHm]; cbn; [intuition|]. destruct (Z.eqb_spec k c) as [->|N]; cbn; [intuition|]. rewrite IHm. intuition. Qed.
Lemma nodup_upsert k d f (m : dict) : NoDup (map fst m) -> NoDup (map fst (upsert k d f m)).
Proof. induction m as [|[c v] m IHm]; cbn; intros H; [repeat constructor; intros []|]. apply NoDup_cons_iff in H as [NI H]. destruct (Z.eqb_spec k c) as [->|N]; cbn; constructor; auto. rewrite keys_upsert. intros [->|X]; auto. Qed.
Lemma lookup_in (m : dict) k v : NoDup (map fst m) -> lookup k m = Some v <-> In (k, v) m.
Proof. induction m as [|[c w] m IHm]; cbn; intros H; [split; [discriminate|intros []]|]. apply NoDup_cons_iff in H as [NI H]. destruct (Z.eqb_spec k c) as [->|N].
  - split; [intros [= ->]; auto|]. intros [[= ->]|X]; auto. exfalso. apply NI. apply in_map_iff. exists (c, v). auto.
  - rewrite IHm by auto. split; auto. intros [[= -> ->]|X]; congruence. Qed.
Lemma lookup_none (m : dict) k : lookup k m = None <-> ~ In k (map fst m).
Proof. induction m as [|[c w] m IHm]; cbn; [intuition|]. destruct (Z.eqb_spec k c) as [->|N]; [split; [discriminate|intros X; exfalso; auto]|]. rewrite IHm. intuition. Qed.
Lemma dict_perm (m m' : dict) : NoDup (map fst m) -> NoDup (map fst m') -> (forall k, lookup k m = lookup k m') -> Permutation m m'.
Proof. intros N N' E. apply NoDup_Permutation; [now apply NoDup_map_inv in N|now apply NoDup_map_inv in N'|]. intros [k v]. rewrite <- !lookup_in by auto. now rewrite E. Qed.
Lemma nodup_fst (m : dict) a b : NoDup (map fst m) -> In a m -> In b m -> fst a = fst b -> a = b.
Proof. destruct a as [k v], b as [k' v']. cbn. intros N Ha Hb ->. apply lookup_in in Ha; auto. apply lookup_in in Hb; auto. congruence. Qed.
Lemma items_eq (m m' : dict) : NoDup (map fst m) -> Permutation m m' -> items m = items m'.
Proof. intros N P. apply isort_perm_eq; [apply ord_key|auto|]. intros a b Ha Hb. unfold by_key. intros L1 L2. apply (nodup_fst m); auto. lia. Qed.
Lemma items_in (m : dict) x : In x (items m) <-> In x m.
Proof. split; apply Permutation_in; [|apply Permutation_sym]; apply isort_perm. Qed.
Lemma items_nodup (m : dict) : NoDup (map fst m) -> NoDup (map fst (items m)).
Proof. apply Permutation_NoDup, Permutation_map, Permutation_sym, isort_perm. Qed.
End Dict.
Lemma sorted_map {A B} (P : A -> A -> Prop) (Q : B -> B -> Prop) (f : A -> B) l : (forall a b, P a b -> Q (f a) (f b)) -> Sorted P l -> Sorted Q (map f l).
Proof. intros H. induction 1 as [|a l S' IHs HR]; cbn; constructor; auto. destruct HR; cbn; constructor; auto. Qed.
Lemma items_sorted {V} (m : list (Z * V)) : NoDup (map fst m) -> Sorted Z.lt (map fst (items m)).
Proof. intros N. apply items_nodup in N. assert (H : Sorted Z.le (map fst (items m))). { apply (sorted_map (leP by_key)); [|apply isort_sorted, ord_key]. unfold leP, by_key. intros; lia. }
  revert N. induction H as [|a l S' IHs HR]; intros N; constructor; [apply IHs; now inversion N|]. apply NoDup_cons_iff in N as [NI N]. destruct HR as [|b l L]; constructor. assert (a <> b) by (intros ->; apply NI; left; auto). lia. Qed.
Lemma map_items {V W} (f : V -> W) (m : list (Z * V)) : items (map (fun x => (fst x, f (snd x))) m) = map (fun x => (fst x, f (snd x))) (items m).
Proof. unfold items. induction m as [|a m IHm]; cbn; auto. rewrite IHm. generalize (isort by_key m). clear. induction l as [|b l IHl]; cbn; auto. unfold by_key at 1 3. cbn [fst]. destruct (_ <=? _)%Z; auto. cbn. now rewrite IHl. Qed.
Lemma keys_map {V W} (f : V -> W) (m : list (Z * V)) : map fst (map (fun x => (fst x, f (snd x))) m) = map fst m.
Proof. rewrite map_map. reflexivity. Qed.

(** grouping *)
Section Group.
Context {R V : Type} (key : R -> Z) (d : V) (f : R -> V -> V).
Definition group (data : list R) (m : list (Z * V)) := fold_left (fun m r => upsert (key r) d (f r) m) data m.
Definition part (k : Z) (data : list R) := filter (fun r => (key r =? k)%Z) data.
Definition feed (l : list R) (v : V) := fold_left (fun v r => f r v) l v.
Lemma group_nodup data m : NoDup (map fst m) -> NoDup (map fst (group data m)).
Proof. unfold group. revert m. induction data; cbn; auto. intros. apply IHdata. now apply nodup_upsert. Qed.
Lemma group_lookup k data m : lookup k (group data m) = match part k data with [] => lookup k m | l => Some (feed l (match lookup k m with Some v => v | None => d end)) end.
Proof. unfold group, part, feed. revert m. induction data as [|r data IHd]; cbn; auto. intros m. rewrite IHd, lookup_upsert. destruct (Z.eqb_spec (key r) k) as [->|N].
  - rewrite !Z.eqb_refl. cbn. destruct (filter _ _); reflexivity.
  - destruct (Z.eqb_spec k (key r)); [congruence|]. reflexivity. Qed.
Lemma group_in k v data : In (k, v) (group data []) <-> part k data <> [] /\ v = feed (part k data) d.
Proof. rewrite <- lookup_in by (apply group_nodup; constructor). rewrite group_lookup. cbn. destruct (part k data); split; [discriminate|intros [X _]; congruence|intros [= <-]; split; auto; discriminate|intros [_ ->]; auto]. Qed.
Lemma group_keys data k : In k (map fst (group data [])) <-> exists r, In r data /\ key r = k.
Proof. rewrite in_map_iff. split.
  - intros ([k' v] & <- & H). apply group_in in H as [H _]. cbn. destruct (part k' data) as [|r l] eqn:E; [congruence|]. assert (X : In r (part k' data)) by (rewrite E; left; auto). apply filter_In in X as [X Y]. exists r. split; auto. lia.
  - intros (r & Hr & <-). exists (key r, feed (part (key r) data) d). split; auto. apply group_in. split; auto. intros X. assert (Y : In r (part (key r) data)) by (apply filter_In; split; auto; lia). rewrite X in Y. destruct Y. Qed.
End Group.
Lemma filter_perm {A} (f : A -> bool) l l' : Permutation l l' -> Permutation (filter f l) (filter f l').
Proof. induction 1; cbn; auto; repeat (destruct (f _)); auto; [apply perm_swap|etransitivity; eauto]. Qed.
Lemma part_perm {R} (key : R -> Z) k l l' : Permutation l l' -> Permutation (part key k l) (part key k l').
Proof. apply filter_perm. Qed.

(** ** loops *)
Lemma pmap_ret {A B} (f : A -> py B) l bs : pmap f l = Ret bs <-> Forall2 (fun a b => f a = Ret b) l bs.
Proof. revert bs. induction l as [|a l IHl]; cbn; intros bs.
  - split; [intros [= <-]; constructor|]. inversion 1. reflexivity.
  - split.
    + destruct (f a) as [b|] eqn:E; cbn; [|discriminate]. destruct (pmap f l) as [bs'|]; cbn; [|discriminate]. intros [= <-]. constructor; auto. now apply IHl.
    + inversion 1 as [|? b ? bs' E F]; subst. rewrite E. cbn. apply IHl in F. now rewrite F. Qed.
Lemma forall2_in_r {A B} (P : A -> B -> Prop) l l' b : Forall2 P l l' -> In b l' -> exists a, In a l /\ P a b.
Proof. induction 1 as [|x y l l' H F IHf]; [intros []|]. intros [->|X]; [exists x; split; [left|]; auto|]. destruct (IHf X) as (a & Ha & Pa). exists a. split; [right|]; auto. Qed.
Lemma forall2_in_l {A B} (P : A -> B -> Prop) l l' a : Forall2 P l l' -> In a l -> exists b, In b l' /\ P a b.
Proof. induction 1 as [|x y l l' H F IHf]; [intros []|]. intros [->|X]; [exists y; split; [left|]; auto|]. destruct (IHf X) as (b & Hb & Pb). exists b. split; [right|]; auto. Qed.
Lemma pmap_in {A B} (f : A -> py B) l bs b : pmap f l = Ret bs -> In b bs -> exists a, In a l /\ f a = Ret b.
Proof. intros H. exact (forall2_in_r (fun a b => f a = Ret b) l bs b (proj1 (pmap_ret f l bs) H)). Qed.
Lemma pmap_in' {A B} (f : A -> py B) l bs a : pmap f l = Ret bs -> In a l -> exists b, In b bs /\ f a = Ret b.
Proof. intros H. exact (forall2_in_l (fun a b => f a = Ret b) l bs a (proj1 (pmap_ret f l bs) H)). Qed.
Lemma pmap_total {A B} (f : A -> py B) l : (forall a, In a l -> exists b, f a = Ret b) -> exists bs, pmap f l = Ret bs.
Proof. induction l as [|a l IHl]; cbn; [eauto|]. intros H. destruct (H a (or_introl eq_refl)) as [b ->]. destruct IHl as [bs ->]; [auto|]. cbn. eauto. Qed.
Lemma pmap_fun {A B} (f : A -> py B) (g : A -> B) l : (forall a, In a l -> f a = Ret (g a)) -> pmap f l = Ret (map g l).
Proof. induction l as [|a l IHl]; cbn; auto. intros H. rewrite (H a), IHl; auto. Qed.
Lemma pmap_map {A B C} (f : B -> py C) (g : A -> B) l : pmap f (map g l) = pmap (fun a => f (g a)) l.
Proof. induction l as [|a l IHl]; cbn; auto. now rewrite IHl. Qed.
Lemma pmap_ext {A B} (f g : A -> py B) l : (forall a, In a l -> f a = g a) -> pmap f l = pmap g l.
Proof. induction l as [|a l IHl]; cbn; auto. intros H. rewrite (H a), IHl; auto. Qed.
(** if only one exception can be raised, the order does not matter *)
Lemma pmap_perm {A B} (f : A -> py B) e l l' : (forall a, In a l -> (exists b, f a = Ret b) \/ f a = Raise e) -> Permutation l l' ->
  (exists bs bs', pmap f l = Ret bs /\ pmap f l' = Ret bs' /\ Permutation bs bs') \/ (pmap f l = Raise e /\ pmap f l' = Raise e).
Proof. intros H P. revert H. induction P as [|x l l' P IHP|x y l|l l' l'' P1 IH1 P2 IH2]; intros H.
  - left. exists [], []. auto.
  - cbn. destruct (H x (or_introl eq_refl)) as [[b ->]| ->]; [|right; auto]. destruct IHP as [(bs & bs' & -> & -> & Q)|[-> ->]]; [intros; apply H; right; auto| |right; auto]. left. exists (b :: bs), (b :: bs'). cbn. auto.
  - cbn. assert (Tl : (exists bs, pmap f l = Ret bs) \/ pmap f l = Raise e). { assert (H' : forall a, In a l -> (exists b, f a = Ret b) \/ f a = Raise e) by (intros; apply H; cbn; auto). clear -H'. induction l as [|a l IHl]; cbn; [left; eauto|]. destruct (H' a (or_introl eq_refl)) as [[b ->]| ->]; [|auto]. destruct IHl as [[bs ->]| ->]; [intros; apply H'; right; auto|left; cbn; eauto|auto]. }
    destruct (H x ltac:(cbn; auto)) as [[b Eb]|Eb], (H y ltac:(cbn; auto)) as [[c Ec]|Ec], Tl as [[bs El]|El]; rewrite Eb, Ec, ?El; cbn; auto. left. exists (c :: b :: bs), (b :: c :: bs). cbn. split; auto. split; auto. apply perm_swap.
  - destruct IH1 as [(bs & bs' & E1 & E2 & Q)|[E1 E2]]; auto; (destruct IH2 as [(cs & cs' & F1 & F2 & Q')|[F1 F2]]; [intros; apply H; eapply Permutation_in; [apply Permutation_sym; exact P1|auto]| |]).
    + left. exists bs, cs'. split; auto. split; auto. rewrite E2 in F1. injection F1 as <-. etransitivity; eauto.
    + congruence.
    + congruence.
    + right. auto. Qed.

(** ** the lists of one distance *)
Definition row_of (r : result) : row := (r_p r, (r_ler r, (r_t r, r_eb r))).
Definition series_of (l : list result) : series := mkS (map r_p l) (map r_ler l) (map r_eb l) (map r_t l).
Lemma feed_series l : feed add_result l s_empty = series_of l.
Proof. unfold feed. assert (G : forall s, fold_left (fun v r => add_result r v) l s = mkS (s_p s ++ map r_p l) (s_ler s ++ map r_ler l) (s_eb s ++ map r_eb l) (s_t s ++ map r_t l)).
  { induction l as [|r l IHl]; intros [p le e t]; cbn; [now rewrite !app_nil_r|]. rewrite IHl. cbn. now rewrite <- !app_assoc. } rewrite G. reflexivity. Qed.
Lemma rows_series l : rows (series_of l) = map row_of l.
Proof. unfold rows, series_of. cbn. induction l as [|r l IHl]; cbn; auto. now rewrite IHl. Qed.
Lemma rows_unrows l : rows (unrows l) = l.
Proof. unfold rows, unrows. cbn. induction l as [|[p [le [t e]]] l IHl]; cbn; auto. now rewrite IHl. Qed.
Lemma unrows_map l : unrows (map row_of l) = series_of l.
Proof. unfold unrows, series_of. rewrite !map_map. reflexivity. Qed.
Definition of_row (d : Z) (x : row) : result := mkRes d (fst x) (fst (snd x)) (snd (snd (snd x))) (fst (snd (snd x))).
(** the sorted lists are those of the sorted results *)
Definition rsort (l : list result) : list result := isort (fun r r' => row_le (row_of r) (row_of r')) l.
Lemma rsort_rows l : isort row_le (map row_of l) = map row_of (rsort l).
Proof. unfold rsort. induction l as [|a l IHl]; cbn; auto. rewrite IHl. generalize (isort (fun r r' => row_le (row_of r) (row_of r')) l). clear. induction l as [|b l IHl]; cbn; auto. destruct (row_le _ _); cbn; auto. now rewrite IHl. Qed.
Lemma sort_series_of l : sort_series (series_of l) = series_of (rsort l).
Proof. unfold sort_series. now rewrite rows_series, rsort_rows, unrows_map. Qed.
Lemma rsort_perm l : Permutation (rsort l) l.
Proof. apply isort_perm. Qed.
Lemma rsort_sorted l : Sorted Z.le (map r_p (rsort l)).
Proof. apply (sorted_map (leP (fun r r' => row_le (row_of r) (row_of r')))); [|apply isort_sorted].
  - unfold leP, row_le, lex, row_of. cbn [fst snd]. intros a b. destruct (r_p a <=? r_p b)%Z eqn:E; [lia|]. cbn. discriminate.
  - destruct (l_ord _ lin_row) as [T R]. split; intros; eauto. Qed.
Lemma sort_series_perm l l' : Permutation l l' -> sort_series (series_of l) = sort_series (series_of l').
Proof. intros P. unfold sort_series. rewrite !rows_series. f_equal. apply isort_perm_eq; [apply lin_row|now apply Permutation_map|]. intros. now apply (l_asym _ lin_row). Qed.

Definition at_d (d : Z) (data : list result) := part r_d d data.
Lemma metrics_in d s data : In (d, s) (metrics data) <-> at_d d data <> [] /\ s = series_of (at_d d data).
Proof. unfold metrics. change (fold_left _ data []) with (group r_d s_empty add_result data []). rewrite group_in, feed_series. reflexivity. Qed.
Lemma metrics_nodup data : NoDup (map fst (metrics data)).
Proof. apply group_nodup. constructor. Qed.
Lemma metrics_keys data d : In d (map fst (metrics data)) <-> exists r, In r data /\ r_d r = d.
Proof. apply group_keys. Qed.
(** the dictionary after the loop *)
Definition metrics' (data : list result) := map (fun ds => (fst ds, sort_series (snd ds))) (metrics data).
Lemma metrics'_in d s data : In (d, s) (metrics' data) <-> at_d d data <> [] /\ s = series_of (rsort (at_d d data)).
Proof. unfold metrics'. rewrite in_map_iff. split.
  - intros ([d' s'] & [= <- <-] & H). apply metrics_in in H as [H ->]. split; auto. apply sort_series_of.
  - intros [H ->]. exists (d, series_of (at_d d data)). cbn. rewrite sort_series_of. split; auto. now apply metrics_in. Qed.
Lemma metrics'_nodup data : NoDup (map fst (metrics' data)).
Proof. unfold metrics'. rewrite keys_map. apply metrics_nodup. Qed.
Lemma metrics'_perm data data' : Permutation data data' -> Permutation (metrics' data) (metrics' data').
Proof. intros P. apply dict_perm; try apply metrics'_nodup. intros k. destruct (lookup k (metrics' data)) as [s|] eqn:E.
  - symmetry. apply lookup_in; [apply metrics'_nodup|]. apply lookup_in in E; [|apply metrics'_nodup]. apply metrics'_in in E as [N ->]. apply metrics'_in. split.
    + intros X. apply N. unfold at_d in *. apply Permutation_nil. rewrite <- X. apply Permutation_sym. now apply part_perm.
    + rewrite <- !sort_series_of. apply sort_series_perm. now apply part_perm.
  - symmetry. apply lookup_none. apply (proj1 (lookup_none _ _)) in E. intros X. apply E. unfold metrics' in *. rewrite keys_map in *. apply metrics_keys in X as (r & Hr & <-). apply metrics_keys. exists r. split; auto. eapply Permutation_in; [apply Permutation_sym; exact P|auto]. Qed.
