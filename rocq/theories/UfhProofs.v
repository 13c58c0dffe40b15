(** * UfhProofs: the growth loop of UFHeuristic *)
From Verif Require Export UfhForest.

Section U.
Variables (n : nat) (H : mat).
Hypothesis HH : wf n H.
Hypothesis Hne : H <> [].
Hypothesis Hn : 0 < n.
Let m := length H.
Let N := n + m.

Lemma edge_ltN u v : edge n H u v -> u < N /\ v < N.
Proof. intros E. split; [apply edge_sym in E|]; exact (edge_lt n H Hn _ _ E). Qed.
Lemma nbrs_e u v : In v (nbrs H u) <-> edge n H u v.
Proof. apply nbrs_edge; auto. Qed.

Definition flags_same (f g : forest) : Prop := forall v, v < N -> t_marked (nd f v) = t_marked (nd g v) /\ t_deleted (nd f v) = t_deleted (nd g v).
Definition par_mono (f g : forest) : Prop := forall c p, c < N -> par f c = Some p -> par g c = Some p.
Definition coarser (rho rho' : nat -> nat) : Prop := (forall v w, v < N -> w < N -> rho v = rho w -> rho' v = rho' w) /\ (forall r, r < N -> rho' r = r -> rho r = r).
(** boundaries contain every vertex with a neighbour in another tree, and belong to their tree *)
Definition bnd_ok (f : forest) (rho : nat -> nat) : Prop :=
  (forall v u, edge n H v u -> rho v <> rho u -> In v (t_boundary (nd f (rho v)))) /\
  (forall r v, r < N -> par f r = None -> In v (t_boundary (nd f r)) -> v < N /\ rho v = r) /\
  (forall r v, r < N -> In v (t_boundary (nd f r)) -> v < N).
(** a vertex that is not alone in its tree has a neighbour *)
Definition live (rho : nat -> nat) : Prop := forall v w, v < N -> w < N -> v <> w -> rho v = rho w -> exists u, edge n H v u.

Lemma coarser_refl rho : coarser rho rho.
Proof. split; auto. Qed.
Lemma coarser_trans a b c : coarser a b -> coarser b c -> coarser a c.
Proof. intros [A1 A2] [B1 B2]. split; auto. Qed.

Lemma fuse_nd f a b w : length f = N -> a < N -> b < N -> a <> b ->
  let g := upd (upd (addFirstToSecondTree n f a b) b (setBoundary (sinserts (t_boundary (nd f a)) (t_boundary (nd f b))))) a (setBoundary []) in
  same_tree (addFirstToSecondTree n f a b) g /\
  nd g w = if w =? a then setBoundary [] (nd (addFirstToSecondTree n f a b) a) else if w =? b then setBoundary (sinserts (t_boundary (nd f a)) (t_boundary (nd f b))) (nd (addFirstToSecondTree n f a b) b)
           else nd f w.
Proof. intros L Ha Hb D g. assert (Lg : length (addFirstToSecondTree n f a b) = N) by (unfold addFirstToSecondTree; rewrite !upd_length; auto). split.
  - apply same_tree_trans with (upd (addFirstToSecondTree n f a b) b (setBoundary (sinserts (t_boundary (nd f a)) (t_boundary (nd f b))))).
    + apply same_tree_upd; [lia|auto].
    + apply same_tree_upd; [rewrite upd_length; lia|auto].
  - unfold g. rewrite nd_upd by (rewrite upd_length; lia). rewrite !nd_upd by lia. destruct (Nat.eqb_spec w a) as [->|Dw].
    + destruct (Nat.eqb_spec a b); [tauto|auto].
    + destruct (Nat.eqb_spec w b); auto. rewrite (add_nd n N f a b w L Ha Hb D). destruct (Nat.eqb_spec w a); [tauto|]. destruct (Nat.eqb_spec w b); tauto. Qed.

Lemma moved_coarser f rho a b : forest_ok n N f rho -> a < N -> b < N -> par f a = None -> par f b = None -> a <> b -> coarser rho (moved rho a b).
Proof. intros F Ha Hb Na Nb D. assert (Ea := root_rho n N f rho a F Ha Na). assert (Eb := root_rho n N f rho b F Hb Nb). split.
  - intros v w _ _ E. unfold moved. now rewrite E.
  - intros r Hr. unfold moved. destruct (Nat.eqb_spec (rho r) a); auto. intros <-. auto. Qed.

Lemma fuse_step f rho a b x y : forest_ok n N f rho -> bnd_ok f rho -> live rho -> edge n H x y -> rho x <> rho y ->
  ((a = rho x /\ b = rho y) \/ (a = rho y /\ b = rho x)) ->
  let g := upd (upd (addFirstToSecondTree n f a b) b (setBoundary (sinserts (t_boundary (nd f a)) (t_boundary (nd f b))))) a (setBoundary []) in
  forest_ok n N g (moved rho a b) /\ bnd_ok g (moved rho a b) /\ live (moved rho a b) /\ coarser rho (moved rho a b) /\
  moved rho a b x = moved rho a b y /\ flags_same f g /\ par_mono f g.
Proof. intros F B Lv He D Dab g. destruct (edge_ltN _ _ He) as [Hx Hy]. assert (F' := F). destruct F as (L & _).
  destruct (rho_root n N f rho x F' Hx) as (Nx & Ix & Lx). destruct (rho_root n N f rho y F' Hy) as (Ny & Iy & Ly).
  assert (Hab : a <> b /\ a < N /\ b < N /\ par f a = None /\ par f b = None /\ rho a = a /\ rho b = b) by (destruct Dab as [[-> ->]|[-> ->]]; auto 8).
  destruct Hab as (Dd & Ha & Hb & Na & Nb & Ia & Ib).
  assert (E : forall w, same_tree (addFirstToSecondTree n f a b) g /\ nd g w = _) by (intros w; apply (fuse_nd f a b w L Ha Hb Dd)).
  assert (St : same_tree (addFirstToSecondTree n f a b) g) by apply (E 0). assert (E' := fun w => proj2 (E w)). clear E.
  assert (Fg : forest_ok n N g (moved rho a b)) by (apply (same_tree_ok _ _ _ _ _ St), add_ok; auto).
  assert (An := fun w => add_nd n N f a b w L Ha Hb Dd).
  assert (Bb : t_boundary (nd g b) = sinserts (t_boundary (nd f a)) (t_boundary (nd f b))).
  { rewrite E'. destruct (Nat.eqb_spec b a); [congruence|]. now rewrite Nat.eqb_refl. }
  assert (Bo : forall w, w <> a -> w <> b -> nd g w = nd f w).
  { intros w D1 D2. rewrite E'. destruct (Nat.eqb_spec w a); [tauto|]. destruct (Nat.eqb_spec w b); tauto. }
  assert (Ba : t_boundary (nd g a) = []) by (rewrite E', Nat.eqb_refl; auto).
  assert (Pg : forall w, par g w = if w =? a then Some b else par f w).
  { intros w. unfold par. rewrite E'. destruct (Nat.eqb_spec w a) as [->|D1]; [simpl; rewrite An, Nat.eqb_refl; auto|].
    destruct (Nat.eqb_spec w b) as [->|D2]; auto. simpl. rewrite An. destruct (Nat.eqb_spec b a); [tauto|]. now rewrite Nat.eqb_refl. }
  destruct B as (B1 & B2 & B3). split; auto. split; [split; [|split]|].
  - intros v u Hvu Dvu. destruct (edge_ltN _ _ Hvu) as [Hv Hu]. unfold moved in *. destruct (Nat.eqb_spec (rho v) a) as [E1|E1].
    + rewrite Bb. apply sinserts_In. left. rewrite <- E1. apply (B1 v u); auto. intros E2. rewrite <- E2, E1, Nat.eqb_refl in Dvu. auto.
    + assert (K : In v (t_boundary (nd f (rho v)))) by (apply (B1 v u); auto; intros E2; rewrite <- E2 in Dvu; destruct (Nat.eqb_spec (rho v) a); auto).
      destruct (Nat.eq_dec (rho v) b) as [E2|E2]; [rewrite E2, Bb; apply sinserts_In; right; rewrite <- E2; auto|]. rewrite Bo; auto.
  - intros r v Hr Nr Hv. rewrite Pg in Nr. destruct (Nat.eqb_spec r a); [discriminate|]. unfold moved. destruct (Nat.eq_dec r b) as [->|D2].
    + rewrite Bb in Hv. apply sinserts_In in Hv as [Hv|Hv].
      * destruct (B2 a v Ha Na Hv) as [? ->]. rewrite Nat.eqb_refl. auto.
      * destruct (B2 b v Hb Nb Hv) as [? ->]. destruct (Nat.eqb_spec b a); [congruence|auto].
    + rewrite Bo in Hv by auto. destruct (B2 r v Hr Nr Hv) as [? ->]. destruct (Nat.eqb_spec r a); tauto.
  - intros r v Hr Hv. destruct (Nat.eq_dec r a) as [->|D1]; [rewrite Ba in Hv; destruct Hv|]. destruct (Nat.eq_dec r b) as [->|D2].
    + rewrite Bb in Hv. apply sinserts_In in Hv as [Hv|Hv]; [apply (B3 a)|apply (B3 b)]; auto.
    + rewrite Bo in Hv by auto. apply (B3 r); auto.
  - split.
    { intros v w Hv Hw Dvw Ev. unfold moved in Ev. assert (Hex : rho v = rho w \/ (rho v = rho x \/ rho v = rho y)).
      { destruct (Nat.eqb_spec (rho v) a), (Nat.eqb_spec (rho w) a); destruct Dab as [[-> ->]|[-> ->]]; auto; left; congruence. }
      destruct Hex as [Ev'|[Ev'|Ev']]; [apply (Lv v w); auto|..].
      - destruct (Nat.eq_dec v x) as [->|Dx]; eauto.
      - destruct (Nat.eq_dec v y) as [->|Dx]; eauto. exists x. apply edge_sym; auto. }
    split; [apply (moved_coarser f); auto|]. split.
    { unfold moved. destruct Dab as [[-> ->]|[-> ->]]; rewrite Nat.eqb_refl; [destruct (Nat.eqb_spec (rho y) (rho x))|destruct (Nat.eqb_spec (rho x) (rho y))]; congruence. }
    split.
    { intros v Hv. rewrite E'. destruct (Nat.eqb_spec v a) as [->|D1]; [simpl; rewrite An, Nat.eqb_refl; auto|].
      destruct (Nat.eqb_spec v b) as [->|D2]; auto. simpl. rewrite An. destruct (Nat.eqb_spec b a); [tauto|]. now rewrite Nat.eqb_refl. }
    intros c p Hc Ec. rewrite Pg. destruct (Nat.eqb_spec c a) as [->|]; auto. congruence. Qed.

Lemma fuseEdge_ok f rho e : forest_ok n N f rho -> bnd_ok f rho -> live rho -> edge n H (fst e) (snd e) ->
  exists rho', forest_ok n N (fuseEdge n f e) rho' /\ bnd_ok (fuseEdge n f e) rho' /\ live rho' /\ coarser rho rho' /\ rho' (fst e) = rho' (snd e) /\
    flags_same f (fuseEdge n f e) /\ par_mono f (fuseEdge n f e).
Proof. destruct e as [x y]. cbn [fst snd]. intros F B Lv He. destruct (edge_ltN _ _ He) as [Hx Hy]. unfold fuseEdge. cbn [fst snd].
  rewrite !(Find_ok n N f rho) by auto. destruct (Nat.eqb_spec (rho x) (rho y)) as [E|D].
  { exists rho. split; auto. split; auto. split; auto. split; [apply coarser_refl|]. split; auto. split; [intros v; auto|intros c p; auto]. }
  destruct (rho_root n N f rho x F Hx) as (Nx & Ix & Lx). destruct (rho_root n N f rho y F Hy) as (Ny & Iy & Ly).
  assert (L : length f = N) by apply F. unfold Union. rewrite !(Find_ok n N f rho), Ix, Iy by auto.
  destruct (Nat.eqb_spec (rho x) (rho y)); [tauto|]. destruct (t_size (nd f (rho x)) <=? t_size (nd f (rho y))).
  - exists (moved rho (rho x) (rho y)). rewrite (add_nd n N f (rho x) (rho y) (rho x) L Lx Ly D), Nat.eqb_refl. cbn [t_boundary].
    rewrite (add_nd n N f (rho x) (rho y) (rho y) L Lx Ly D), Nat.eqb_refl. destruct (Nat.eqb_spec (rho y) (rho x)); [congruence|]. cbn [t_boundary].
    apply (fuse_step f rho (rho x) (rho y) x y); auto.
  - exists (moved rho (rho y) (rho x)). assert (D' : rho y <> rho x) by congruence.
    rewrite (add_nd n N f (rho y) (rho x) (rho x) L Ly Lx D'), Nat.eqb_refl. destruct (Nat.eqb_spec (rho x) (rho y)); [congruence|]. cbn [t_boundary].
    rewrite (add_nd n N f (rho y) (rho x) (rho y) L Ly Lx D'), Nat.eqb_refl. cbn [t_boundary].
    apply (fuse_step f rho (rho y) (rho x) x y); auto. Qed.

Lemma fuse_ok edges : forall f rho, forest_ok n N f rho -> bnd_ok f rho -> live rho -> (forall e, In e edges -> edge n H (fst e) (snd e)) ->
  exists rho', forest_ok n N (fuse n f edges) rho' /\ bnd_ok (fuse n f edges) rho' /\ live rho' /\ coarser rho rho' /\
    (forall e, In e edges -> rho' (fst e) = rho' (snd e)) /\ flags_same f (fuse n f edges) /\ par_mono f (fuse n f edges).
Proof. induction edges as [|e edges IHe]; intros f rho F B Lv He.
  - exists rho. split; auto. split; auto. split; auto. split; [apply coarser_refl|]. split; [intros e []|]. split; [intros v; auto|intros c p; auto].
  - destruct (fuseEdge_ok f rho e F B Lv (He e (or_introl eq_refl))) as (r1 & F1 & B1 & L1 & C1 & E1 & G1 & M1).
    destruct (IHe (fuseEdge n f e) r1 F1 B1 L1 (fun x Hx => He x (or_intror Hx))) as (r2 & F2 & B2 & L2 & C2 & E2 & G2 & M2).
    exists r2. split; [exact F2|]. split; [exact B2|]. split; auto. split; [apply (coarser_trans rho r1); auto|]. split.
    + intros x [<-|Hx]; [|apply E2; auto]. destruct (edge_ltN _ _ (He e (or_introl eq_refl))). apply C2; auto.
    + split; [intros v Hv; destruct (G1 v Hv), (G2 v Hv); split; etransitivity; eauto|]. intros c p Hc Ec. apply M2; auto. Qed.

(** number of trees *)
Definition nroots (rho : nat -> nat) : nat := length (filter (fun v => rho v =? v) (seq 0 N)).
Lemma nroots_le rho rho' : coarser rho rho' -> nroots rho' <= nroots rho.
Proof. intros [_ C]. apply NoDup_incl_length; [apply NoDup_filter, seq_NoDup|]. intros r Hr. apply filter_In in Hr as [Hr E]. apply in_seq in Hr. apply Nat.eqb_eq in E.
  apply filter_In. split; [apply in_seq; lia|]. apply Nat.eqb_eq, C; auto. lia. Qed.
Lemma nroots_lt f rho rho' v u : forest_ok n N f rho -> coarser rho rho' -> v < N -> u < N -> rho v <> rho u -> rho' v = rho' u -> nroots rho' < nroots rho.
Proof. intros F [C1 C2] Hv Hu D E. destruct (rho_root n N f rho v F Hv) as (_ & Iv & Lv). destruct (rho_root n N f rho u F Hu) as (_ & Iu & Lu).
  set (R := filter (fun v => rho v =? v) (seq 0 N)). set (R' := filter (fun v => rho' v =? v) (seq 0 N)).
  assert (I : incl R' R). { intros r Hr. apply filter_In in Hr as [Hr Er]. apply in_seq in Hr. apply Nat.eqb_eq in Er. apply filter_In. split; [apply in_seq; lia|]. apply Nat.eqb_eq, C2; auto. lia. }
  assert (X : exists x, In x R /\ ~ In x R').
  { assert (Rv : In (rho v) R) by (apply filter_In; split; [apply in_seq; lia|now apply Nat.eqb_eq]).
    assert (Ru : In (rho u) R) by (apply filter_In; split; [apply in_seq; lia|now apply Nat.eqb_eq]).
    assert (Ev : rho' (rho v) = rho' v) by (apply C1; auto). assert (Eu : rho' (rho u) = rho' u) by (apply C1; auto).
    destruct (Nat.eq_dec (rho' (rho v)) (rho v)) as [E1|E1].
    - exists (rho u). split; auto. intros K. apply filter_In in K as [_ K]. apply Nat.eqb_eq in K. congruence.
    - exists (rho v). split; auto. intros K. apply filter_In in K as [_ K]. apply Nat.eqb_eq in K. congruence. }
  destruct X as (x & X1 & X2). change (S (length R') <= length R). change (S (length R')) with (length (x :: R')).
  apply NoDup_incl_length; [constructor; auto; apply NoDup_filter, seq_NoDup|]. intros y [<-|Hy]; auto. Qed.
Lemma nroots_N rho : nroots rho <= N.
Proof. unfold nroots. assert (K : forall l : list nat, length (filter (fun v => rho v =? v) l) <= length l).
  { induction l as [|x l IHl]; simpl; auto. destruct (rho x =? x); simpl; lia. }
  specialize (K (seq 0 N)). now rewrite seq_length in K. Qed.
Lemma nroots_pos f rho : forest_ok n N f rho -> 0 < nroots rho.
Proof. intros F. assert (H0 : 0 < N) by (unfold N; lia). destruct (rho_root n N f rho 0 F H0) as (_ & I & L). unfold nroots.
  destruct (filter _ _) as [|x l] eqn:E; [|simpl; lia]. exfalso. assert (K : In (rho 0) (filter (fun v => rho v =? v) (seq 0 N))) by (apply filter_In; split; [apply in_seq; lia|now apply Nat.eqb_eq]).
  rewrite E in K. destruct K. Qed.

(** ** replacing vertices by their roots *)
Lemma toRoots_gen f rho present : forest_ok n N f rho -> forall l acc, (forall c, In c l -> c < N) -> asc acc ->
  let res := fold_left (fun acc c => let r := Find f c in if negb (c =? r) && smem r present then acc else sinsert r acc) l acc in
  asc res /\ (forall r, In r res -> In r acc \/ exists c, In c l /\ r = rho c) /\ incl acc res /\
  (forall c, In c l -> rho c = c \/ ~ In (rho c) present -> In (rho c) res).
Proof. intros F. induction l as [|c l IHl]; intros acc Hl Ha res.
  - split; auto. split; auto. split; [intros x; auto|intros c []].
  - assert (Hc : c < N) by (apply Hl; left; auto). subst res. cbn [fold_left]. cbv zeta. rewrite (Find_ok n N f rho) by auto.
    set (acc1 := if negb (c =? rho c) && smem (rho c) present then acc else sinsert (rho c) acc).
    assert (Ha1 : asc acc1) by (unfold acc1; destruct (_ && _); auto using sinsert_asc).
    assert (I1 : incl acc acc1) by (unfold acc1; intros x Hx; destruct (_ && _); auto; apply sinsert_In; auto).
    destruct (IHl acc1 (fun x Hx => Hl x (or_intror Hx)) Ha1) as (R1 & R2 & R3 & R4). split; auto. split; [|split].
    + intros r Hr. destruct (R2 r Hr) as [K|(c' & K & ->)]; [|right; exists c'; split; [right|]; auto].
      unfold acc1 in K. destruct (_ && _); auto. apply sinsert_In in K as [->|K]; auto. right. exists c. split; [left|]; auto.
    + intros x Hx. apply R3, I1; auto.
    + intros c' [<-|Hc'] K; [|apply R4; auto]. apply R3. unfold acc1. destruct (Nat.eqb_spec c (rho c)) as [Ec|Ec]; simpl; [apply sinsert_In; auto|].
      destruct K as [K|K]; [congruence|]. rewrite (proj2 (smem_false (rho c) present) K). apply sinsert_In; auto. Qed.
Lemma toRoots_ok f rho present l : forest_ok n N f rho -> (forall c, In c l -> c < N) -> incl present l ->
  asc (toRoots f present l) /\ forall r, In r (toRoots f present l) <-> exists c, In c l /\ r = rho c.
Proof. intros F Hl I. destruct (toRoots_gen f rho present F l [] Hl) as (R1 & R2 & R3 & R4); [constructor|]. fold (toRoots f present l) in *. split; auto.
  intros r. split.
  - intros Hr. destruct (R2 r Hr) as [[]|K]; auto.
  - intros (c & Hc & ->). destruct (In_dec Nat.eq_dec (rho c) present) as [K|K]; [|apply R4; auto].
    destruct (rho_root n N f rho c F (Hl c Hc)) as (_ & E & _). rewrite <- E. apply R4; auto. Qed.

(** ** updating the boundaries *)
Definition outer (rho : nat -> nat) (v : nat) : bool := existsb (fun u => negb (rho v =? rho u)) (nbrs H v).
Lemma outer_ok rho v : outer rho v = true <-> exists u, edge n H v u /\ rho v <> rho u.
Proof. unfold outer. rewrite existsb_exists. split; intros (u & Hu & E); exists u.
  - apply nbrs_e in Hu. split; auto. apply negb_true_iff, Nat.eqb_neq in E. auto.
  - apply nbrs_e in Hu. split; auto. apply negb_true_iff, Nat.eqb_neq. auto. Qed.
Lemma updB_ok rho comps : forall f, forest_ok n N f rho -> (forall c, In c comps -> c < N /\ forall v, In v (t_boundary (nd f c)) -> v < N /\ exists u, edge n H v u) ->
  exists g, updateBoundaries H f comps = Some g /\ same_tree f g /\ flags_same f g /\
    forall r, t_boundary (nd g r) = if smem r comps then filter (outer rho) (t_boundary (nd f r)) else t_boundary (nd f r).
Proof. induction comps as [|c comps IHc]; intros f F Hc; cbn [updateBoundaries].
  - exists f. split; auto. split; [apply same_tree_refl|]. split; [intros v; auto|]. auto.
  - destruct (Hc c (or_introl eq_refl)) as [Hcl Hcb]. unfold updateBoundary. replace (existsb _ _) with false.
    2:{ symmetry. apply not_true_iff_false. rewrite existsb_exists. intros (v & Hv & E). destruct (Hcb v Hv) as (_ & u & Hu). apply nbrs_e in Hu.
        destruct (nbrs H v); [destruct Hu|discriminate]. }
    assert (L : length f = N) by apply F. set (f1 := upd f c _).
    assert (Ef1 : f1 = upd f c (setBoundary (filter (outer rho) (t_boundary (nd f c))))).
    { unfold f1. f_equal. f_equal. apply filter_ext_in. intros v Hv. unfold outer.
      assert (K : forall l, (forall u, In u l -> u < N) -> existsb (fun u => negb (Find f v =? Find f u)) l = existsb (fun u => negb (rho v =? rho u)) l).
      { destruct (Hcb v Hv) as [Hvl _]. induction l as [|u l IHl]; intros Hl; simpl; auto. rewrite IHl by (intros; apply Hl; right; auto).
        rewrite !(Find_ok n N f rho) by (auto; apply Hl; left; auto). auto. }
      apply K. intros u Hu. apply nbrs_e, edge_ltN in Hu. tauto. }
    clearbody f1. subst f1.
    assert (St : same_tree f (upd f c (setBoundary (filter (outer rho) (t_boundary (nd f c)))))) by (apply same_tree_upd; [lia|auto]).
    assert (En := nd_upd f c (setBoundary (filter (outer rho) (t_boundary (nd f c))))). rewrite L in En. specialize (fun w => En w Hcl).
    destruct (IHc (upd f c (setBoundary (filter (outer rho) (t_boundary (nd f c)))))) as (g & Eg & Sg & Gg & Bg).
    + apply (same_tree_ok _ _ _ _ _ St F).
    + intros x Hx. destruct (Hc x (or_intror Hx)) as [Hxl Hxb]. split; auto. intros v Hv. rewrite En in Hv by auto. destruct (Nat.eqb_spec x c) as [->|]; auto.
      simpl in Hv. apply filter_In in Hv as [Hv _]. auto.
    + exists g. split; auto. split; [eapply same_tree_trans; eauto|]. split.
      * intros v Hv. destruct (Gg v Hv) as [G1 G2]. rewrite En in G1, G2 by auto. destruct (Nat.eqb_spec v c) as [->|]; auto.
      * intros r. rewrite Bg, En by auto. simpl. destruct (Nat.eqb_spec r c) as [->|D]; cbn [t_boundary setBoundary orb].
        -- destruct (smem c comps); auto. clear. induction (t_boundary (nd f c)) as [|x l IHl]; simpl; auto. destruct (outer rho x) eqn:E; simpl; rewrite ?E; now rewrite ?IHl.
        -- reflexivity. Qed.
End U.
