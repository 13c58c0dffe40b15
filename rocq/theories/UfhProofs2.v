(** * UfhProofs2: the growth loop of UFHeuristic ends *)
From Verif Require Export UfhProofs.

(** [v] reaches [r] by parent links *)
Inductive desc (f : forest) (r : nat) : nat -> Prop :=
| desc0 : desc f r r
| descS v p : par f v = Some p -> desc f r p -> desc f r v.

Lemma hd_len n (H : mat) : wf n H -> H <> [] -> length (hd [] H) = n.
Proof. intros HH Hne. destruct H as [|r0 H0]; [congruence|]. inversion HH; auto. Qed.
Section U.
Variables (n : nat) (H : mat).
Hypothesis HH : wf n H.
Hypothesis Hne : H <> [].
Hypothesis Hn : 0 < n.
Let m := length H.
Let N := n + m.
(** the flagged checks *)
Variable fl : list nat.

Record TI (f : forest) (rho : nat -> nat) (invalid erasure : list nat) : Prop := mkTI {
  ti_f : forest_ok n N f rho;
  ti_b : bnd_ok n H f rho;
  ti_l : live n H rho;
  ti_a : asc invalid;
  ti_i : forall c, In c invalid -> c < N /\ rho c = c /\ (exists u, edge n H c u) /\ exists v u, rho v = c /\ edge n H v u /\ rho u <> c;
  ti_e : forall c, In c erasure -> c < N /\ exists u, edge n H c u;
  ti_s : forall c, In c fl -> c < N /\ (In (rho c) invalid \/ exists r, In r erasure /\ desc f r c);
  ti_m : forall v, v < N -> t_marked (nd f v) = false /\ t_deleted (nd f v) = false;
  ti_n : length invalid < N }.

Lemma desc_mono f g r v : (forall c p, c < N -> par f c = Some p -> par g c = Some p) -> (forall c p, c < N -> par f c = Some p -> p < N) -> v < N -> desc f r v -> desc g r v.
Proof. intros M B Hv D. induction D as [|v p E D IHd]; [constructor|]. econstructor; [apply M; eauto|]. apply IHd. eapply B; eauto. Qed.
Lemma desc_root f rho v : forest_ok n N f rho -> v < N -> desc f (rho v) v.
Proof. intros (_ & F2 & _) Hv. destruct (F2 v Hv) as (_ & k & P & _). clear Hv. induction P; [constructor|econstructor; eauto]. Qed.

Definition perm (o : UfhModel.order) : Prop := forall l, Permutation l (o l).

Lemma growEdges_ok oC oB f rho comps : perm oC -> perm oB -> forest_ok n N f rho -> bnd_ok n H f rho ->
  (forall e, In e (growEdges H oC oB f comps) -> edge n H (fst e) (snd e)) /\
  (forall c v u, In c comps -> rho v = c -> edge n H v u -> rho u <> c -> In (v, u) (growEdges H oC oB f comps)).
Proof. intros PC PB F (B1 & _). split.
  - intros e He. unfold growEdges in He. apply in_flat_map in He as (c & _ & He). apply in_flat_map in He as (v & _ & He).
    apply in_map_iff in He as (u & <- & Hu). apply (nbrs_e n H HH Hne Hn) in Hu. auto.
  - intros c v u Hc Hv He D. unfold growEdges. apply in_flat_map. exists c. split; [apply (Permutation_in _ (PC comps)); auto|].
    apply in_flat_map. exists v. split; [apply (Permutation_in _ (PB _)); rewrite <- Hv; apply (B1 v u); auto; congruence|].
    apply in_map_iff. exists u. split; auto. apply (nbrs_e n H HH Hne Hn); auto. Qed.

Lemma smallest_In f : forall l best size, (In best l \/ size = None \/ True) -> l <> [] -> In (smallestComp f best size l) (best :: l).
Proof. induction l as [|c l IHl]; intros best size _ Hl; [congruence|]. simpl smallestComp.
  assert (K : forall best size, In (smallestComp f best size l) (best :: l)).
  { intros b s. destruct l as [|d l]; [left; auto|]. apply IHl; auto. discriminate. }
  match goal with |- In (if ?x then _ else _) _ => destruct x end.
  - right. apply K.
  - destruct (K best size) as [E|E]; [left; auto|right; right; auto]. Qed.

(** what grows: the edges of some nonempty set of components, which contains an invalid one *)
Lemma growTurn_ok g oC oB r f rho invalid erasure : perm oC -> perm oB -> g <> SingleQubitRandom -> invalid <> [] -> TI f rho invalid erasure ->
  exists edges present invalid', growTurn g H oC oB r f invalid erasure = Ok (edges, present, invalid') /\
    (forall e, In e edges -> edge n H (fst e) (snd e)) /\ (exists v u, In (v, u) edges /\ rho v <> rho u) /\
    incl present invalid' /\ incl invalid invalid' /\ (forall c, In c invalid' -> In c invalid \/ In c erasure).
Proof. intros PC PB Hg Hi T. destruct invalid as [|c0 inv] eqn:Einv; [congruence|]. rewrite <- Einv in *. 
  assert (Hgrow : forall oC comps c, perm oC -> In c comps -> In c invalid ->
    (forall e, In e (growEdges H oC oB f comps) -> edge n H (fst e) (snd e)) /\ (exists v u, In (v, u) (growEdges H oC oB f comps) /\ rho v <> rho u)).
  { intros o comps c Po Hc Hci. destruct (growEdges_ok o oB f rho comps Po PB (ti_f _ _ _ _ T) (ti_b _ _ _ _ T)) as [K1 K2]. split; auto.
    destruct (ti_i _ _ _ _ T c Hci) as (_ & _ & _ & v & u & E1 & E2 & E3). exists v, u. split; [apply (K2 c); auto|congruence]. }
  assert (Pid : perm (fun l => l)) by (intros l; apply Permutation_refl).
  assert (Hc0 : In c0 invalid) by (rewrite Einv; left; auto).
  assert (Inv' : forall c, In c (oC invalid) -> In c invalid) by (intros c; apply Permutation_in, Permutation_sym, PC).
  assert (Lo : length (oC invalid) = length invalid) by (symmetry; apply Permutation_length, PC).
  destruct g; cbn [growTurn]; [| | | |congruence].
  - exists (growEdges H oC oB f (sinserts erasure invalid)), (sinserts erasure invalid), (sinserts erasure invalid). split; auto.
    destruct (Hgrow oC (sinserts erasure invalid) c0 PC) as [K1 K2]; [apply sinserts_In; auto|auto|]. split; auto. split; auto.
    split; [intros x; auto|]. split; [intros x Hx; apply sinserts_In; auto|]. intros x Hx. apply sinserts_In in Hx as [Hx|Hx]; auto.
  - exists (growEdges H oC oB f invalid), invalid, invalid. split; auto.
    destruct (Hgrow oC invalid c0 PC) as [K1 K2]; auto. split; auto. split; auto. split; [intros x; auto|]. split; [intros x; auto|auto].
  - set (c := smallestComp f (hd 0 (oC invalid)) None (oC invalid)).
    assert (Hne' : oC invalid <> []) by (intros E0; rewrite E0, Einv in Lo; discriminate).
    assert (Hc : In c invalid). { apply Inv'. unfold c. destruct (smallest_In f (oC invalid) (hd 0 (oC invalid)) None) as [E|E]; auto. rewrite <- E. destruct (oC invalid); [congruence|left; auto]. }
    exists (growEdges H (fun l => l) oB f [c]), [c], invalid. split; auto. destruct (Hgrow (fun l => l) [c] c Pid) as [K1 K2]; auto; [left; auto|].
    split; auto. split; auto. split; [intros x [<-|[]]; auto|]. split; [intros x; auto|auto].
  - set (c := nth (r mod length invalid) (oC invalid) 0).
    assert (Hc : In c invalid). { apply Inv', nth_In. rewrite Lo. apply Nat.mod_upper_bound. rewrite Einv. discriminate. }
    exists (growEdges H (fun l => l) oB f [c]), [c], invalid. split; auto. destruct (Hgrow (fun l => l) [c] c Pid) as [K1 K2]; auto; [left; auto|].
    split; auto. split; auto. split; [intros x [<-|[]]; auto|]. split; [intros x; auto|auto].
Qed.

Lemma asc_filter (p : nat -> bool) l : asc l -> asc (filter p l).
Proof. apply filter_asc. Qed.

Lemma turn_ok g oC oB r f rho invalid erasure : perm oC -> perm oB -> g <> SingleQubitRandom -> invalid <> [] -> TI f rho invalid erasure ->
  exists f' rho' invalid' erasure', turn g n H oC oB r f invalid erasure = Finished (f', invalid', erasure') /\ TI f' rho' invalid' erasure' /\ nroots n H rho' < nroots n H rho.
Proof. intros PC PB Hg Hi T. destruct (growTurn_ok g oC oB r f rho invalid erasure PC PB Hg Hi T) as (edges & present & inv1 & E & He & (v0 & u0 & Hvu & Dvu) & Ip & Ii & Io).
  unfold turn. rewrite E. assert (T' := T). destruct T as [F B L A I Er Sy M Nl].
  destruct (fuse_ok n H Hn edges f rho F B L He) as (rho' & F' & B' & L' & Co & Ej & G & PM). set (f1 := fuse n f edges) in *.
  destruct (edge_ltN n H Hn _ _ (He _ Hvu)) as [Hv0 Hu0]. cbn [fst snd] in Hv0, Hu0. fold m N in Hv0, Hu0.
  assert (Nr : nroots n H rho' < nroots n H rho) by (apply (nroots_lt n H Hn f rho rho' v0 u0 F Co Hv0 Hu0 Dvu), (Ej _ Hvu)).
  assert (K1 : forall c, In c inv1 -> c < N /\ exists u, edge n H c u).
  { intros c Hc. destruct (Io c Hc) as [K|K]; [|apply Er; auto]. destruct (I c K) as (? & _ & ? & _). auto. }
  destruct (toRoots_ok n H f1 rho' present inv1 F' (fun c Hc => proj1 (K1 c Hc)) Ip) as [Ta Tr]. set (inv2 := toRoots f1 present inv1) in *.
  assert (K2 : forall c, In c inv2 -> c < N /\ rho' c = c /\ exists u, edge n H c u).
  { intros c Hc. apply Tr in Hc as (d & Hd & ->). destruct (K1 d Hd) as (Hdn & Hdu). destruct (rho_root n N f1 rho' d F' Hdn) as (_ & Q2 & Q3).
    split; auto. split; auto. destruct (Nat.eq_dec (rho' d) d) as [->|D]; auto. apply (L' (rho' d) d); auto. }
  destruct B' as (B1 & B2 & B3).
  assert (Rt : forall c, c < N -> rho' c = c -> par f1 c = None) by (intros c Hc Ec; destruct (rho_root n N f1 rho' c F' Hc) as (Q & _); congruence).
  destruct (updB_ok n H HH Hne Hn rho' inv2 f1 F') as (g2 & Eg & Sg & Gg & Bg).
  { intros c Hc. destruct (K2 c Hc) as (Hcn & Rc & Hcu). split; auto. intros v Hv. destruct (B2 c v Hcn (Rt c Hcn Rc) Hv) as [Hvn Rv]. split; auto.
    destruct (Nat.eq_dec v c) as [->|D]; auto. apply (L' v c); auto. congruence. }
  rewrite Eg. assert (Fg : forest_ok n N g2 rho') by (apply (same_tree_ok _ _ _ _ _ Sg F')).
  assert (Pp : forall v, par g2 v = par f1 v) by (intros v; unfold par; destruct Sg as [_ Sg]; destruct (Sg v) as (-> & _); auto).
  set (val := isValidComponent H g2). exists g2, rho', (filter (fun c => negb (val c)) inv2), (sinserts (filter val inv2) erasure).
  split; auto. split; auto. constructor.
  - exact Fg.
  - split; [|split].
    + intros v u Hvu' D. specialize (B1 v u Hvu' D). rewrite Bg. destruct (smem _ _); auto. apply filter_In. split; auto. apply (outer_ok n H HH Hne Hn). eauto.
    + intros r' v Hr Pr Hv. rewrite Pp in Pr. apply (B2 r' v); auto. rewrite Bg in Hv. destruct (smem _ _); auto. apply filter_In in Hv. tauto.
    + intros r' v Hr Hv. apply (B3 r' v); auto. rewrite Bg in Hv. destruct (smem _ _); auto. apply filter_In in Hv. tauto.
  - exact L'.
  - apply asc_filter; auto.
  - intros c Hc. apply filter_In in Hc as [Hc Hv]. destruct (K2 c Hc) as (Hcn & Rc & Hcu). split; auto. split; auto. split; auto.
    apply negb_true_iff in Hv. unfold val, isValidComponent in Hv.
    assert (Xk : exists k, In k (t_checks (nd g2 c)) /\ forall u, In u (nbrs H k) -> In u (t_boundary (nd g2 c))).
    { revert Hv. generalize (t_checks (nd g2 c)). induction l as [|k l IHl]; simpl; [discriminate|]. intros Hv. apply andb_false_iff in Hv as [Hv|Hv].
      - exists k. split; auto. intros u Hu. destruct (smem u (t_boundary (nd g2 c))) eqn:Es; [apply smem_In; auto|]. exfalso.
        assert (Hx : existsb (fun u => negb (smem u (t_boundary (nd g2 c)))) (nbrs H k) = true) by (apply existsb_exists; exists u; rewrite Es; auto). congruence.
      - destruct (IHl Hv) as (k' & ? & ?). exists k'. auto. }
    destruct Xk as (k & Hk & Hb). destruct Fg as (_ & _ & F3 & _). assert (Pc : par g2 c = None) by (rewrite Pp; auto).
    destruct (F3 c Hcn Pc) as [_ Hp]. apply (Permutation_in _ Hp) in Hk. apply filter_In in Hk as [Hk1 Hk2]. apply in_seq in Hk1. apply andb_true_iff in Hk2 as [_ Hk2]. apply Nat.eqb_eq in Hk2.
    assert (Hku : exists u, edge n H k u). { destruct (Nat.eq_dec k c) as [->|D]; auto. apply (L' k c); auto; [lia|congruence]. }
    destruct Hku as (u & Hu). assert (Hub : In u (t_boundary (nd g2 c))) by (apply Hb, (nbrs_e n H HH Hne Hn); auto).
    rewrite Bg in Hub. rewrite (proj2 (smem_In c inv2) Hc) in Hub. apply filter_In in Hub as [Hub Ho]. apply (outer_ok n H HH Hne Hn) in Ho as (w & Hw & Dw).
    destruct (B2 c u Hcn (Rt c Hcn Rc) Hub) as [_ Ru]. exists u, w. split; auto. split; auto. congruence.
  - intros c Hc. apply sinserts_In in Hc as [Hc|Hc]; auto. apply filter_In in Hc as [Hc _]. destruct (K2 c Hc) as (? & _ & ?). auto.
  - intros c Hc. destruct (Sy c Hc) as [Hcn D]. split; auto. destruct D as [D|(r' & Hr & Dr)].
    + assert (K : In (rho' c) inv2). { apply Tr. exists (rho c). split; auto. apply Co; auto. { apply (rho_root n N f rho c F Hcn). } symmetry. apply (rho_root n N f rho c F Hcn). }
      destruct (val (rho' c)) eqn:Ev.
      * right. exists (rho' c). split; [apply sinserts_In; left; apply filter_In; auto|]. apply (desc_root g2 rho'); auto.
      * left. apply filter_In. split; auto. now rewrite Ev.
    + right. exists r'. split; [apply sinserts_In; auto|]. apply (desc_mono f); auto.
      * intros x p Hx Ex. rewrite Pp. apply PM; auto.
      * apply F.
  - intros v Hv. destruct (M v Hv) as [M1 M2], (G v Hv) as [G1 G2], (Gg v Hv) as [G3 G4]. split; congruence.
  - assert (Ld : length (filter (fun c => negb (val c)) inv2) <= nroots n H rho').
    { apply NoDup_incl_length; [apply asc_NoDup, asc_filter; auto|]. intros c Hc. apply filter_In in Hc as [Hc _]. destruct (K2 c Hc) as (Hcn & Rc & _).
      apply filter_In. split; [apply in_seq; fold m; fold N; lia|]. apply Nat.eqb_eq; auto. }
    assert (Hb := nroots_N n H Hn rho). fold m N in Hb. lia. Qed.

Definition perm_ch (ch : choices) : Prop := (forall k, perm (ch_C ch k)) /\ (forall k, perm (ch_B ch k)) /\ perm (ch_E ch).
Lemma turns_ok g ch : perm_ch ch -> g <> SingleQubitRandom -> forall fuel f rho invalid erasure, TI f rho invalid erasure -> nroots n H rho <= S fuel ->
  exists f' rho' erasure', turns fuel g ch n H f invalid erasure = Finished (f', erasure') /\ TI f' rho' [] erasure'.
Proof. intros (PC & PB & _) Hg. induction fuel as [|fuel IHf]; intros f rho invalid erasure T Hr.
  - destruct invalid as [|c inv]; [exists f, rho, erasure; auto|]. exfalso. destruct (ti_i _ _ _ _ T c (or_introl eq_refl)) as (Hc & Rc & _ & v & u & Rv & Hvu & Ru).
    destruct (edge_ltN n H Hn _ _ Hvu) as [Hv Hu]. destruct (rho_root n N f rho u (ti_f _ _ _ _ T) Hu) as (_ & Ru' & Lu).
    assert (K : length [c; rho u] <= nroots n H rho).
    { apply NoDup_incl_length. { constructor; [intros [E|[]]; auto|]. constructor; auto. constructor. }
      intros x [<-|[<-|[]]]; apply filter_In; (split; [apply in_seq; fold m; fold N; lia|now apply Nat.eqb_eq]). }
    simpl in K. lia.
  - cbn [turns]. destruct invalid as [|c inv]; [exists f, rho, erasure; auto|]. remember (c :: inv) as invalid eqn:Ei.
    assert (Hl : length invalid <? length H + length (hd [] H) = true).
    { apply Nat.ltb_lt. assert (K := ti_n _ _ _ _ T). unfold N, m in K. rewrite (hd_len n H HH Hne). lia. }
    rewrite Hl. destruct (turn_ok g (ch_C ch (S fuel)) (ch_B ch (S fuel)) (ch_r ch (S fuel)) f rho invalid erasure) as (f' & rho' & i' & e' & E & T' & Nr); auto; [rewrite Ei; discriminate|].
    rewrite E. apply (IHf f' rho' i' e' T'). lia. Qed.

(** the start *)
Lemma init_nd v : v < N -> nd (initForest n m) v = fresh n v.
Proof. intros Hv. unfold nd, initForest. rewrite (nth_indep _ _ (fresh n 0)) by (rewrite map_length, seq_length; auto). rewrite map_nth. now rewrite seq_nth. Qed.
Lemma init_TI : asc fl -> (forall c, In c fl -> n <= c < N /\ exists u, edge n H c u) -> TI (initForest n m) (fun v => v) fl [].
Proof. intros A Hf. assert (Ee : forall v u, edge n H v u -> v <> u). { intros v u (i & c & Hi & Hc & E & [[-> ->]|[-> ->]]); lia. } constructor.
  - apply init_ok; auto.
  - split; [|split].
    + intros v u Hvu _. destruct (edge_ltN n H Hn _ _ Hvu) as [Hv _]. rewrite init_nd by auto. left; auto.
    + intros r v Hr _ Hv. rewrite init_nd in Hv by auto. destruct Hv as [<-|[]]. auto.
    + intros r v Hr Hv. rewrite init_nd in Hv by auto. destruct Hv as [<-|[]]. auto.
  - intros v w _ _ D E. congruence.
  - auto.
  - intros c Hc. destruct (Hf c Hc) as [K (u & Hu)]. split; [lia|]. split; auto. split; [eauto|]. exists c, u. split; auto. split; auto. apply not_eq_sym, Ee; auto.
  - intros c [].
  - intros c Hc. destruct (Hf c Hc). split; [lia|auto].
  - intros v Hv. rewrite init_nd by auto. auto.
  - assert (K : length fl <= length (seq n m)) by (apply NoDup_incl_length; [apply asc_NoDup; auto|intros c Hc; apply in_seq; destruct (Hf c Hc); unfold N in *; lia]).
    rewrite seq_length in K. unfold N. lia. Qed.
End U.
