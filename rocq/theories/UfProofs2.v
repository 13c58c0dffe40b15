(** * UfProofs2: growth and component estimates of UFDecoder *)
From Verif Require Export UfProofs CodeProofs.

Definition closed (n : nat) (H : mat) (A : list nat) : Prop := forall u v, In u A -> edge n H u v -> In v A.
(** the Tanner graph is connected *)
Definition connected (n : nat) (H : mat) : Prop := forall u v, u < n + length H -> v < n + length H -> walk n H (seq 0 (n + length H)) u v.

Lemma closed_walk n H A B u v : closed n H A -> In u A -> walk n H B u v -> In v A.
Proof. intros Hc Hu. induction 1; auto. eapply Hc; eauto. Qed.

Section G.
Variables (n : nat) (H : mat).
Hypothesis HH : wf n H.
Hypothesis Hne : H <> [].
Hypothesis Hn : 0 < n.
Let m := length H.

(** ** Growth *)
Definition gstep (s : list nat) (v : nat) := if smem v s then sinserts (nbrs H v) s else s.
Lemma gstep_incl s v : incl s (gstep s v).
Proof. unfold gstep. intros x Hx. destruct (smem v s); auto. apply sinserts_In; auto. Qed.
Lemma gsteps_incl l s : incl s (fold_left gstep l s).
Proof. revert s; induction l as [|v l IHl]; intros s x Hx; simpl; auto. apply IHl, gstep_incl; auto. Qed.
Lemma gsteps_asc l s : asc s -> asc (fold_left gstep l s).
Proof. revert s; induction l as [|v l IHl]; intros s Hs; simpl; auto. apply IHl. unfold gstep. destruct (smem v s); auto. apply sinserts_asc; auto. Qed.
Lemma gsteps_nbr l s u v : In u l -> In u s -> edge n H u v -> In v (fold_left gstep l s).
Proof. revert s; induction l as [|w l IHl]; intros s Hl Hs He; [destruct Hl|]. simpl. destruct Hl as [->|Hl].
  - apply gsteps_incl. unfold gstep. rewrite (proj2 (smem_In u s) Hs). apply sinserts_In. left. apply (nbrs_edge n H HH Hne Hn); auto.
  - apply IHl; auto. apply gstep_incl; auto. Qed.
Lemma gsteps_sub l s x : In x (fold_left gstep l s) -> In x s \/ exists u, edge n H u x.
Proof. revert s; induction l as [|w l IHl]; intros s Hx; simpl in Hx; auto. destruct (IHl _ Hx) as [Hs|]; auto.
  unfold gstep in Hs. destruct (smem w s); auto. apply sinserts_In in Hs as [Hs|]; auto. right. exists w. apply (nbrs_edge n H HH Hne Hn); auto. Qed.

Definition below (A : list nat) : Prop := forall x, In x A -> x < n + m.
Lemma std_incl A : incl A (standardGrowth (m + n) H A).
Proof. apply gsteps_incl. Qed.
Lemma std_nbr A u v : below A -> In u A -> edge n H u v -> In v (standardGrowth (m + n) H A).
Proof. intros Hb Hu He. eapply gsteps_nbr; eauto. apply in_seq. specialize (Hb u Hu). lia. Qed.
Lemma std_asc A : asc A -> asc (standardGrowth (m + n) H A).
Proof. apply gsteps_asc. Qed.
Lemma std_sub A x : In x (standardGrowth (m + n) H A) -> In x A \/ exists u, edge n H u x.
Proof. apply gsteps_sub. Qed.
Lemma incl_length_eq A B : asc A -> asc B -> incl A B -> length B <= length A -> incl B A.
Proof. intros HA HB I L. apply NoDup_length_incl; auto. apply asc_NoDup; auto. Qed.
Lemma std_progress A : asc A -> below A -> closed n H A \/ length A < length (standardGrowth (m + n) H A).
Proof. intros HA Hb. destruct (Nat.lt_ge_cases (length A) (length (standardGrowth (m + n) H A))) as [|L]; auto. left.
  intros u v Hu He. apply (incl_length_eq A (standardGrowth (m + n) H A) HA (std_asc A HA) (std_incl A) L). eapply std_nbr; eauto. Qed.
Lemma std_closed A : closed n H A -> asc A -> standardGrowth (m + n) H A = A.
Proof. intros Hc HA. unfold standardGrowth. generalize (seq 0 (m + n)) as l. change (forall l, fold_left gstep l A = A).
  induction l as [|v l IHl]; simpl; auto. replace (gstep A v) with A; auto. unfold gstep. destruct (smem v A) eqn:E; auto.
  apply smem_In in E. apply asc_ext; auto using sinserts_asc. intros x. rewrite sinserts_In. split; auto. intros [Hx|]; auto.
  apply (Hc v); auto. apply (nbrs_edge n H HH Hne Hn); auto. Qed.
Lemma closed_all A : connected n H -> closed n H A -> asc A -> A <> [] -> below A -> m + n <= length A.
Proof. intros Hcon Hc HA HA0 Hb. destruct A as [|a A'] eqn:EA; [tauto|]. rewrite <- EA in *. rewrite <- (seq_length (m + n) 0).
  apply NoDup_incl_length; [apply seq_NoDup|]. intros x Hx. apply in_seq in Hx. assert (Ha : In a A) by (rewrite EA; left; auto).
  eapply closed_walk; [exact Hc|exact Ha|]. apply Hcon; [apply Hb; auto|fold m; lia]. Qed.

Lemma grow_by_In C A x : In x (grow_by H C A) <-> In x A \/ exists u, In u C /\ edge n H u x.
Proof. unfold grow_by. revert A; induction C as [|u C IHC]; intros A; simpl.
  - split; auto. intros [?|(u & [] & _)]; auto.
  - rewrite IHC, sinserts_In, (nbrs_edge n H HH Hne Hn). split.
    + intros [[?|?]|(w & Hw & He)]; eauto.
    + intros [?|(w & [->|Hw] & He)]; eauto. Qed.
Lemma grow_by_asc C A : asc A -> asc (grow_by H C A).
Proof. unfold grow_by. revert A; induction C as [|u C IHC]; intros A HA; simpl; auto. apply IHC, sinserts_asc; auto. Qed.

(** every policy only adds vertices, and only neighbours *)
Lemma grow_ok g r A B : asc A -> grow g (m + n) H r A = Ok B ->
  asc B /\ incl A B /\ forall x, In x B -> In x A \/ exists u, edge n H u x.
Proof. intros HA. destruct g; simpl.
  - intros E; injection E as <-. split; [apply std_asc; auto|]. split; [apply std_incl|apply std_sub].
  - intros E; injection E as <-. split; [auto|]. split; [intros x; auto|auto].
  - unfold singleClusterSmallestFirstGrowth. intros E; injection E as <-. destruct (getConnectedComps H A) as [|c l].
    + split; [auto|]. split; [intros x; auto|auto].
    + split; [apply grow_by_asc; auto|]. split; [intros x Hx; apply grow_by_In; auto|]. intros x Hx. apply grow_by_In in Hx as [?|(u & _ & ?)]; eauto.
  - unfold singleClusterRandomFirstGrowth. intros E; injection E as <-.
    split; [apply grow_by_asc; auto|]. split; [intros x Hx; apply grow_by_In; auto|]. intros x Hx. apply grow_by_In in Hx as [?|(u & _ & ?)]; eauto.
  - unfold singleQubitRandomFirstGrowth. destruct (nth_error _ r) as [[|v C]|]; try discriminate. intros E; injection E as <-.
    split; [apply sinserts_asc; auto|]. split; [intros x Hx; apply sinserts_In; auto|].
    intros x Hx. apply sinserts_In in Hx as [Hx|]; auto. right. exists v. apply (nbrs_edge n H HH Hne Hn); auto. Qed.

(** ** Component estimates *)
Variable s : vec.
Hypothesis Hs : length s = m.
Let syndr := syndrome_nodes n s.

Lemma syndr_In x : In x syndr <-> exists c, c < m /\ x = n + c /\ nth c s false = true.
Proof. unfold syndr, syndrome_nodes. rewrite in_map_iff. split.
  - intros (c & <- & Hc). apply filter_In in Hc as [Hc E]. apply in_seq in Hc. exists c. rewrite Hs in Hc. split; [lia|auto].
  - intros (c & Hc & -> & E). exists c. split; auto. apply filter_In. split; auto. apply in_seq. rewrite Hs. lia. Qed.
Lemma syndr_smem c : c < m -> smem (n + c) syndr = nth c s false.
Proof. intros Hc. destruct (nth c s false) eqn:E.
  - apply smem_In, syndr_In. eauto.
  - apply smem_false. rewrite syndr_In. intros (c' & _ & E1 & E2). replace c' with c in E2 by lia. congruence. Qed.
Lemma filter_asc f l : asc l -> asc (filter f l).
Proof. induction l as [|x l IHl]; intros Hl; simpl; [constructor|]. apply StronglySorted_inv in Hl as [H1 H2]. destruct (f x); auto.
  constructor; [apply IHl; auto|]. apply Forall_forall. intros y Hy. apply filter_In in Hy as [Hy _]. rewrite Forall_forall in H2; auto. Qed.
Lemma seq_asc len : forall a, asc (seq a len).
Proof. induction len as [|len IHl]; intros a; simpl; constructor; [apply IHl|]. apply Forall_forall. intros x Hx. apply in_seq in Hx. lia. Qed.
Lemma map_asc l : asc l -> asc (map (fun i => n + i) l).
Proof. induction l as [|x l IHl]; intros Hl; simpl; constructor; apply StronglySorted_inv in Hl as [H1 H2]; [apply IHl; auto|].
  apply Forall_forall. intros y Hy. apply in_map_iff in Hy as (z & <- & Hz). rewrite Forall_forall in H2. specialize (H2 z Hz). lia. Qed.
Lemma syndr_asc : asc syndr.
Proof. apply map_asc, filter_asc, seq_asc. Qed.

Definition good (acc : list nat * mat * vec) : Prop :=
  let '(used, redH, redS) := acc in
  Forall (fun c => c < m) used /\ redH = map (fun c => nth c H []) used /\ redS = map (fun c => nth c s false) used.
Definition usedOf (acc : list nat * mat * vec) := fst (fst acc).
Lemma add_row_ok acc c : c < m -> good acc ->
  exists acc', add_row H n (n + c) (nth c s false) acc = Ok acc' /\ good acc' /\ forall x, In x (usedOf acc') <-> In x (usedOf acc) \/ x = c.
Proof. destruct acc as [[used redH] redS]. intros Hc (G1 & G2 & G3). unfold add_row. replace (n + c - n) with c by lia.
  rewrite (nth_error_nth' H [] Hc). destruct (smem c used) eqn:E.
  - apply smem_In in E. exists (used, redH, redS). split; auto. split; [split; auto|]. simpl. intros x. split; auto. intros [?| ->]; auto.
  - exists (used ++ [c], redH ++ [nth c H []], redS ++ [nth c s false]). split; auto. split.
    + split; [apply Forall_app; split; auto|]. subst. rewrite !map_app. auto.
    + intros x. unfold usedOf. cbn [fst]. rewrite in_app_iff. simpl. intuition. Qed.
Lemma add_rows_ok checks : forall acc, (forall x, In x checks -> exists c, c < m /\ x = n + c) -> good acc ->
  exists acc', add_rows H n syndr checks acc = Ok acc' /\ good acc' /\ forall x, In x (usedOf acc') <-> In x (usedOf acc) \/ In (n + x) checks.
Proof. induction checks as [|v checks IHc]; intros acc Hc Hg; simpl.
  - exists acc. split; auto. split; auto. intuition.
  - destruct (Hc v (or_introl eq_refl)) as (c & Hlt & ->). rewrite (syndr_smem c Hlt). destruct (add_row_ok acc c Hlt Hg) as (acc1 & -> & Hg1 & Hu1).
    cbn [bind]. destruct (IHc acc1 (fun x Hx => Hc x (or_intror Hx)) Hg1) as (acc2 & -> & Hg2 & Hu2). exists acc2. split; auto. split; auto.
    intros x. rewrite Hu2, Hu1. split; [intros [[?| ->]|?]; auto|]. intros [?|[E|?]]; auto. left; right; lia. Qed.
Lemma collect_app A : forall B acc, collect H n H syndr (A ++ B) acc = let* acc := collect H n H syndr A acc in collect H n H syndr B acc.
Proof. induction A as [|v A IHA]; intros B acc; simpl; auto.
  destruct (if n <=? v then _ else _) as [acc1|e]; cbn [bind]; auto. Qed.
Lemma collect_bits A : forall acc, (forall x, In x A -> x < n) -> good acc ->
  exists acc', collect H n H syndr A acc = Ok acc' /\ good acc' /\
    forall x, In x (usedOf acc') <-> In x (usedOf acc) \/ exists b, In b A /\ edge n H b (n + x).
Proof. induction A as [|v A IHA]; intros acc HA Hg; simpl.
  - exists acc. split; auto. split; auto. intros x. split; auto. intros [?|(b & [] & _)]; auto.
  - assert (Hv : v < n) by (apply HA; left; auto). destruct (Nat.leb_spec n v); [lia|].
    destruct (add_rows_ok (nbrs H v) acc) as (acc1 & -> & Hg1 & Hu1); auto.
    { intros x Hx. apply (nbrs_edge n H HH Hne Hn) in Hx as (i & c & Hi & Hc & E & [[-> ->]|[-> ->]]); [|lia]. eauto. }
    cbn [bind]. destruct (IHA acc1) as (acc2 & -> & Hg2 & Hu2); auto. { intros x Hx; apply HA; right; auto. }
    exists acc2. split; auto. split; auto. intros x. rewrite Hu2, Hu1, (nbrs_edge n H HH Hne Hn). split.
    + intros [[?|?]|(b & Hb & He)]; eauto.
    + intros [?|(b & [->|Hb] & He)]; eauto. Qed.
Lemma collect_checks A : forall acc, (forall x, In x A -> exists c, c < m /\ x = n + c /\ In c (usedOf acc)) -> good acc ->
  collect H n H syndr A acc = Ok acc.
Proof. induction A as [|v A IHA]; intros acc HA Hg; simpl; auto. destruct (HA v (or_introl eq_refl)) as (c & Hc & -> & Hin).
  destruct (Nat.leb_spec n (n + c)); [|lia]. destruct acc as [[used redH] redS]. simpl in Hin. unfold add_row. replace (n + c - n) with c by lia.
  rewrite (nth_error_nth' H [] Hc), (proj2 (smem_In c used) Hin). cbn [bind]. apply IHA; auto. intros x Hx. apply HA. right; auto. Qed.

Lemma asc_split A : asc A -> A = filter (fun x => x <? n) A ++ filter (fun x => n <=? x) A.
Proof. induction A as [|x A IHA]; intros HA; simpl; auto. apply StronglySorted_inv in HA as [H1 H2]. rewrite Forall_forall in H2.
  destruct (Nat.ltb_spec x n); destruct (Nat.leb_spec n x); try lia.
  - simpl. f_equal. apply IHA; auto.
  - replace (filter (fun x => x <? n) A) with (@nil nat).
    2:{ symmetry. clear IHA H1. induction A as [|y A IHA]; simpl; auto. destruct (Nat.ltb_spec y n).
        - specialize (H2 y (or_introl eq_refl)). lia.
        - apply IHA. intros z Hz; apply H2; right; auto. }
    simpl. f_equal. clear IHA H1. induction A as [|y A IHA]; simpl; auto. destruct (Nat.leb_spec n y).
    + f_equal. apply IHA. intros z Hz; apply H2; right; auto.
    + specialize (H2 y (or_introl eq_refl)). lia. Qed.

(** the checks a component's estimate has to satisfy: those in it and those adjacent to one of its bits *)
Definition touches (C : list nat) (c : nat) : Prop := c < m /\ (In (n + c) C \/ exists b, In b C /\ edge n H b (n + c)).

Lemma interior_In C b : In b (computeInteriorBitNodes n H C) <-> In b C /\ b < n /\ forall v, edge n H b v -> In v C.
Proof. unfold computeInteriorBitNodes. rewrite filter_In, andb_true_iff, Nat.ltb_lt, forallb_forall. split; intros (K1 & K2 & K3); repeat split; auto.
  - intros v He. apply smem_In, K3. apply (nbrs_edge n H HH Hne Hn); auto.
  - intros v Hv. apply smem_In, K3. apply (nbrs_edge n H HH Hne Hn); auto. Qed.

Lemma map_eq_in {A B} (f g : A -> B) l : map f l = map g l -> forall x, In x l -> f x = g x.
Proof. induction l as [|y l IHl]; intros E x []; injection E as E1 E2; subst; auto. Qed.

Variable e : vec.
Hypothesis He : length e = n.
Hypothesis Hse : s = mulMV H e.

Lemma estimate_ok C : asc C -> below C -> (forall x y, In x C -> In y C -> walk n H C x y) ->
  (forall i, In i C -> i < n -> exists v, edge n H i v) ->
  exists est, getEstimateForComponent n H H C syndr = Ok est /\ asc est /\ Forall (fun i => i < n) est /\
    (computeInteriorBitNodes n H C = [] -> est = []) /\
    (computeInteriorBitNodes n H C <> [] -> forall c, touches C c -> dot (nth c H []) (supp_vec n est) = nth c s false).
Proof. intros HC Hb Hw Hbit. unfold getEstimateForComponent. destruct (computeInteriorBitNodes n H C) as [|b0 int] eqn:Ei.
  { exists []. repeat split; auto; try constructor. tauto. }
  assert (Hb0 : In b0 C /\ b0 < n). { assert (K : In b0 (computeInteriorBitNodes n H C)) by (rewrite Ei; left; auto). apply interior_In in K. tauto. }
  assert (Hchk : forall x, In x C -> n <= x -> exists c b, c < m /\ x = n + c /\ In b C /\ b < n /\ edge n H b (n + c)).
  { intros x Hx Hge. assert (K := Hw b0 x (proj1 Hb0) Hx). destruct K as [K|v w K Ke _]; [lia|].
    destruct Ke as (i & c & Hi & Hc & E & [[-> ->]|[-> ->]]); [|lia]. exists c, i. apply walk_in in K. repeat split; auto; try tauto.
    exists i, c. auto 6. }
  destruct (collect_bits (filter (fun x => x <? n) C) ([], [], [])) as (acc1 & E1 & Hg1 & Hu1).
  { intros x Hx. apply filter_In in Hx as [_ Hx]. now apply Nat.ltb_lt. } { repeat split; auto. }
  assert (EC : collect H n H syndr C ([], [], []) = Ok acc1).
  { transitivity (collect H n H syndr (filter (fun x => x <? n) C ++ filter (fun x => n <=? x) C) ([], [], [])); [now rewrite <- asc_split|].
    rewrite collect_app, E1. cbn [bind]. apply collect_checks; auto. intros x Hx. apply filter_In in Hx as [Hx Hge]. apply Nat.leb_le in Hge. destruct (Hchk x Hx Hge) as (c & b & Hc & -> & Hb1 & Hb2 & Heb).
      exists c. split; auto. split; auto. apply Hu1. right. exists b. split; auto. apply filter_In. split; auto. now apply Nat.ltb_lt. }
  rewrite EC. cbn [bind]. destruct acc1 as [[used redH] redS]. destruct Hg1 as (G1 & G2 & G3). simpl in Hu1.
  assert (Huse : forall c, touches C c -> In c used).
  { intros c [Hc [Hin|(b & Hb1 & Heb)]].
    - destruct (Hchk (n + c) Hin) as (c' & b & Hc' & E & Hb1 & Hb2 & Heb); [lia|]. apply Hu1. right. exists b.
      replace c' with c in * by lia. split; auto. apply filter_In. split; auto. now apply Nat.ltb_lt.
    - apply Hu1. right. exists b. split; auto. apply filter_In. split; auto. apply Nat.ltb_lt.
      destruct Heb as (i & c' & Hi & Hc' & E & [[-> ?]|[-> ?]]); lia. }
  assert (Hused0 : used <> []).
  { destruct (Hbit b0) as (v & Hv); try tauto. destruct Hv as (i & c & Hi & Hc & E & [[-> ->]|[-> ->]]); [|lia].
    assert (K : In c used). { apply Hu1. right. exists i. split; [apply filter_In; split; [tauto|now apply Nat.ltb_lt]|]. exists i, c. auto 6. }
    intros ->. destruct K. }
  assert (HwfR : wf n redH). { subst redH. apply Forall_map. eapply Forall_impl; [|exact G1]. intros c Hc. simpl.
    apply (wf_in n H); auto. apply nth_In; auto. }
  assert (HR0 : redH <> []) by (subst redH; destruct used; [tauto|discriminate]).
  destruct (toCsc_ok n redH HwfR HR0) as (csc & Ecsc & L1 & L2 & L3). rewrite Ecsc. cbn [bind].
  destruct redH as [|r0 redH'] eqn:ER; [tauto|]. rewrite <- ER in *.
  assert (Hr0 : length r0 = n). { rewrite ER in HwfR. apply wf_cons in HwfR. tauto. } rewrite Hr0.
  destruct (lusolve_mulMV (length redH) n csc redH redS) as (x & Ex & Lx & Hx); auto.
  { rewrite G3, G2. now rewrite !map_length. }
  { exists e. split; auto. rewrite G2, G3, Hse. unfold mulMV at 1. rewrite map_map. apply map_ext_in. intros c Hc.
    rewrite Forall_forall in G1. specialize (G1 c Hc). unfold mulMV. rewrite (nth_indep _ false ((fun r => dot r e) [])) by (rewrite map_length; auto).
    now rewrite (map_nth (fun r => dot r e)). }
  rewrite Ex. exists (onesIdx x). destruct (onesIdx_ok x) as [O1 O2]. rewrite Lx in O1, O2. split; auto. split; [apply filter_asc, seq_asc|].
  split; auto. split; [discriminate|]. intros _ c Hc. apply Huse in Hc. rewrite O2. rewrite G2, G3 in Hx. unfold mulMV in Hx. rewrite map_map in Hx.
  apply (map_eq_in _ _ _ Hx c Hc). Qed.
End G.
