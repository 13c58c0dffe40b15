(** * VerifyProofs: the whole verified state preparation circuit on a prepared state with a Pauli error *)
From Verif Require Export FlagHook.
From Coq Require Import Permutation.
Local Open Scope nat_scope.

Lemma exec_scal l : forall outs psi c x, exec l outs (fun y => (c * psi y)%Z) x = (c * exec l outs psi x)%Z.
Proof. induction l as [|i l IH]; intros outs psi c x; auto. destruct i as [q|a t|q m]; cbn [exec]; rewrite <- IH; apply (exec_ext (length x)); auto; intros y _; unfold apply_gate, project.
  - ring.
  - reflexivity.
  - destruct (Bool.eqb _ _); ring. Qed.

(** psi is, up to a positive factor, phi with the qubits of p flipped *)
Definition pinned (N : nat) (phi : state) (p : vec) (psi : state) : Prop :=
  exists c1 c2 : Z, (0 < c1)%Z /\ (0 < c2)%Z /\ forall x, length x = N -> (c1 * psi x = c2 * phi (vxor x p))%Z.
Definition nothing (N : nat) (psi : state) : Prop := state_eq N psi (fun _ => 0%Z).
Definition frag (N : nat) (phi : state) (p : vec) (V : list ins) (p' : vec) (E : list bool) : Prop :=
  length E = measurements V /\ forall psi, pinned N phi p psi -> pinned N phi p' (exec V E psi) /\ forall outs, length outs = measurements V -> outs <> E -> nothing N (exec V outs psi).
Lemma frag_app N phi p V p' E V' p'' E' : frag N phi p V p' E -> frag N phi p' V' p'' E' -> frag N phi p (V ++ V') p'' (E ++ E').
Proof. intros [L H] [L' H']. split; [rewrite app_length, measurements_app; lia|]. intros psi P. destruct (H psi P) as [P1 Z1]. destruct (H' _ P1) as [P2 Z2]. split; [rewrite exec_app by auto; exact P2|].
  intros outs Lo Ne. rewrite measurements_app in Lo. set (k := measurements V) in *. rewrite <- (firstn_skipn k outs) in *. remember (firstn k outs) as o1. remember (skipn k outs) as o2.
  assert (L1 : length o1 = k) by (subst o1; rewrite firstn_length; rewrite app_length in Lo; subst o2; rewrite firstn_length, skipn_length in Lo; lia). assert (L2 : length o2 = measurements V') by (rewrite app_length in Lo; lia).
  rewrite exec_app by auto. destruct (list_eq_dec Bool.bool_dec o1 E) as [->|N1]; [apply Z2; auto; congruence|]. apply exec_zero. now apply Z1. Qed.
Lemma frag_nil N phi p : frag N phi p [] p [].
Proof. split; auto. intros psi P. split; auto. intros [|o l] Ho Hn; [contradiction|discriminate]. Qed.

Lemma pinned_clean N phi p psi l : pinned N phi p psi -> clean N l phi -> length p = N -> (forall q, In q l -> q < N /\ nth q p false = false) -> clean N l psi.
Proof. intros (c1 & c2 & C1 & C2 & H) C Lp Hp x Lx (q & Iq & Hq). specialize (H x Lx). destruct (Hp q Iq) as [Q1 Q2]. rewrite C in H; [nia|rewrite vxor_length; lia|].
  exists q. split; auto. rewrite nth_vxor by lia. now rewrite Q2, Hq. Qed.
(** phi is an eigenstate of the product of Z (X) on stab, with eigenvalue (-1)^s *)
Definition eigen (N : nat) (z : bool) (stab : list nat) (s : bool) (phi : state) : Prop :=
  forall x, length x = N -> (if z then op_Z (supp_vec N stab) phi else op_X (supp_vec N stab) phi) x = ((if s then -1 else 1) * phi x)%Z.
Lemma dot_disjoint (a b : vec) : (forall j, nth j a false && nth j b false = false) -> dot a b = false.
Proof. revert b. induction a as [|x a IH]; intros [|y b] H; cbn [dot]; auto. pose proof (H 0) as H0. cbn in H0. rewrite H0, IH; auto. intros j. exact (H (S j)). Qed.
Lemma supp_dot0 N stab p : length p = N -> (forall q, In q stab -> nth q p false = false) -> dot (supp_vec N stab) p = false.
Proof. intros Lp H. apply dot_disjoint. intros j. destruct (Nat.lt_ge_cases j N) as [Hj|Hj]; [|rewrite (nth_overflow p) by lia; apply andb_false_r]. rewrite nth_supp by auto. destruct (memb j stab) eqn:M; auto. apply memb_in in M. rewrite H by auto. reflexivity. Qed.
Lemma frag_gadget N phi p z stab a fl L s : length p = N -> a < N -> ~ In a fl -> (forall f, In f fl -> f < N) -> measures N z stab a fl L -> clean N (a :: fl) phi -> eigen N z stab s phi ->
  (forall q, In q (a :: fl) -> nth q p false = false) -> (forall q, In q stab -> q < N /\ nth q p false = false) ->
  frag N phi p L (set_nth a s p) (repeat false (length fl) ++ [s]).
Proof. intros Lp An Na Fn [M1 (k1 & k2 & K1 & K2 & M)] C Ei Hp Hs. split; [rewrite app_length, repeat_length; cbn [length]; lia|]. intros psi P.
  assert (PC : clean N (a :: fl) psi). { apply (pinned_clean N phi p psi (a :: fl) P C Lp). intros q Hq. split; [|auto]. destruct Hq as [<-|Hq]; auto. }
  assert (D0 : dot (supp_vec N stab) p = false) by (apply supp_dot0; auto; intros; now apply Hs).
  destruct P as (c1 & c2 & C1 & C2 & P).
  (* the ideal measurement *)
  assert (MM : forall o y, length y = N -> (c1 * measured N z stab o psi y = if Bool.eqb o s then 2 * (c2 * phi (vxor y p)) else 0)%Z).
  { intros o y Ly. assert (LV : length (vxor y p) = N) by (rewrite vxor_length; lia). specialize (Ei _ LV). unfold measured.
    assert (ES : (c1 * (if z then op_Z (supp_vec N stab) psi else op_X (supp_vec N stab) psi) y = c2 * ((if s then -1 else 1) * phi (vxor y p)))%Z).
    { rewrite <- Ei. destruct z; unfold op_Z, op_X.
      - rewrite dot_vxor_r by (unfold vec in *; lia). rewrite D0, xorb_false_r. pose proof (P y Ly) as Py. destruct (dot _ y); lia.
      - rewrite P by (rewrite vxor_length; rewrite ?supp_length; auto). f_equal. f_equal. rewrite <- !vxor_assoc. f_equal. apply vxor_comm. }
    rewrite Z.mul_add_distr_l, (P y Ly). replace (c1 * ((if o then -1 else 1) * (if z then op_Z (supp_vec N stab) psi else op_X (supp_vec N stab) psi) y))%Z with ((if o then -1 else 1) * (c1 * (if z then op_Z (supp_vec N stab) psi else op_X (supp_vec N stab) psi) y))%Z by ring.
    rewrite ES. destruct o, s; cbn [Bool.eqb]; ring. }
  assert (OFF : forall outs, length outs = measurements L -> outs <> repeat false (length fl) ++ [s] -> nothing N (exec L outs psi)).
  { intros outs Lo Ne x Lx. rewrite M1 in Lo. destruct (exists_last (l := outs)) as (fo & o & ->); [intros ->; discriminate|]. rewrite app_length in Lo. cbn [length] in Lo.
    pose proof (M psi fo o PC ltac:(lia) x Lx) as E. destruct (existsb (fun b => b) fo) eqn:EX; [nia|].
    assert (F0 : fo = repeat false (length fl)). { replace (length fl) with (length fo) by lia. clear - EX. induction fo as [|b fo IH]; auto. cbn in *. apply orb_false_iff in EX as [-> E]. now rewrite <- IH. }
    destruct (Bool.eqb o s) eqn:Eo; [apply eqb_prop in Eo; subst; contradiction|].
    destruct (forallb _ fl && _); [|nia]. pose proof (MM o (set_nth a false x) ltac:(now rewrite set_nth_length)) as K. rewrite Eo in K. assert (measured N z stab o psi (set_nth a false x) = 0)%Z as Z0 by nia. rewrite Z0 in E. nia. }
  split; [|exact OFF]. exists (c1 * k1)%Z, (k2 * 2 * c2)%Z. split; [nia|]. split; [nia|]. intros x Lx.
  pose proof (M psi (repeat false (length fl)) s PC ltac:(now rewrite repeat_length) x Lx) as E. replace (existsb (fun b => b) (repeat false (length fl))) with false in E by (clear; induction (length fl); auto).
  rewrite <- Z.mul_assoc, E. set (y := set_nth a false x). assert (Ly : length y = N) by (unfold y; now rewrite set_nth_length).
  destruct (forallb (fun f => negb (nth f x false)) fl && Bool.eqb (nth a x false) s) eqn:B.
  - apply andb_true_iff in B as [_ B]. apply eqb_prop in B. pose proof (MM s y Ly) as K. rewrite eqb_reflx in K.
    assert (EV : vxor y p = vxor x (set_nth a s p)).
    { apply (vec_ext N); [rewrite vxor_length; lia|rewrite vxor_length; rewrite ?set_nth_length; lia|]. intros j Hj. rewrite !nth_vxor by (rewrite ?set_nth_length; unfold y; rewrite ?set_nth_length; unfold vec in *; lia). unfold y.
      destruct (Nat.eq_dec j a) as [->|Nj]; [rewrite !nth_set_nth_eq by (unfold vec in *; lia)|rewrite !nth_set_nth_neq by auto; reflexivity]. rewrite (Hp a (or_introl eq_refl)), B. now destruct s. }
    rewrite <- EV. nia.
  - enough (phi (vxor x (set_nth a s p)) = 0)%Z as -> by ring. assert (LV : length (vxor x (set_nth a s p)) = N) by (rewrite vxor_length; rewrite ?set_nth_length; lia).
    apply andb_false_iff in B as [B|B].
    + assert (exists f, In f fl /\ nth f x false = true) as (f & If & Hf).
      { clear - B. induction fl as [|f fl' IH]; [discriminate|]. cbn in B. destruct (nth f x false) eqn:Ef; [exists f; split; [now left|auto]|]. destruct (IH B) as (g & Ig & Hg). exists g. split; [now right|auto]. }
      apply C; auto. destruct (Nat.eq_dec f a) as [->|Nf].
      * contradiction.
      * exists f. split; [now right|]. rewrite nth_vxor by (rewrite ?set_nth_length; unfold vec in *; lia). rewrite nth_set_nth_neq by auto. rewrite (Hp f) by (now right). now rewrite Hf.
    + apply C; auto. exists a. split; [now left|]. rewrite nth_vxor by (rewrite ?set_nth_length; unfold vec in *; lia). rewrite nth_set_nth_eq by (unfold vec in *; lia). destruct (nth a x false), s; cbn in *; congruence. Qed.

Lemma frag_im N phi p a b : length p = N -> a < N -> clean N [a] phi -> frag N phi p [IM a b] p [nth a p false].
Proof. intros Lp An C. split; auto. intros psi (c1 & c2 & C1 & C2 & P).
  assert (K : forall x, length x = N -> nth a x false <> nth a p false -> psi x = 0%Z).
  { intros x Lx Ne. specialize (P x Lx). rewrite C in P; [nia|rewrite vxor_length; lia|]. exists a. split; [now left|]. rewrite nth_vxor by lia. destruct (nth a x false), (nth a p false); auto; contradiction. }
  cbn [exec hd tl]. split.
  - exists c1, c2. split; auto. split; auto. intros x Lx. rewrite <- P by auto. unfold project. destruct (Bool.eqb (nth a x false) (nth a p false)) eqn:E; auto. rewrite (K x Lx); [ring|]. intros H. rewrite H, eqb_reflx in E. discriminate.
  - intros [|o [|? ?]] Lo Ne; try discriminate. cbn [hd tl]. intros x Lx. unfold project. destruct (Bool.eqb (nth a x false) o) eqn:E; auto. apply eqb_prop in E. apply K; auto. congruence. Qed.
Lemma exec_cx N a l : a < N -> NoDup l -> (forall q, In q l -> q < N /\ q <> a) -> forall psi x, length x = N ->
  exec (map (fun q => ICX q a) l) [] psi x = psi (set_nth a (xorb (nth a x false) (dot (supp_vec N l) x)) x).
Proof. intros An. induction l as [|q l IH]; intros ND Hl psi x Lx; cbn [map exec].
  - assert (dot (supp_vec N []) x = false) as -> by (apply dot_disjoint; intros j; destruct (Nat.lt_ge_cases j N); [rewrite nth_supp by auto|rewrite nth_overflow by (rewrite supp_length; auto)]; reflexivity). rewrite xorb_false_r. now rewrite set_nth_id.
  - apply NoDup_cons_iff in ND as [NI ND]. destruct (Hl q (or_introl eq_refl)) as [Qn Qa]. rewrite IH by (auto; intros; apply Hl; now right). cbn [apply_gate]. f_equal. unfold cxv.
    rewrite nth_set_nth_eq by (unfold vec in *; lia). rewrite nth_set_nth_neq by auto. rewrite supp_cons by auto. rewrite dot_vxor_l by (now rewrite unitv_length, supp_length). rewrite (dot_unitv_l N x q) by (auto; lia).
    apply (vec_ext N); rewrite ?set_nth_length; auto. intros j Hj. destruct (Nat.eq_dec j a) as [->|Nj]; [rewrite !nth_set_nth_eq by (rewrite ?set_nth_length; unfold vec in *; lia)|now rewrite !nth_set_nth_neq by auto].
    destruct (nth a x false), (nth q x false), (dot (supp_vec N l) x); reflexivity. Qed.
Lemma frag_cx N phi p a l s : length p = N -> a < N -> NoDup l -> (forall q, In q l -> q < N /\ q <> a /\ nth q p false = false) -> nth a p false = false -> eigen N true l s phi ->
  frag N phi p (map (fun q => ICX q a) l) (set_nth a s p) [].
Proof. intros Lp An ND Hl Pa Ei. assert (M0 : measurements (map (fun q => ICX q a) l) = 0) by (clear; induction l; auto). split; [now rewrite M0|]. intros psi (c1 & c2 & C1 & C2 & P). split.
  2: { intros outs Lo Ne. rewrite M0 in Lo. destruct outs; [contradiction|discriminate]. }
  exists c1, c2. split; auto. split; auto. intros x Lx. rewrite (exec_cx N) by (auto; intros q Hq; destruct (Hl q Hq) as (? & ? & ?); auto). rewrite P by (now rewrite set_nth_length). f_equal.
  set (d := dot (supp_vec N l) x). set (y := vxor (set_nth a (xorb (nth a x false) d) x) p). set (y' := vxor x (set_nth a s p)).
  assert (Ly : length y = N) by (unfold y; rewrite vxor_length; rewrite ?set_nth_length; lia). assert (Ly' : length y' = N) by (unfold y'; rewrite vxor_length; rewrite ?set_nth_length; lia).
  assert (DS : forall u v, length u = N -> length v = N -> (forall j, j <> a -> nth j u false = nth j v false) -> dot (supp_vec N l) u = dot (supp_vec N l) v).
  { intros u v Lu Lv H. enough (dot (supp_vec N l) (vxor u v) = false) as K by (rewrite dot_vxor_r in K by (unfold vec in *; lia); destruct (dot _ u), (dot _ v); auto; discriminate).
    apply supp_dot0; [rewrite vxor_length; lia|]. intros q Hq. rewrite nth_vxor by (unfold vec in *; lia). rewrite H by (now apply Hl). apply xorb_nilpotent. }
  assert (Dp : dot (supp_vec N l) p = false) by (apply supp_dot0; auto; intros q Hq; now apply Hl).
  assert (Dx : dot (supp_vec N l) (vxor x p) = d) by (rewrite dot_vxor_r by (unfold vec in *; lia); rewrite Dp, xorb_false_r; reflexivity).
  assert (D1 : dot (supp_vec N l) y = d).
  { rewrite <- Dx. apply DS; auto; [rewrite vxor_length; lia|]. intros j Hj. unfold y. rewrite !nth_vxor by (rewrite ?set_nth_length; unfold vec in *; lia). now rewrite nth_set_nth_neq. }
  assert (D2 : dot (supp_vec N l) y' = d).
  { rewrite <- Dx. apply DS; auto; [rewrite vxor_length; lia|]. intros j Hj. unfold y'. rewrite !nth_vxor by (rewrite ?set_nth_length; unfold vec in *; lia). now rewrite nth_set_nth_neq. }
  pose proof (Ei y Ly) as E1. pose proof (Ei y' Ly') as E2. cbv iota in E1, E2. unfold op_Z in E1, E2. rewrite D1 in E1. rewrite D2 in E2.
  destruct (Bool.bool_dec d s) as [Eq|Ne]; [|destruct d, s; try congruence; lia].
  assert (y = y') as ->; auto. apply (vec_ext N); auto. intros j Hj. unfold y, y'. rewrite !nth_vxor by (rewrite ?set_nth_length; unfold vec in *; lia).
  destruct (Nat.eq_dec j a) as [->|Nj]; [rewrite !nth_set_nth_eq by (unfold vec in *; lia)|now rewrite !nth_set_nth_neq by auto]. rewrite Pa, Eq. destruct (nth a x false), s; reflexivity. Qed.

(** ** the loops over the measurements *)
Definition pvec (N n : nat) (B : nat -> bool) (k : nat) : vec := map (fun q => (n <=? q) && (q <? k) && B (q - n)) (seq 0 N).
Lemma pvec_length N n B k : length (pvec N n B k) = N.
Proof. unfold pvec. now rewrite map_length, seq_length. Qed.
Lemma nth_pvec N n B k q : q < N -> nth q (pvec N n B k) false = (n <=? q) && (q <? k) && B (q - n).
Proof. intros H. unfold pvec. rewrite (nth_indep _ false ((n <=? 0) && (0 <? k) && B (0 - n))) by (now rewrite map_length, seq_length). rewrite (map_nth (fun q => (n <=? q) && (q <? k) && B (q - n)) (seq 0 N) 0 q). now rewrite seq_nth. Qed.
Lemma pvec_step N n B k : n <= k < N -> set_nth k (B (k - n)) (pvec N n B k) = pvec N n B (S k).
Proof. intros H. apply (vec_ext N); rewrite ?set_nth_length, ?pvec_length; auto. intros j Hj. rewrite (nth_pvec N n B (S k)) by auto. destruct (Nat.eq_dec j k) as [->|Nj].
  - rewrite nth_set_nth_eq by (rewrite pvec_length; lia). destruct (Nat.leb_spec n k), (Nat.ltb_spec k (S k)); try lia. reflexivity.
  - rewrite nth_set_nth_neq by auto. rewrite nth_pvec by auto. destruct (Nat.ltb_spec j k), (Nat.ltb_spec j (S k)); try lia; reflexivity. Qed.
(** what one gadget must do *)
Definition one_spec (z : bool) (good : nat -> Prop) (one : qcirc -> list nat -> nat -> nat -> py qcirc) : Prop :=
  forall qc stab a b qc', a < qc_nq qc -> NoDup stab -> (forall q, In q stab -> q < qc_nq qc /\ q <> a) -> good (length stab) -> one qc stab a b = Ret qc' ->
  exists L k fb, qc_ins qc' = qc_ins qc ++ L /\ qc_nq qc' = qc_nq qc + k /\ qc_nc qc' = qc_nc qc + k /\ (forall N, qc_nq qc' <= N -> measures N z stab a (seq (qc_nq qc) k) L) /\
    meas_bits L = fb ++ [(a, b)] /\ Permutation fb (combine (seq (qc_nq qc) k) (seq (qc_nc qc) k)).
Lemma flagged_one t z : one_spec z (fun w => ~ (t = 1 /\ w = 1)) (fun qc s a b => measure_flagged qc s a b t z).
Proof. intros qc stab a b qc' An ND HS N1 R. destruct (supported_dec (length stab) t) as [S|NS]; [|rewrite flagged_raises in R by auto; discriminate].
  destruct (flagged_builds qc stab a b t z S N1) as (qc2 & k & evs & E & B & _). assert (qc2 = qc') by congruence. subst qc2. destruct B as [B1 B2 B3 B4 B5 B6].
  exists (gadget z a b evs), k, (close_bits evs). split; auto. split; auto. split; auto. split; [|split; [apply gadget_bits|auto]]. intros N HN.
  rewrite <- B5 at 1. apply gadget_measures; auto; try lia.
  - intros f I. apply in_seq in I. lia.
  - intros I. apply in_seq in I. lia.
  - apply seq_NoDup.
  - rewrite B5. intros q I. destruct (HS q I). split; [lia|]. split; auto. intros J. apply in_seq in J. lia.
  - now rewrite B5. Qed.
Lemma unflagged_one z : one_spec z (fun _ => True) (fun qc s a b => measure_stab_unflagged qc s a b z).
Proof. intros qc stab a b qc' An ND HS _ R. destruct stab as [|s0 st]; [discriminate|]. destruct (unflagged_builds qc (s0 :: st) a b z ltac:(discriminate)) as (qc2 & E & B). assert (qc2 = qc') by congruence. subst qc2. destruct B as [B1 B2 B3 B4 B5 B6].
  exists (gadget z a b (map ED (s0 :: st))), 0, []. split; auto. split; auto. split; auto. split; [|split; [rewrite gadget_bits, close_map; reflexivity|apply Permutation_refl]]. intros N HN.
  rewrite <- (datas_map (s0 :: st)) at 1. apply gadget_measures; [lia|intros f []|intros []|apply NoDup_nil|exact B4| |].
  - rewrite datas_map. intros q I. destruct (HS q I). split; [lia|]. split; auto.
  - now rewrite datas_map. Qed.
Definition exp_bits (B : nat -> bool) (V : list ins) : list bool := map (fun qb => B (snd qb)) (meas_bits V).
Lemma loop_mono z good one a0 b0 ms : one_spec z good one -> forall i qc qc', (forall v, In v ms -> good (weight v) /\ forall q, In q (support v) -> q < a0) -> a0 + i + length ms <= qc_nq qc ->
  meas_loop one a0 b0 i ms qc = Ret qc' -> qc_nq qc <= qc_nq qc'.
Proof. intros O. induction ms as [|v ms IH]; intros i qc qc' G Hn E; cbn [meas_loop] in E; [injection E as <-; auto|]. destruct (one qc (support v) (a0 + i) (b0 + i)) as [qc1|] eqn:E1; [|discriminate]. cbn [pbind] in E. cbn [length] in Hn.
  destruct (G v (or_introl eq_refl)) as [G1 G2].
  destruct (O qc (support v) (a0 + i) (b0 + i) qc1) as (L & k & fb & A1 & A2 & _); auto; [lia|apply support_nodup|intros q Hq; specialize (G2 q Hq); lia|now rewrite support_weight|].
  apply IH in E; [lia|intros; apply G; now right|lia]. Qed.
Lemma loop_frag z good one N n phi B b0 ms : one_spec z good one -> (forall q, n <= q < N -> clean N [q] phi) -> forall i qc qc',
  (forall j v, nth_error ms j = Some v -> length v = n /\ good (weight v) /\ eigen N z (support v) (B (b0 + i + j)) phi) ->
  qc_nq qc = n + qc_nc qc -> b0 + i + length ms <= qc_nc qc -> (forall b, qc_nc qc <= b < qc_nc qc' -> B b = false) ->
  meas_loop one (n + b0) b0 i ms qc = Ret qc' -> qc_nq qc' <= N ->
  exists V, qc_ins qc' = qc_ins qc ++ V /\ qc_nq qc' = n + qc_nc qc' /\ qc_nc qc <= qc_nc qc' /\
    frag N phi (pvec N n B (n + b0 + i)) V (pvec N n B (n + b0 + i + length ms)) (exp_bits B V) /\
    forall q b, In (q, b) (meas_bits V) <-> q = n + b /\ (b0 + i <= b < b0 + i + length ms \/ qc_nc qc <= b < qc_nc qc').
Proof. intros O CL. induction ms as [|v ms IH]; intros i qc qc' G HQ Hn HB E HN; cbn [meas_loop] in E.
  - injection E as <-. exists []. rewrite app_nil_r. split; auto. split; auto. split; auto. cbn [length]. rewrite Nat.add_0_r. split; [apply frag_nil|]. intros q b. cbn. split; [intros []|lia].
  - destruct (one qc (support v) (n + b0 + i) (b0 + i)) as [qc1|] eqn:E1; [|discriminate]. cbn [pbind] in E. cbn [length] in Hn.
    destruct (G 0 v eq_refl) as (Lv & Gv & Ev). rewrite Nat.add_0_r in Ev.
    assert (SV : forall q, In q (support v) -> q < n) by (intros q Hq; apply support_in in Hq; destruct (Nat.lt_ge_cases q n); auto; rewrite nth_overflow in Hq by lia; discriminate).
    destruct (O qc (support v) (n + b0 + i) (b0 + i) qc1) as (L & k & fb & A1 & A2 & A3 & A4 & A5 & A6); auto; [lia|apply support_nodup|intros q Hq; specialize (SV q Hq); lia|now rewrite support_weight|].
    assert (MON : qc_nq qc1 <= qc_nq qc').
    { apply (loop_mono z good one (n + b0) b0 ms O (S i) qc1 qc'); auto; [|cbn [length] in *; unfold vec in *; lia]. intros u Hu. apply In_nth_error in Hu as [j Hj]. destruct (G (S j) u Hj) as (Lu & Gu & _). split; auto. intros q Hq. apply support_in in Hq. destruct (Nat.lt_ge_cases q n); [lia|]. rewrite nth_overflow in Hq by lia. discriminate. }
    destruct (IH (S i) qc1 qc') as (V & V1 & V2 & V3 & V4 & V5); auto; try lia.
    { intros j u Hj. replace (b0 + S i + j) with (b0 + i + S j) by lia. apply (G (S j) u Hj). } { intros b Hb. apply HB. lia. }
    exists (L ++ V). split; [rewrite V1, A1; now rewrite app_assoc|]. split; auto. split; [lia|]. split.
    + unfold exp_bits. rewrite meas_bits_app, map_app. eapply frag_app; [|replace (n + b0 + i + length (v :: ms)) with (n + b0 + S i + length ms) by (cbn; lia); exact V4].
      replace (n + b0 + S i) with (S (n + b0 + i)) by lia. rewrite <- pvec_step by lia. replace (n + b0 + i - n) with (b0 + i) by lia.
      assert (ME : map (fun qb => B (snd qb)) (meas_bits L) = repeat false (length (seq (qc_nq qc) k)) ++ [B (b0 + i)]).
      { rewrite A5, map_app. cbn [map snd]. f_equal. rewrite seq_length. assert (LF : length fb = k) by (rewrite (Permutation_length A6), combine_length, !seq_length; lia). rewrite <- LF.
        assert (FB : forall qb, In qb fb -> B (snd qb) = false). { intros [q b] Hq. apply (Permutation_in _ A6) in Hq. apply in_combine_r in Hq. apply in_seq in Hq. apply HB. cbn. lia. }
        clear - FB. induction fb as [|x fb IHf]; auto. cbn. rewrite FB by (now left). f_equal. apply IHf. intros; apply FB; now right. }
      rewrite ME. apply (frag_gadget N phi _ z (support v) (n + b0 + i) (seq (qc_nq qc) k) L); auto.
      * apply pvec_length.
      * lia.
      * intros I. apply in_seq in I. lia.
      * intros f I. apply in_seq in I. lia.
      * apply A4. lia.
      * intros x Lx (q & Iq & Hq). apply (CL q); [|auto|exists q; split; [now left|auto]]. destruct Iq as [<-|Iq]; [lia|]. apply in_seq in Iq. lia.
      * intros q Iq. assert (q < N) by (destruct Iq as [<-|Iq]; [lia|apply in_seq in Iq; lia]). rewrite nth_pvec by auto. destruct (Nat.ltb_spec q (n + b0 + i)); [|now rewrite andb_false_r]. destruct Iq as [<-|Iq]; [lia|apply in_seq in Iq; lia].
      * intros q Iq. specialize (SV q Iq). split; [lia|]. rewrite nth_pvec by lia. destruct (Nat.leb_spec n q); [lia|reflexivity].
    + intros q b. rewrite meas_bits_app, in_app_iff, V5, A5, in_app_iff.
      assert (FBI : In (q, b) fb <-> q = n + b /\ qc_nc qc <= b < qc_nc qc + k).
      { split.
        - intros Hq. apply (Permutation_in _ A6) in Hq. rewrite HQ in Hq. apply In_nth_error in Hq as [j Hj].
          assert (Hjk : j < k) by (assert (j < length (combine (seq (n + qc_nc qc) k) (seq (qc_nc qc) k))) as K by (apply nth_error_Some; congruence); rewrite combine_length, !seq_length in K; lia).
          apply (nth_error_nth _ _ (0, 0)) in Hj. rewrite combine_nth in Hj by (now rewrite !seq_length). rewrite !seq_nth in Hj by auto. injection Hj as <- <-. lia.
        - intros [-> Hb]. apply (Permutation_in _ (Permutation_sym A6)). rewrite HQ. replace (n + b, b) with (nth (b - qc_nc qc) (combine (seq (n + qc_nc qc) k) (seq (qc_nc qc) k)) (0, 0)).
          + apply nth_In. rewrite combine_length, !seq_length. lia.
          + rewrite combine_nth by (now rewrite !seq_length). rewrite !seq_nth by lia. f_equal; lia. }
      rewrite FBI. cbn [In length]. split.
      * intros [[K|[K|[]]]|K]; [lia|injection K as <- <-; lia|lia].
      * intros [-> K]. destruct (Nat.eq_dec b (b0 + i)) as [->|Nb]; [left; right; left; f_equal; lia|]. lia. Qed.

Lemma support_lt n v q : length v = n -> In q (support v) -> q < n.
Proof. intros Lv Hq. apply support_in in Hq. destruct (Nat.lt_ge_cases q n); auto. rewrite nth_overflow in Hq by lia. discriminate. Qed.
Lemma pvec_ext N n B k k' : k <= k' -> (forall b, k <= n + b < k' -> B b = false) -> pvec N n B k = pvec N n B k'.
Proof. intros Hk H. apply (vec_ext N); rewrite ?pvec_length; auto. intros j Hj. rewrite !nth_pvec by auto. destruct (Nat.leb_spec n j); [|reflexivity]. destruct (Nat.ltb_spec j k), (Nat.ltb_spec j k'); try lia; auto. cbn [andb]. symmetry. apply H. lia. Qed.
(** the unflagged Z measurements: first all CNOTs *)
Lemma cx_loop N n phi B b0 ms : forall i qc qc',
  (forall j v, nth_error ms j = Some v -> length v = n /\ eigen N true (support v) (B (b0 + i + j)) phi) -> n + b0 + i + length ms <= N ->
  meas_loop (fun qc s a b => match s with [] => Raise CircuitError | _ => Ret (emit qc (map (fun q => ICX q a) s)) end) (n + b0) b0 i ms qc = Ret qc' ->
  exists V, qc_ins qc' = qc_ins qc ++ V /\ qc_nq qc' = qc_nq qc /\ qc_nc qc' = qc_nc qc /\ meas_bits V = [] /\ frag N phi (pvec N n B (n + b0 + i)) V (pvec N n B (n + b0 + i + length ms)) [].
Proof. induction ms as [|v ms IH]; intros i qc qc' G Hn E; cbn [meas_loop] in E.
  - injection E as <-. exists []. rewrite app_nil_r. cbn [length]. rewrite Nat.add_0_r. split; auto. split; auto. split; auto. split; auto. apply frag_nil.
  - destruct (G 0 v eq_refl) as (Lv & Ev). rewrite Nat.add_0_r in Ev. cbn [length] in Hn.
    set (qc1 := emit qc (map (fun q => ICX q (n + b0 + i)) (support v))). assert (E' : meas_loop (fun qc s a b => match s with [] => Raise CircuitError | _ => Ret (emit qc (map (fun q => ICX q a) s)) end) (n + b0) b0 (S i) ms qc1 = Ret qc') by (unfold qc1; destruct (support v); [discriminate|exact E]).
    destruct (IH (S i) qc1 qc') as (V & V1 & V2 & V3 & V4 & V5); auto; [|lia|].
    { intros j u Hj. replace (b0 + S i + j) with (b0 + i + S j) by lia. apply (G (S j) u Hj). }
    exists (map (fun q => ICX q (n + b0 + i)) (support v) ++ V). split; [rewrite V1; unfold qc1; cbn [emit qc_ins]; now rewrite app_assoc|]. split; auto. split; auto.
    split; [rewrite meas_bits_app, V4, app_nil_r; clear; induction (support v); auto|]. change (@nil bool) with ([] ++ @nil bool). eapply frag_app; [|replace (n + b0 + i + length (v :: ms)) with (n + b0 + S i + length ms) by (cbn; lia); exact V5].
    replace (n + b0 + S i) with (S (n + b0 + i)) by lia. rewrite <- pvec_step by lia. replace (n + b0 + i - n) with (b0 + i) by lia. apply frag_cx; auto; [apply pvec_length|lia|apply support_nodup| |].
    + intros q Hq. apply (support_lt n) in Hq; auto. split; [lia|]. split; [lia|]. rewrite nth_pvec by lia. destruct (Nat.leb_spec n q); [lia|reflexivity].
    + rewrite nth_pvec by lia. destruct (Nat.ltb_spec (n + b0 + i) (n + b0 + i)); [lia|]. now rewrite andb_false_r. Qed.
(** then all measurements *)
Lemma ims_frag N n phi B k b0 m : (forall q, n <= q < N -> clean N [q] phi) -> b0 + m <= k -> n + k <= N ->
  let V := map (fun i => IM (n + b0 + i) (b0 + i)) (seq 0 m) in frag N phi (pvec N n B (n + k)) V (pvec N n B (n + k)) (exp_bits B V).
Proof. intros CL Hm HN. cbv zeta. assert (G : forall l, (forall i, In i l -> i < m) -> frag N phi (pvec N n B (n + k)) (map (fun i => IM (n + b0 + i) (b0 + i)) l) (pvec N n B (n + k)) (exp_bits B (map (fun i => IM (n + b0 + i) (b0 + i)) l))).
  { induction l as [|i l IH]; intros Hl; [apply frag_nil|]. assert (i < m) by (apply Hl; now left). cbn [map]. change (exp_bits B (IM (n + b0 + i) (b0 + i) :: map (fun i0 => IM (n + b0 + i0) (b0 + i0)) l)) with ([B (b0 + i)] ++ exp_bits B (map (fun i0 => IM (n + b0 + i0) (b0 + i0)) l)).
    change (IM (n + b0 + i) (b0 + i) :: map (fun i0 => IM (n + b0 + i0) (b0 + i0)) l) with ([IM (n + b0 + i) (b0 + i)] ++ map (fun i0 => IM (n + b0 + i0) (b0 + i0)) l). eapply frag_app; [|apply IH; intros; apply Hl; now right].
    replace (B (b0 + i)) with (nth (n + b0 + i) (pvec N n B (n + k)) false); [apply frag_im; [apply pvec_length|lia|apply CL; lia]|]. rewrite nth_pvec by lia. destruct (Nat.leb_spec n (n + b0 + i)); [|lia]. destruct (Nat.ltb_spec (n + b0 + i) (n + k)); [|lia]. cbn [andb]. f_equal. lia. }
  apply G. intros i Hi. apply in_seq in Hi. lia. Qed.
Lemma ims_bits n b0 m q b : In (q, b) (meas_bits (map (fun i => IM (n + b0 + i) (b0 + i)) (seq 0 m))) <-> q = n + b /\ b0 <= b < b0 + m.
Proof. assert (E : meas_bits (map (fun i => IM (n + b0 + i) (b0 + i)) (seq 0 m)) = map (fun i => (n + b0 + i, b0 + i)) (seq 0 m)) by (generalize (seq 0 m); intros l; induction l as [|i l IH]; auto; cbn [map]; now rewrite <- IH).
  rewrite E, in_map_iff. split.
  - intros (i & [= <- <-] & Hi). apply in_seq in Hi. lia.
  - intros [-> Hb]. exists (b - b0). split; [f_equal; lia|]. apply in_seq. lia. Qed.

Lemma one_spec_weaken z (g g' : nat -> Prop) one : one_spec z g one -> (forall w, g' w -> g w) -> one_spec z g' one.
Proof. intros O H qc stab a b qc' A1 A2 A3 A4. apply O; auto. Qed.
Lemma cx_loop_counts a0 b0 ms : forall i qc qc', meas_loop (fun qc s a b => match s with [] => Raise CircuitError | _ => Ret (emit qc (map (fun q => ICX q a) s)) end) a0 b0 i ms qc = Ret qc' -> qc_nq qc' = qc_nq qc /\ qc_nc qc' = qc_nc qc.
Proof. induction ms as [|v ms IH]; intros i qc qc' E; cbn [meas_loop] in E; [injection E as <-; auto|]. destruct (support v); [discriminate|]. cbn [pbind] in E. now apply IH in E. Qed.
Lemma unflagged_counts z a0 b0 ms : forall i qc qc', meas_loop (fun qc s a b => measure_stab_unflagged qc s a b z) a0 b0 i ms qc = Ret qc' -> qc_nq qc' = qc_nq qc /\ qc_nc qc' = qc_nc qc.
Proof. induction ms as [|v ms IH]; intros i qc qc' E; cbn [meas_loop] in E; [injection E as <-; auto|]. destruct (measure_stab_unflagged _ _ _ _ _) as [qc1|] eqn:E1; [|discriminate]. cbn [pbind] in E. apply IH in E. destruct (support v) as [|s0 st]; [discriminate|].
  destruct (unflagged_builds qc (s0 :: st) (a0 + i) (b0 + i) z ltac:(discriminate)) as (qc2 & E2 & B). assert (qc2 = qc1) by congruence. subst. destruct B as [B1 B2 B3 B4 B5 B6]. destruct E; split; lia. Qed.

(** ** one block of measurements *)
Definition measure_ft (z : bool) : qcirc -> list vec -> nat -> bool -> py qcirc := if z then measure_ft_z else measure_ft_x.
Definition mono (qc qc' : qcirc) : Prop := qc_nc qc <= qc_nc qc'.
Lemma block z N n phi B t flags ms qc qc' : (forall q, n <= q < N -> clean N [q] phi) ->
  (forall j v, nth_error ms j = Some v -> length v = n /\ (flags = true -> ~ (t = 1 /\ weight v = 1)) /\ eigen N z (support v) (B (qc_nc qc + j)) phi) ->
  qc_nq qc = n + qc_nc qc -> measure_ft z qc ms t flags = Ret qc' -> qc_nq qc' <= N -> (forall b, qc_nc qc + length ms <= b < qc_nc qc' -> B b = false) ->
  exists V, qc_ins qc' = qc_ins qc ++ V /\ qc_nq qc' = n + qc_nc qc' /\ qc_nc qc + length ms <= qc_nc qc' /\ (flags = false -> qc_nc qc' = qc_nc qc + length ms) /\
    frag N phi (pvec N n B (n + qc_nc qc)) V (pvec N n B (n + qc_nc qc')) (exp_bits B V) /\
    forall q b, In (q, b) (meas_bits V) <-> q = n + b /\ qc_nc qc <= b < qc_nc qc'.
Proof. intros CL G HQ E HN HB. destruct ms as [|v0 ms0].
  { assert (Ret qc = Ret qc') as [= <-] by (destruct z; exact E). exists []. rewrite app_nil_r. split; auto. split; auto. split; [cbn; lia|]. split; [cbn; lia|]. split; [apply frag_nil|]. intros q b. cbn. split; [intros []|lia]. }
  set (ms := v0 :: ms0) in *. set (qc0 := add_regs qc (length ms)).
  assert (Q0 : qc_nq qc0 = n + qc_nc qc0) by (unfold qc0; cbn; lia). assert (C0 : qc_nc qc0 = qc_nc qc + length ms) by reflexivity. assert (I0 : qc_ins qc0 = qc_ins qc) by reflexivity.
  assert (GA : forall one, one_spec z (fun w => flags = true -> ~ (t = 1 /\ w = 1)) one -> forall qc1, meas_loop one (n + qc_nc qc) (qc_nc qc) 0 ms qc0 = Ret qc1 -> qc_nq qc1 <= N -> (forall b, qc_nc qc + length ms <= b < qc_nc qc1 -> B b = false) ->
    exists V, qc_ins qc1 = qc_ins qc ++ V /\ qc_nq qc1 = n + qc_nc qc1 /\ qc_nc qc + length ms <= qc_nc qc1 /\ frag N phi (pvec N n B (n + qc_nc qc)) V (pvec N n B (n + qc_nc qc1)) (exp_bits B V) /\
    forall q b, In (q, b) (meas_bits V) <-> q = n + b /\ qc_nc qc <= b < qc_nc qc1).
  { intros one O qc1 E1 HN1 HB1. destruct (loop_frag z _ one N n phi B (qc_nc qc) ms O CL 0 qc0 qc1) as (V & V1 & V2 & V3 & V4 & V5); auto; [|lia|].
    { intros j v Hj. destruct (G j v Hj) as (? & ? & ?). rewrite Nat.add_0_r. auto. }
    exists V. split; auto. split; auto. split; [lia|]. rewrite !Nat.add_0_r in *. split.
    - rewrite <- (pvec_ext N n B (n + qc_nc qc + length ms) (n + qc_nc qc1)); auto; [lia|]. intros b Hb. apply HB1. lia.
    - intros q b. rewrite V5, C0. split; intros [-> K]; (split; [auto|]); rewrite C0 in V3; lia. }
  destruct z; cbn [measure_ft] in E.
  - assert (E1 : exists qc1, meas_loop (fun qc s a b => if flags then measure_flagged qc s a b t true else match s with [] => Raise CircuitError | _ => Ret (emit qc (map (fun q => ICX q a) s)) end) (n + qc_nc qc) (qc_nc qc) 0 ms qc0 = Ret qc1 /\ qc' = emit qc1 (map (fun i => IM (n + qc_nc qc + i) (qc_nc qc + i)) (seq 0 (length ms)))).
    { unfold measure_ft_z in E. unfold ms in E at 1. rewrite HQ in E. fold qc0 in E. destruct (meas_loop _ _ _ _ _ _) as [qc1|] eqn:E1; [|discriminate]. cbn [pbind] in E. injection E as <-. exists qc1. auto. }
    destruct E1 as (qc1 & E1 & ->). cbn [emit qc_nq qc_nc qc_ins] in *. set (IMS := map (fun i => IM (n + qc_nc qc + i) (qc_nc qc + i)) (seq 0 (length ms))). destruct flags.
    + destruct (GA _ (one_spec_weaken true _ (fun w => true = true -> ~ (t = 1 /\ w = 1)) _ (flagged_one t true) (fun w K => K eq_refl)) qc1 E1 HN HB) as (V & V1 & V2 & V3 & V4 & V5).
      exists (V ++ IMS). split; [rewrite V1; now rewrite app_assoc|]. split; auto. split; auto. split; [discriminate|]. split.
      * unfold exp_bits. rewrite meas_bits_app, map_app. eapply frag_app; [exact V4|]. apply ims_frag; auto; lia.
      * intros q b. rewrite meas_bits_app, in_app_iff, V5. unfold IMS. rewrite ims_bits. lia.
    + destruct (cx_loop_counts (n + qc_nc qc) (qc_nc qc) ms 0 qc0 qc1 E1) as [K1 K2].
      destruct (cx_loop N n phi B (qc_nc qc) ms 0 qc0 qc1) as (V & V1 & V2 & V3 & V4 & V5); auto; [|lia|].
      { intros j v Hj. destruct (G j v Hj) as (? & _ & ?). rewrite Nat.add_0_r. auto. }
      exists (V ++ IMS). split; [rewrite V1; now rewrite app_assoc|]. split; [lia|]. split; [lia|]. split; [lia|]. rewrite Nat.add_0_r in V5. split.
      * unfold exp_bits. rewrite meas_bits_app, V4. change (map (fun qb : nat * nat => B (snd qb)) ([] ++ meas_bits IMS)) with ([] ++ exp_bits B IMS). eapply frag_app; [exact V5|]. rewrite K2, C0, Nat.add_assoc. rewrite <- (Nat.add_assoc n (qc_nc qc)). apply ims_frag; auto; lia.
      * intros q b. rewrite meas_bits_app, in_app_iff, V4. unfold IMS. rewrite ims_bits. cbn [In]. lia.
  - unfold measure_ft_x in E. unfold ms in E at 1. rewrite HQ in E. fold qc0 in E. destruct flags.
    + destruct (GA _ (one_spec_weaken false _ (fun w => true = true -> ~ (t = 1 /\ w = 1)) _ (flagged_one t false) (fun w K => K eq_refl)) qc' E HN HB) as (V & V1 & V2 & V3 & V4 & V5). exists V. repeat (split; auto). discriminate.
    + destruct (GA _ (one_spec_weaken false _ (fun w => false = true -> ~ (t = 1 /\ w = 1)) _ (unflagged_one false) (fun w K => I)) qc' E HN HB) as (V & V1 & V2 & V3 & V4 & V5). exists V. split; auto. split; auto. split; auto. split; auto. intros _.
      destruct (unflagged_counts false (n + qc_nc qc) (qc_nc qc) ms 0 qc0 qc' E) as [K1 K2]. now rewrite K2. Qed.
