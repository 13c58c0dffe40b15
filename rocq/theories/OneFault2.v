(** * OneFault2: the measurement gadgets as parts of a circuit *)
From Verif Require Export OneFault.
From Coq Require Import Permutation.
Local Open Scope nat_scope.

(** ** a gadget without faults *)
Definition evs_in (stab fl : list nat) (evs : list ev) : Prop := Forall (fun e => match e with ED q => In q stab | EO f => In f fl | EC f _ => In f fl end) evs.
Lemma ev_ok_in fresh opn evs : ev_ok fresh opn evs -> forall fl, incl (fresh ++ opn) fl -> evs_in (datas evs) fl evs.
Proof. assert (M : forall s s' fl evs, incl s s' -> evs_in s fl evs -> evs_in s' fl evs) by (intros s s' fl l I H; eapply Forall_impl; [|exact H]; intros []; auto).
  induction 1 as [|q fresh opn evs H IH|f fresh opn evs H IH|f m fresh o1 o2 evs H IH]; intros fl I; [constructor|..]; constructor.
  - left. reflexivity.
  - apply (M (datas evs)); [intros r Hr; now right|]. now apply IH.
  - apply I. now left.
  - apply IH. intros r Hr. apply I. apply in_app_iff in Hr as [Hr|[<-|Hr]]; [right; apply in_app_iff; auto|now left|right; apply in_app_iff; auto].
  - apply I. rewrite !in_app_iff. right. right. now left.
  - apply IH. intros r Hr. apply I. rewrite !in_app_iff in *. cbn [In]. tauto. Qed.
Definition upd (z : bool) (a : nat) (b : bool) (p : pauli) : pauli := if z then (set_nth a b (fst p), snd p) else (fst p, set_nth a b (snd p)).
Lemma upd_ok N z a b p : p_ok N p -> p_ok N (upd z a b p).
Proof. intros [H1 H2]. destruct z; split; cbn; rewrite ?set_nth_length; auto. Qed.
Lemma upd_sc z a b p : sc z (upd z a b p) = sc z p.
Proof. now destruct z. Qed.
Lemma upd_tc z a b p : tc z (upd z a b p) = set_nth a b (tc z p).
Proof. now destruct z. Qed.
Lemma upd_same z a b p q : q <> a -> same_at p (upd z a b p) q.
Proof. intros N. destruct z; split; cbn; rewrite ?nth_set_nth_neq; auto. Qed.
Lemma set_nth_twice {A} k (x y : A) l : set_nth k x (set_nth k y l) = set_nth k x l.
Proof. revert k. induction l as [|c l IH]; intros [|k]; cbn; auto. now rewrite IH. Qed.
Lemma upd_upd z a b b' p : upd z a b (upd z a b' p) = upd z a b p.
Proof. destruct z; cbn; now rewrite set_nth_twice. Qed.
Lemma cxv_quiet c t v : nth c v false = false -> cxv c t v = v.
Proof. intros H. unfold cxv. rewrite H, xorb_false_r. apply set_nth_same. Qed.
Lemma cnot_upd z q a p : nth a (sc z p) false = false -> fstep (ancilla_cnot z q a) p = upd z a (xorb (nth a (tc z p) false) (nth q (tc z p) false)) p.
Proof. intros H. destruct z; cbn [sc tc ancilla_cnot fstep upd] in *; rewrite (cxv_quiet a q) by auto; reflexivity. Qed.
Lemma upd_id z a p : upd z a (nth a (tc z p) false) p = p.
Proof. destruct z, p; cbn; now rewrite set_nth_same. Qed.
Lemma h_quiet q p : zero_at p q -> fstep (IH q) p = p.
Proof. intros [H1 H2]. cbn [fstep]. rewrite H1, H2. destruct p as [x y]. cbn [fst snd] in *. rewrite <- H1 at 1. rewrite <- H2 at 2. now rewrite !set_nth_same. Qed.
Lemma fr_cons i L p : fr (i :: L) p = (fst (fr L (fstep i p)), frec i p ++ snd (fr L (fstep i p))).
Proof. reflexivity. Qed.
Lemma comp_quiet z a f m p e : e = EO f \/ e = EC f m -> nth a (sc z p) false = false -> zero_at p f -> f <> a -> fst (fr (comp z a e) p) = p.
Proof. intros He Sa Zf Fa. assert (C : fstep (ancilla_cnot z f a) p = p). { rewrite cnot_upd by auto. replace (nth f (tc z p) false) with false by (destruct Zf; destruct z; auto). rewrite xorb_false_r. apply upd_id. }
  pose proof (h_quiet f p Zf) as HQ. destruct He as [-> | ->]; cbn [comp]; unfold flag_init, flag_measure.
  - destruct z; cbn [app]; rewrite ?fr_cons; cbn [fst]; rewrite ?HQ, ?C; reflexivity.
  - destruct z; cbn [app]; rewrite ?fr_cons; cbn [fst]; rewrite ?C, ?HQ; reflexivity. Qed.
Lemma evs_fr N z a stab fl evs : evs_in stab fl evs -> a < N -> (forall q, In q stab -> q <> a /\ ~ In q fl) -> ~ In a fl -> forall p, p_ok N p -> nth a (sc z p) false = false -> (forall f, In f fl -> zero_at p f) ->
  fst (fr (flat_map (comp z a) evs) p) = upd z a (xorb (nth a (tc z p) false) (par (datas evs) (tc z p))) p.
Proof. intros EI An HS Na. induction EI as [|e evs He EI IH]; intros p PO Sa Zf.
  - cbn. rewrite xorb_false_r. symmetry. apply upd_id.
  - cbn [flat_map]. rewrite fr_app. cbn [fst]. destruct e as [q|f|f m].
    + destruct (HS q He) as [Qa Qf]. cbn [comp]. rewrite fr_cons. cbn [fst]. change (fst (fr [] ?x)) with x. rewrite cnot_upd by auto. set (p1 := upd z a _ p). rewrite IH.
      * unfold p1 at 3. rewrite upd_upd. unfold p1 at 1. rewrite upd_tc, nth_set_nth_eq by (rewrite (tc_ok N); auto).
        assert (EP : par (datas evs) (tc z p1) = par (datas evs) (tc z p)).
        { apply par_ext. intros r Hr. unfold p1. rewrite upd_tc, nth_set_nth_neq; auto. assert (In r stab) as Ir; [|now apply HS in Ir]. clear - EI Hr. induction EI as [|e evs He EI IH]; [contradiction|]. destruct e; cbn in Hr; auto. destruct Hr as [<-|Hr]; auto. }
        rewrite EP. f_equal. change (datas (ED q :: evs)) with (q :: datas evs). cbn [par fold_right]. fold (par (datas evs) (tc z p)). now rewrite xorb_assoc.
      * now apply upd_ok.
      * unfold p1. now rewrite upd_sc.
      * intros f If. apply (zero_same p); [|now apply Zf]. apply upd_same. intros ->. contradiction.
    + rewrite (comp_quiet z a f 0 p (EO f)); auto. intros ->. contradiction.
    + rewrite (comp_quiet z a f m p (EC f m)); auto. intros ->. contradiction. Qed.
Lemma gadget_fr N z a b stab fl evs p : evs_in stab fl evs -> a < N -> (forall q, In q stab -> q <> a /\ ~ In q fl) -> ~ In a fl -> p_ok N p -> zero_at p a -> (forall f, In f fl -> zero_at p f) ->
  (forall q, q <> a -> same_at p (fst (fr (gadget z a b evs) p)) q) /\ In (par (datas evs) (tc z p)) (snd (fr (gadget z a b evs) p)).
Proof. intros EI An HS Na PO Za Zf. unfold gadget. pose proof (evs_fr N z a stab fl evs EI An HS Na p PO ltac:(destruct Za; destruct z; auto) Zf) as E. assert (Ta : nth a (tc z p) false = false) by (destruct Za; destruct z; auto). rewrite Ta, xorb_false_l in E.
  destruct z.
  - cbn [app]. rewrite fr_app. cbn [fst snd]. rewrite E. rewrite fr_cons. cbn [fst snd frec fstep]. change (fst (fr [] ?x)) with x. split; [intros q Hq; now apply upd_same|]. apply in_app_iff. right. left. cbn [upd fst tc]. apply nth_set_nth_eq. destruct PO. unfold vec in *; lia.
  - cbn [app]. rewrite fr_cons. rewrite h_quiet by auto. rewrite !fr_app. cbn [fst snd]. rewrite E. rewrite !fr_cons. cbn [fst snd frec fstep app]. change (fst (fr [] ?x)) with x. cbn [upd fst snd tc].
    destruct PO as [L1 L2]. rewrite nth_set_nth_eq by (unfold vec in *; lia). split.
    + intros q Hq. split; cbn; rewrite !nth_set_nth_neq; auto.
    + apply in_app_iff. right. left. apply nth_set_nth_eq. unfold vec in *; lia. Qed.
Lemma gadget_passes N z a b stab fl evs : evs_in stab fl evs -> a < N -> (forall q, In q stab -> q <> a /\ ~ In q fl) -> ~ In a fl -> passes N (a :: fl) (gadget z a b evs).
Proof. intros EI An HS Na p PO Z q NQ. apply (gadget_fr N z a b stab fl evs p); auto; [apply Z; now left|intros f If; apply Z; now right|]. intros ->. apply NQ. now left. Qed.
Lemma gadget_reads N z a b m fl evs : datas evs = support m -> evs_in (support m) fl evs -> a < N -> (forall q, In q (support m) -> q <> a /\ ~ In q fl) -> ~ In a fl -> reads N (a :: fl) (gadget z a b evs) z [m].
Proof. intros DE EI An HS Na p PO Z Q m' [<-|[]]. rewrite <- DE. apply Q. apply (gadget_fr N z a b (support m) fl evs p); auto; [apply Z; now left|intros f If; apply Z; now right]. Qed.
Lemma gadget_ok N z a b stab fl evs : evs_in stab fl evs -> a < N -> (forall q, In q stab -> q < N /\ q <> a) -> (forall f, In f fl -> f < N /\ f <> a) -> Forall (ins_ok N) (gadget z a b evs) /\ Forall (fun i => incl (qubits i) (stab ++ a :: fl)) (gadget z a b evs).
Proof. intros EI An HS HF. assert (IA : In a (stab ++ a :: fl)) by (apply in_app_iff; right; now left).
  assert (CX : forall q, (In q stab \/ In q fl) -> ins_ok N (ancilla_cnot z q a) /\ incl (qubits (ancilla_cnot z q a)) (stab ++ a :: fl)).
  { intros q Hq. assert (q < N /\ q <> a) as [Q1 Q2] by (destruct Hq; auto). assert (IQ : In q (stab ++ a :: fl)) by (apply in_app_iff; destruct Hq; [auto|right; now right]). destruct z; split; cbn; auto; intros r [<-|[<-|[]]]; auto. }
  assert (HH : forall f, In f fl -> ins_ok N (IH f) /\ incl (qubits (IH f)) (stab ++ a :: fl)) by (intros f If; split; [apply HF; auto|]; intros r [<-|[]]; apply in_app_iff; right; now right).
  assert (G : Forall (fun i => ins_ok N i /\ incl (qubits i) (stab ++ a :: fl)) (gadget z a b evs)).
  { unfold gadget. apply Forall_app. split; [destruct z; repeat constructor; auto; intros r [<-|[]]; auto|]. apply Forall_app. split.
    - apply Forall_forall. intros i Hi. apply in_flat_map in Hi as (e & He & Hi). pose proof (proj1 (Forall_forall _ _) EI e He) as Ie. destruct e as [q|f|f m]; cbn [comp] in Hi.
      + destruct Hi as [<-|[]]. apply CX. auto.
      + unfold flag_init in Hi. apply in_app_iff in Hi as [Hi|[<-|[]]]; [|apply CX; auto]. destruct z; [destruct Hi as [<-|[]]; now apply HH|destruct Hi].
      + destruct Hi as [<-|Hi]; [apply CX; auto|]. unfold flag_measure in Hi. apply in_app_iff in Hi as [Hi|[<-|[]]]; [destruct z; [destruct Hi as [<-|[]]; now apply HH|destruct Hi]|]. apply HH. exact Ie.
    - apply Forall_app. split; [destruct z; repeat constructor; auto; intros r [<-|[]]; auto|]. repeat constructor; auto. intros r [<-|[]]; auto. }
  split; (eapply Forall_impl; [|exact G]); intros i [H1 H2]; auto. Qed.

(** ** faults in a gadget *)
(** after a fault in an unflagged gadget: at most one data qubit is hit and, besides, the part that spreads from the ancilla may cover the end of the list of qubits measured *)
Definition hooked (n : nat) (z : bool) (ms : list vec) (p : pauli) : Prop := exists q0, (forall q, q < n -> q <> q0 -> nth q (tc z p) false = false) /\
  ((forall q, q < n -> q <> q0 -> nth q (sc z p) false = false) \/ exists m k, In m ms /\ forall q, q < n -> nth q (sc z p) false = memb q (skipn k (support m))).
(** after a fault in a flagged gadget: at most one data qubit is hit, up to the operator measured *)
Definition single (n : nat) (z : bool) (ms : list vec) (p : pauli) : Prop := exists q0, (forall q, q < n -> q <> q0 -> nth q (tc z p) false = false) /\
  ((forall q, q < n -> q <> q0 -> nth q (sc z p) false = false) \/ exists m, In m ms /\ forall q, q < n -> q <> q0 -> nth q (sc z p) false = nth q m false).
Lemma hooked_local N n z ms : local N n (hooked n z ms).
Proof. intros p p' _ _ E (q0 & H1 & H2). assert (ES : forall q, q < n -> nth q (sc z p') false = nth q (sc z p) false) by (intros q Hq; destruct (E q Hq); destruct z; auto). assert (ET : forall q, q < n -> nth q (tc z p') false = nth q (tc z p) false) by (intros q Hq; destruct (E q Hq); destruct z; auto).
  exists q0. split; [intros q Hq Nq; rewrite ET by auto; auto|]. destruct H2 as [H2|(m & k & Hm & H2)]; [left; intros q Hq Nq; rewrite ES by auto; auto|right; exists m, k; split; auto; intros q Hq; rewrite ES; auto]. Qed.
Lemma single_local N n z ms : local N n (single n z ms).
Proof. intros p p' _ _ E (q0 & H1 & H2). assert (ES : forall q, q < n -> nth q (sc z p') false = nth q (sc z p) false) by (intros q Hq; destruct (E q Hq); destruct z; auto). assert (ET : forall q, q < n -> nth q (tc z p') false = nth q (tc z p) false) by (intros q Hq; destruct (E q Hq); destruct z; auto).
  exists q0. split; [intros q Hq Nq; rewrite ET by auto; auto|]. destruct H2 as [H2|(m & Hm & H2)]; [left; intros q Hq Nq; rewrite ES by auto; auto|right; exists m; split; auto; intros q Hq Nq; rewrite ES; auto]. Qed.
Lemma sc_tc_zero z p q : zero_at p q -> nth q (sc z p) false = false /\ nth q (tc z p) false = false.
Proof. intros [H1 H2]. destruct z; auto. Qed.
Lemma sc_tc_id N z q : nth q (sc z (p_id N)) false = false /\ nth q (tc z (p_id N)) false = false.
Proof. apply sc_tc_zero. split; cbn; apply nth_vzero. Qed.
Lemma hooked_id N n z ms : hooked n z ms (p_id N).
Proof. exists 0. split; [intros; apply sc_tc_id|left; intros; apply sc_tc_id]. Qed.
Lemma single_id N n z ms : single n z ms (p_id N).
Proof. exists 0. split; [intros; apply sc_tc_id|left; intros; apply sc_tc_id]. Qed.
Lemma zero_hooked n z ms p : (forall q, q < n -> zero_at p q) -> hooked n z ms p.
Proof. intros H. exists 0. split; [intros q Hq _; now apply (sc_tc_zero z p q (H q Hq))|left; intros q Hq _; now apply (sc_tc_zero z p q (H q Hq))]. Qed.
Lemma fr_supp N l L p : Forall (ins_ok N) L -> Forall (fun i => incl (qubits i) l) L -> p_ok N p -> p_supp p l -> p_supp (fst (fr L p)) l.
Proof. intros O I P S. apply (frame_supp N l 0 L); auto. apply wf_none. Qed.
Lemma cnots_targets z a l : targets z (map (fun q => ancilla_cnot z q a) l) = l.
Proof. induction l as [|q l IH]; auto. cbn [map]. change (?x :: ?y) with ([x] ++ y) at 1. now rewrite targets_app, targets_cnot, IH. Qed.
Lemma oc_memb q l : NoDup l -> oc q l = memb q l.
Proof. intros ND. destruct (memb q l) eqn:E; [apply memb_in in E; now apply oc_in|apply memb_out in E; now apply oc_out]. Qed.
(** the frame of an operator on one data qubit and the ancilla through the remaining CNOTs and instructions on the ancilla *)
Definition anc_only (a : nat) (i : ins) : Prop := i = IH a \/ exists b, i = IM a b.
Lemma anc_same a T q : q <> a -> Forall (anc_only a) T -> forall p, same_at p (fst (fr T p)) q.
Proof. intros Nq. induction 1 as [|i T Hi HT IHT]; intros p; [split; reflexivity|]. rewrite fr_cons. cbn [fst]. destruct (IHT (fstep i p)) as [H1 H2]. destruct Hi as [-> |(b & ->)]; cbn [fstep fst snd] in *; [|split; auto]. rewrite !nth_set_nth_neq in * by auto. split; auto. Qed.
Lemma spread_data N z a l T p q : a < N -> (forall r, In r l -> r < N /\ r <> a) -> Forall (anc_only a) T -> p_ok N p -> q < N -> q <> a ->
  nth q (tc z (fst (fr (map (fun q => ancilla_cnot z q a) l ++ T) p))) false = nth q (tc z p) false /\
  nth q (sc z (fst (fr (map (fun q => ancilla_cnot z q a) l ++ T) p))) false = xorb (nth q (sc z p) false) (nth a (sc z p) false && oc q l).
Proof. intros An Hl AT PO Hq Nq. rewrite fr_app. cbn [fst]. set (L := map (fun q => ancilla_cnot z q a) l).
  assert (FB : Forall (body N z a []) L). { apply Forall_map, Forall_forall. intros r Hr. left. exists r. destruct (Hl r Hr). auto. }
  destruct (body_data N z a [] L An (fun x => x) FB p PO) as [_ D]. destruct (D q Nq (fun x => x)) as [D1 D2]. unfold L in D1 at 2. rewrite cnots_targets in D1. fold (fr L p) in D1, D2. set (p1 := fst (fr L p)) in *.
  destruct (anc_same a T q Nq AT p1) as [T1 T2]. rewrite <- D1, <- D2. destruct z; cbn [sc tc]; auto. Qed.
(** CNOTs of the qubits of m with the ancilla, preceded and followed by instructions on the ancilla *)
Lemma unflagged_fault N n z a m S T F : n <= a -> a < N -> length m = n -> Forall (anc_only a) S -> Forall (anc_only a) T -> with_faults N 1 (S ++ map (fun q => ancilla_cnot z q a) (support m) ++ T) F ->
  (forall q, n <= q -> q <> a -> zero_at (fst (frame F (p_id N))) q) /\ hooked n z [m] (fst (frame F (p_id N))).
Proof. intros Na An Lm HS HT W. set (L := S ++ map (fun q => ancilla_cnot z q a) (support m) ++ T) in *.
  assert (SM : forall q, In q (support m) -> q < n) by (intros q Hq; now apply (support_lt n m)). pose proof (support_nodup m) as ND.
  assert (AO : forall T, Forall (anc_only a) T -> Forall (ins_ok N) T /\ Forall (fun i => incl (qubits i) (support m ++ [a])) T).
  { intros U HU. split; (eapply Forall_impl; [|exact HU]); intros i [-> |(b & ->)]; cbn; auto; intros r [<-|[]]; apply in_app_iff; right; now left. }
  assert (CO : Forall (ins_ok N) (map (fun q => ancilla_cnot z q a) (support m)) /\ Forall (fun i => incl (qubits i) (support m ++ [a])) (map (fun q => ancilla_cnot z q a) (support m))).
  { split; apply Forall_map, Forall_forall; intros q Hq; pose proof (SM q Hq).
    - destruct z; cbn; repeat split; lia.
    - destruct z; cbn; intros r [<-|[<-|[]]]; apply in_app_iff; cbn; auto. }
  destruct (AO S HS) as [OS IS]. destruct (AO T HT) as [OT IT]. destruct CO as [OC IC].
  assert (OL : Forall (ins_ok N) L) by (unfold L; apply Forall_app; split; auto; apply Forall_app; auto). assert (IL : Forall (fun i => incl (qubits i) (support m ++ [a])) L) by (unfold L; apply Forall_app; split; auto; apply Forall_app; auto).
  split.
  { intros q Hn Nq. apply (frame_supp N (support m ++ [a]) 1 L F W OL IL (p_id N) (p_id_ok N)); [intros r _; split; cbn; apply nth_vzero|]. intros I. apply in_app_iff in I as [I|[I|[]]]; [apply SM in I; lia|congruence]. }
  destruct (one_fault_frame N L F OL W) as (L1 & i & L2 & p & EL & PO & PS & ->). fold (fr L2 p).
  assert (ALL : Forall (ins_ok N) L2) by (rewrite EL in OL; apply Forall_app in OL as [_ OL]; now apply Forall_cons_iff in OL).
  assert (ZZ : forall l q, p_supp p l -> ~ In q l -> nth q (sc z p) false = false /\ nth q (tc z p) false = false) by (intros l q PP Nq; destruct (PP q Nq); destruct z; auto).
  unfold L in EL. apply split_app in EL as [(S2 & E1 & E2)|(L1' & E1 & E2)].
  - (* in S *) rewrite E1 in HS. apply Forall_app in HS as [_ HS]. apply Forall_cons_iff in HS as [Hi HS2]. assert (QI : qubits i = [a]) by (destruct Hi as [-> |(b & ->)]; reflexivity). rewrite QI in PS.
    subst L2. rewrite fr_app. cbn [fst]. set (p1 := fst (fr S2 p)).
    assert (P1 : p_ok N p1) by (apply fr_ok; auto; apply Forall_app in ALL; apply ALL). assert (S1 : forall q, q <> a -> zero_at p1 q). { intros q Nq. apply (zero_same p); [now apply (anc_same a)|]. apply PS. intros [H|[]]; congruence. }
    exists 0. assert (D : forall q, q < n -> _) by (intros q Hq; exact (spread_data N z a (support m) T p1 q An (fun r Hr => ltac:(pose proof (SM r Hr); lia)) HT P1 ltac:(lia) ltac:(lia))).
    assert (Z1 : forall q, q < n -> nth q (sc z p1) false = false /\ nth q (tc z p1) false = false) by (intros q Hq; apply sc_tc_zero, S1; lia). split.
    + intros q Hq _. destruct (D q Hq) as [D1 _]. rewrite D1. now apply Z1.
    + destruct (nth a (sc z p1) false) eqn:Ea.
      * right. exists m, 0. split; [now left|]. intros q Hq. destruct (D q Hq) as [_ D2]. rewrite D2, (proj1 (Z1 q Hq)). cbn [skipn]. rewrite xorb_false_l. cbn [andb]. now apply oc_memb.
      * left. intros q Hq _. destruct (D q Hq) as [_ D2]. rewrite D2, (proj1 (Z1 q Hq)). reflexivity.
  - apply split_app in E2 as [(C2 & E3 & E4)|(T1 & E3 & E4)].
    + (* a CNOT *) assert (exists l1 q0 l2, support m = l1 ++ q0 :: l2 /\ i = ancilla_cnot z q0 a /\ C2 = map (fun q => ancilla_cnot z q a) l2) as (l1 & q0 & l2 & EM & -> & ->).
      { clear - E3. revert L1' E3. induction (support m) as [|x l IH]; intros L1' E; [destruct L1'; discriminate|]. destruct L1' as [|y L1']; cbn in E; injection E as E1 E2.
        - exists [], x, l. auto.
        - destruct (IH L1' E2) as (l1 & q0 & l2 & -> & -> & ->). exists (x :: l1), q0, l2. auto. }
      subst L2. assert (HL2 : forall r, In r l2 -> r < N /\ r <> a) by (intros r Hr; assert (r < n) by (apply SM; rewrite EM; apply in_app_iff; right; now right); lia).
      assert (I0 : q0 < n) by (apply SM; rewrite EM; apply in_app_iff; right; now left).
      assert (PS' : p_supp p [q0; a]) by (apply (p_supp_incl p _ _ PS); destruct z; intros r [<-|[<-|[]]]; cbn; auto).
      rewrite EM in ND. apply NoDup_app_l in ND as (_ & ND2 & _). apply NoDup_cons_iff in ND2 as [N0 ND2].
      exists q0. assert (D : forall q, q < n -> _) by (intros q Hq; exact (spread_data N z a l2 T p q An HL2 HT PO ltac:(lia) ltac:(lia))).
      assert (Z1 : forall q, q < n -> q <> q0 -> nth q (sc z p) false = false /\ nth q (tc z p) false = false) by (intros q Hq Nq; apply (ZZ [q0; a]); auto; intros [H|[H|[]]]; [congruence|lia]). split.
      * intros q Hq Nq. destruct (D q Hq) as [D1 _]. rewrite D1. now apply Z1.
      * destruct (nth a (sc z p) false) eqn:Ea.
        -- right. exists m, (if nth q0 (sc z p) false then length l1 else length l1 + 1). split; [now left|]. intros q Hq. destruct (D q Hq) as [_ D2]. rewrite D2. cbn [andb]. rewrite (oc_memb q l2 ND2).
           assert (SK : skipn (if nth q0 (sc z p) false then length l1 else length l1 + 1) (support m) = if nth q0 (sc z p) false then q0 :: l2 else l2).
           { rewrite EM. destruct (nth q0 (sc z p) false); rewrite skipn_app, skipn_all2 by lia; [replace (length l1 - length l1) with 0 by lia|replace (length l1 + 1 - length l1) with 1 by lia]; reflexivity. }
           rewrite SK. destruct (Nat.eq_dec q q0) as [->|Nq].
           ++ destruct (nth q0 (sc z p) false); [rewrite (proj2 (memb_out q0 l2) N0); symmetry; apply memb_in; now left|now rewrite xorb_false_l].
           ++ rewrite (proj1 (Z1 q Hq Nq)), xorb_false_l. destruct (nth q0 (sc z p) false); auto. cbn [memb existsb]. destruct (Nat.eqb_spec q q0); [contradiction|reflexivity].
        -- left. intros q Hq Nq. destruct (D q Hq) as [_ D2]. rewrite D2, (proj1 (Z1 q Hq Nq)). reflexivity.
    + (* in T *) rewrite E4 in HT. apply Forall_app in HT as [_ HT]. apply Forall_cons_iff in HT as [Hi HT2]. assert (QI : qubits i = [a]) by (destruct Hi as [-> |(b & ->)]; reflexivity). rewrite QI in PS.
      apply zero_hooked. intros q Hq. apply (zero_same p); [apply (anc_same a); auto; lia|]. apply PS. intros [H|[]]. lia. Qed.
