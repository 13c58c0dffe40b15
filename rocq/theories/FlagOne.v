(** * FlagOne: the one-flag gadget tolerates one fault, for every weight *)
From Verif Require Export FlagPauli2.
Local Open Scope nat_scope.

(** the part of a Pauli operator that spreads from the ancilla to the data, and the other one *)
Definition sc (z : bool) (p : pauli) : vec := if z then snd p else fst p.
Definition tc (z : bool) (p : pauli) : vec := if z then fst p else snd p.
Lemma sc_cnot z q a p : sc z (fstep (ancilla_cnot z q a) p) = cxv a q (sc z p).
Proof. now destruct z. Qed.
Lemma tc_cnot z q a p : tc z (fstep (ancilla_cnot z q a) p) = cxv q a (tc z p).
Proof. now destruct z. Qed.
Lemma sc_ok n z p : p_ok n p -> length (sc z p) = n.
Proof. intros [H1 H2]. now destruct z. Qed.
Lemma tc_ok n z p : p_ok n p -> length (tc z p) = n.
Proof. intros [H1 H2]. now destruct z. Qed.

(** instructions of the body of a gadget: CNOTs with the ancilla, Hadamards and measurements of flags *)
Definition body (n : nat) (z : bool) (a : nat) (fl : list nat) (i : ins) : Prop :=
  (exists q, i = ancilla_cnot z q a /\ q < n /\ q <> a) \/ (exists f, i = IH f /\ In f fl /\ f < n) \/ (exists f b, i = IM f b /\ f < n).
Definition targets (z : bool) (R : list ins) : list nat := flat_map (fun i => match i with ICX c t => [if z then c else t] | _ => [] end) R.
Definition oc (q : nat) (l : list nat) : bool := fold_right (fun x acc => xorb (q =? x) acc) false l.
Lemma oc_app q l m : oc q (l ++ m) = xorb (oc q l) (oc q m).
Proof. induction l as [|x l IH]; [symmetry; apply xorb_false_l|]. change (oc q ((x :: l) ++ m)) with (xorb (q =? x) (oc q (l ++ m))). change (oc q (x :: l)) with (xorb (q =? x) (oc q l)). now rewrite IH, xorb_assoc. Qed.
Lemma oc_out q l : ~ In q l -> oc q l = false.
Proof. induction l as [|x l IH]; intros N; auto. cbn. fold (oc q l). rewrite IH by (intros I; apply N; right; auto). destruct (Nat.eqb_spec q x); auto. exfalso. apply N. left; auto. Qed.
Lemma oc_in q l : NoDup l -> In q l -> oc q l = true.
Proof. induction 1 as [|x l NI ND IH]; intros I; [contradiction|]. cbn. fold (oc q l). destruct I as [->|I].
  - rewrite Nat.eqb_refl, oc_out by auto. auto.
  - rewrite IH by auto. destruct (Nat.eqb_spec q x) as [->|]; [contradiction|auto]. Qed.

Lemma targets_cnot z q a : targets z [ancilla_cnot z q a] = [q].
Proof. now destruct z. Qed.
Lemma targets_app z l m : targets z (l ++ m) = targets z l ++ targets z m.
Proof. apply flat_map_app. Qed.
Lemma fstep_body_a n z a fl i p : p_ok n p -> a < n -> ~ In a fl -> body n z a fl i -> nth a (sc z (fstep i p)) false = nth a (sc z p) false.
Proof. intros PO An Na [(q & -> & Hq & N)|[(f & -> & If & Hf)|(f & b & -> & Hf)]]; auto.
  - rewrite sc_cnot. rewrite nth_cxv by (rewrite (sc_ok n); auto). destruct (Nat.eqb_spec a q); auto. congruence.
  - assert (a <> f) by (intros ->; contradiction). destruct z; cbn [fstep sc fst snd]; now rewrite nth_set_nth_neq. Qed.
Lemma fstep_body_data n z a fl i p q : p_ok n p -> a < n -> ~ In a fl -> body n z a fl i -> q <> a -> ~ In q fl ->
  nth q (sc z (fstep i p)) false = xorb (nth q (sc z p) false) (nth a (sc z p) false && oc q (targets z [i])) /\ nth q (tc z (fstep i p)) false = nth q (tc z p) false.
Proof. intros PO An Na [(r & -> & Hr & N)|[(f & -> & If & Hf)|(f & b & -> & Hf)]] Qa Qf.
  - rewrite sc_cnot, tc_cnot, targets_cnot. rewrite !nth_cxv by (rewrite ?(sc_ok n), ?(tc_ok n); auto). cbn [oc fold_right]. rewrite xorb_false_r. destruct (Nat.eqb_spec q a); [contradiction|]. split; auto. destruct (Nat.eqb_spec q r) as [->|]; [now rewrite andb_true_r|now rewrite andb_false_r, xorb_false_r].
  - assert (q <> f) by (intros ->; contradiction). cbn [targets flat_map oc fold_right]. rewrite andb_false_r, xorb_false_r. destruct z; cbn [fstep sc tc fst snd]; now rewrite !nth_set_nth_neq.
  - cbn [targets flat_map oc fold_right fstep]. rewrite andb_false_r, xorb_false_r. auto. Qed.
(** effect of the rest of the body on the data *)
Lemma body_data n z a fl R : a < n -> ~ In a fl -> Forall (body n z a fl) R -> forall p, p_ok n p -> let p' := fst (frame (map inl R) p) in
  nth a (sc z p') false = nth a (sc z p) false /\ forall q, q <> a -> ~ In q fl ->
    nth q (sc z p') false = xorb (nth q (sc z p) false) (nth a (sc z p) false && oc q (targets z R)) /\ nth q (tc z p') false = nth q (tc z p) false.
Proof. intros An Na. induction 1 as [|i R Hi HR IH]; intros p PO; cbn [map frame fst].
  - split; auto. intros q _ _. cbn. now rewrite andb_false_r, xorb_false_r.
  - destruct (IH (fstep i p) (fstep_ok n i p PO)) as (A & D). cbn zeta in *. rewrite (fstep_body_a n z a fl i p PO An Na Hi) in *. split; auto. intros q Qa Qf. destruct (D q Qa Qf) as (D1 & D2). destruct (fstep_body_data n z a fl i p q PO An Na Hi Qa Qf) as (E1 & E2).
    rewrite D1, D2, E1, E2. split; auto. change (i :: R) with ([i] ++ R). rewrite targets_app, oc_app. destruct (nth a (sc z p) false); cbn [andb]; [now rewrite xorb_assoc|now rewrite !xorb_false_r]. Qed.
(** the last instructions act on the ancilla only *)
Lemma tail_data n z a b p q : p_ok n p -> q <> a -> let p' := fst (frame (map inl ((if z : bool then [] else [IH a]) ++ [IM a b])) p) in nth q (sc z p') false = nth q (sc z p) false /\ nth q (tc z p') false = nth q (tc z p) false.
Proof. intros PO Q. destruct z; cbn [app map frame fst fstep sc tc snd]; auto. now rewrite !nth_set_nth_neq. Qed.

Lemma wf_zero n L F : with_faults n 0 L F -> F = map inl L.
Proof. remember 0 as k. induction 1; try discriminate; auto. cbn. now rewrite IHwith_faults. Qed.
(** a circuit with one fault *)
Lemma wf_one n L F : with_faults n 1 L F -> exists L1 i L2 p, L = L1 ++ i :: L2 /\ p_ok n p /\ p_supp p (qubits i) /\ (F = map inl L1 ++ inr p :: map inl (i :: L2) \/ F = map inl (L1 ++ [i]) ++ inr p :: map inl L2).
Proof. remember 1 as k. induction 1; try discriminate.
  - destruct (IHwith_faults Heqk) as (L1 & j & L2 & p & -> & P1 & P2 & P3). exists (i :: L1), j, L2, p. split; auto. split; auto. split; auto. destruct P3 as [-> | ->]; [left|right]; reflexivity.
  - injection Heqk as ->. apply wf_zero in H1. subst F. exists [], i, L, p. split; [auto|]. split; [auto|]. split; [auto|]. left. reflexivity.
  - injection Heqk as ->. apply wf_zero in H1. subst F. exists [], i, L, p. split; [auto|]. split; [auto|]. split; [auto|]. right. reflexivity. Qed.
Lemma frame_one n L1 p R : Forall (ins_ok n) L1 -> p_ok n p -> frame (map inl L1 ++ inr p :: map inl R) (p_id n) = (fst (frame (map inl R) p), repeat false (measurements L1) ++ snd (frame (map inl R) p)).
Proof. intros H PO. rewrite frame_app, frame_id by auto. cbn [fst snd frame]. now rewrite p_mul_id. Qed.
Lemma split_app {A} (l1 l2 : list A) L1 i L2 : l1 ++ l2 = L1 ++ i :: L2 -> (exists m, l1 = L1 ++ i :: m /\ L2 = m ++ l2) \/ exists m, L1 = l1 ++ m /\ l2 = m ++ i :: L2.
Proof. revert L1. induction l1 as [|x l1 IH]; intros L1 E; [right; exists L1; auto|]. destruct L1 as [|y L1]; cbn [app] in E; injection E as E1 E2.
  - left. exists l1. split; [now rewrite E1|congruence].
  - destruct (IH L1 E2) as [(m & H1 & H2)|(m & H1 & H2)]; [left|right]; exists m; rewrite ?H1, ?H2, ?E1; auto. Qed.

Lemma filter_one (f : nat -> bool) q0 l : NoDup l -> (forall q, In q l -> q <> q0 -> f q = false) -> length (filter f l) <= 1.
Proof. intros ND H. apply (NoDup_incl_length (l' := [q0])); [now apply NoDup_filter|]. intros q I. apply filter_In in I as [I E]. destruct (Nat.eq_dec q q0) as [->|N]; [left; auto|]. rewrite H in E by auto. discriminate. Qed.
(** at most one data qubit is hit, up to the stabilizer *)
Lemma light_one n z stab p q0 s : p_ok n p -> NoDup stab -> (forall q, In q stab -> q < n) -> (forall q, In q stab -> q <> q0 -> nth q (tc z p) false = false /\ nth q (sc z p) false = s) ->
  light stab p 1 \/ light stab (p_mul p (stab_op n z stab)) 1.
Proof. intros PO ND B H. destruct PO as [L1 L2]. destruct s; [right|left]; apply (filter_one _ q0); auto; intros q I N; destruct (H q I N) as [H1 H2].
  - assert (X : nth q (supp_vec n stab) false = true) by (rewrite nth_supp by auto; now apply memb_in). destruct z; cbn [stab_op p_mul fst snd tc sc] in *; rewrite !nth_vxor by (rewrite ?supp_length, ?vzero_length; auto); rewrite H1, H2, X, nth_vzero; reflexivity.
  - destruct z; cbn [tc sc] in *; rewrite H1, H2; reflexivity. Qed.

Section One.
Variables (n a b f m : nat) (z : bool) (s0 sl : nat) (mid : list nat).
Notation stab := (s0 :: mid ++ [sl]).
Hypothesis An : a < n.
Hypothesis Fn : f < n.
Hypothesis Fa : f <> a.
Hypothesis ND : NoDup stab.
Hypothesis DO : data_ok n a [f] stab.
Notation cx q := (ancilla_cnot z q a).
Definition pre : list ins := if z then [] else [IH a].
Definition b1 : list ins := flag_init z f ++ [cx f].
Definition b2 : list ins := map (fun q => cx q) mid.
Definition b3 : list ins := cx f :: flag_measure z f m ++ [cx sl].
Definition post : list ins := (if z then [] else [IH a]) ++ [IM a b].
Definition L1flag : list ins := pre ++ (cx s0 :: b1) ++ b2 ++ b3 ++ post.

Lemma sl_in : In sl stab.
Proof. right. apply in_app_iff. right. left. auto. Qed.
Lemma s0_in : In s0 stab.
Proof. left. auto. Qed.
Lemma mid_in q : In q mid -> In q stab.
Proof. intros I. right. apply in_app_iff. auto. Qed.
Lemma bcx q : In q stab -> body n z a [f] (cx q).
Proof. intros I. left. exists q. destruct (DO q I) as (H1 & H2 & _). auto. Qed.
Lemma bcf : body n z a [f] (cx f).
Proof. left. exists f. auto. Qed.
Lemma bhf : body n z a [f] (IH f).
Proof. right. left. exists f. split; auto. split; auto. left. auto. Qed.
Lemma bmf : body n z a [f] (IM f m).
Proof. right. right. exists f, m. auto. Qed.
Lemma b1_body : Forall (body n z a [f]) b1.
Proof. unfold b1, flag_init. assert (H := bcf). assert (H' := bhf). destruct z; cbn [app]; repeat (apply Forall_cons; [assumption|]); apply Forall_nil. Qed.
Lemma b2_body : Forall (body n z a [f]) b2.
Proof. unfold b2. apply Forall_map, Forall_forall. intros q I. apply bcx, mid_in, I. Qed.
Lemma b3_body : Forall (body n z a [f]) b3.
Proof. unfold b3, flag_measure. assert (H := bcf). assert (H' := bhf). assert (H2 := bmf). assert (H3 := bcx sl sl_in). destruct z; cbn [app]; repeat (apply Forall_cons; [assumption|]); apply Forall_nil. Qed.
Lemma Naf : ~ In a [f].
Proof. intros [H|[]]; auto. Qed.
Lemma t1 : targets z b1 = [f].
Proof. unfold b1. rewrite targets_app, targets_cnot. unfold flag_init. now destruct z. Qed.
Lemma t2 : targets z b2 = mid.
Proof. unfold b2. clear. induction mid as [|q l IH]; auto. cbn [map]. change (cx q :: map (fun q => cx q) l) with ([cx q] ++ map (fun q => cx q) l). now rewrite targets_app, targets_cnot, IH. Qed.
Lemma t3 : targets z b3 = [f; sl].
Proof. unfold b3. change (cx f :: flag_measure z f m ++ [cx sl]) with ([cx f] ++ flag_measure z f m ++ [cx sl]). rewrite !targets_app, !targets_cnot. unfold flag_measure. now destruct z. Qed.

Lemma body_ok i : body n z a [f] i -> ins_ok n i.
Proof. intros [(r & -> & H1 & H2)|[(r & -> & _ & H2)|(r & c & -> & H)]]; auto. destruct z; cbn; auto. Qed.
(** the data error after a fault p followed by the rest R of the body *)
Lemma rest_data R p q : p_ok n p -> Forall (body n z a [f]) R -> In q stab -> let p' := fst (frame (map inl (R ++ post)) p) in
  nth q (tc z p') false = nth q (tc z p) false /\ nth q (sc z p') false = xorb (nth q (sc z p) false) (nth a (sc z p) false && oc q (targets z R)).
Proof. intros PO FB I. destruct (DO q I) as (Q1 & Q2 & Q3). cbn zeta. rewrite map_app, frame_app. cbn [fst]. destruct (body_data n z a [f] R An Naf FB p PO) as (_ & D). destruct (D q Q2 Q3) as (D1 & D2).
  assert (PO' : p_ok n (fst (frame (map inl R) p))).
  { apply frame_ok; auto. apply Forall_map. eapply Forall_impl; [|exact FB]. apply body_ok. }
  destruct (tail_data n z a b _ q PO' Q2) as (T1 & T2). fold post in T1, T2. rewrite T1, T2, D1, D2. auto. Qed.
Definition goodl (R : list ins) (p : pauli) : Prop := let r := frame (map inl R) p in light stab (fst r) 1 \/ light stab (p_mul (fst r) (stab_op n z stab)) 1.
Definition good (R : list ins) (p : pauli) : Prop := let r := frame (map inl R) p in hd false (snd r) = true \/ light stab (fst r) 1 \/ light stab (p_mul (fst r) (stab_op n z stab)) 1.
Lemma good_light R p q0 s : p_ok n p -> Forall (body n z a [f]) R -> (forall q, In q stab -> q <> q0 -> nth q (tc z p) false = false /\ xorb (nth q (sc z p) false) (nth a (sc z p) false && oc q (targets z R)) = s) -> goodl (R ++ post) p.
Proof. intros PO FB H. apply (light_one n z _ _ q0 s).
  - apply frame_ok; auto. apply Forall_map. apply Forall_app. split; [eapply Forall_impl; [|exact FB]; apply body_ok|]. unfold post. destruct z; repeat constructor; auto.
  - exact ND.
  - intros q I. now apply DO.
  - intros q I N. destruct (rest_data R p q PO FB I) as (H1 & H2). rewrite H1, H2. now apply H. Qed.
Lemma oc_mid q : In q stab -> q <> s0 -> oc q (mid ++ [sl]) = true.
Proof. intros [->|I] N; [contradiction|]. apply oc_in; auto. now apply NoDup_cons_iff in ND. Qed.
Lemma oc_f q : In q stab -> oc q [f] = false.
Proof. intros I. apply oc_out. now apply DO. Qed.
Lemma oc_sl q : q <> sl -> oc q [sl] = false.
Proof. intros N. apply oc_out. intros [H|[]]. auto. Qed.
Lemma t23 R : Forall (body n z a [f]) R -> Forall (body n z a [f]) (R ++ b2 ++ b3).
Proof. intros H. apply Forall_app. split; auto. apply Forall_app. split; [apply b2_body|apply b3_body]. Qed.
(** targets of the body after the first CNOT, on data *)
Lemma oc_rest R q : In q stab -> q <> s0 -> oc q (targets z R) = false -> oc q (targets z (R ++ b2 ++ b3)) = true.
Proof. intros I N E. rewrite !targets_app, t2, t3. rewrite !oc_app, E, xorb_false_l. pose proof (oc_mid q I N) as X. rewrite oc_app in X. change [f; sl] with ([f] ++ [sl]). rewrite oc_app, oc_f by auto. now rewrite xorb_false_l. Qed.
Lemma supp_sc p l q : p_supp p l -> ~ In q l -> nth q (sc z p) false = false /\ nth q (tc z p) false = false.
Proof. intros S N. destruct (S q N) as [H1 H2]. destruct z; cbn [sc tc]; auto. Qed.

(** a fault on s0, the ancilla and the flag, then everything after the first CNOT *)
Lemma good_early R p : p_ok n p -> Forall (body n z a [f]) R -> (forall q, In q stab -> q <> s0 -> oc q (targets z R) = false) -> p_supp p [s0; a; f] -> goodl ((R ++ b2 ++ b3) ++ post) p.
Proof. intros PO FB E S. apply (good_light _ p s0 (nth a (sc z p) false) PO (t23 R FB)). intros q I N. destruct (DO q I) as (_ & Q2 & Q3).
  assert (NI : ~ In q [s0; a; f]) by (intros [H|[H|[H|[]]]]; [now apply N|now apply Q2|apply Q3; now left]). destruct (supp_sc p _ q S NI) as [H1 H2]. rewrite H1, H2. split; auto. rewrite oc_rest by auto. rewrite xorb_false_l. apply andb_true_r. Qed.
(** a fault at the end hits at most sl *)
Lemma good_late R p : p_ok n p -> Forall (body n z a [f]) R -> (forall q, In q stab -> q <> sl -> oc q (targets z R) = false) -> p_supp p [sl; a; f] -> goodl (R ++ post) p.
Proof. intros PO FB E S. apply (good_light _ p sl false PO FB). intros q I N. destruct (DO q I) as (_ & Q2 & Q3).
  assert (NI : ~ In q [sl; a; f]) by (intros [H|[H|[H|[]]]]; [now apply N|now apply Q2|apply Q3; now left]). destruct (supp_sc p _ q S NI) as [H1 H2]. rewrite H1, H2. split; auto. rewrite E by auto. rewrite xorb_false_l. apply andb_false_r. Qed.
(** a fault in the middle: the flag is raised when it spreads *)
Lemma flips_mid l : (forall q, In q l -> In q stab) -> forall p T, p_ok n p -> snd (frame (map inl (map (fun q => cx q) l ++ b3 ++ T)) p) = xorb (nth f (sc z p) false) (nth a (sc z p) false) :: tl (snd (frame (map inl (map (fun q => cx q) l ++ b3 ++ T)) p)).
Proof. induction l as [|q l IH]; intros HI p T PO.
  - cbn [map app b3]. unfold flag_measure. assert (X : nth f (sc z (fstep (cx f) p)) false = xorb (nth f (sc z p) false) (nth a (sc z p) false)) by (rewrite sc_cnot, nth_cxv by (rewrite (sc_ok n); auto); now rewrite Nat.eqb_refl).
    pose proof (sc_ok n z _ (fstep_ok n (cx f) p PO)) as SL. pose proof (tc_ok n z _ (fstep_ok n (cx f) p PO)) as TL.
    destruct z; cbn [app map frame frec snd fst fstep ancilla_cnot sc tc tl] in *.
    + rewrite nth_set_nth_eq by (unfold vec in *; lia). now rewrite X.
    + now rewrite X.
  - cbn [map app frame snd]. assert (E : frec (cx q) p = []) by (now destruct z). rewrite E. cbn [app]. assert (Iq : In q stab) by (apply HI; left; auto). destruct (DO q Iq) as (Q1 & Q2 & Q3).
    rewrite (IH (fun r Hr => HI r (or_intror Hr)) (fstep (cx q) p) T (fstep_ok n _ p PO)) at 1. rewrite sc_cnot. rewrite !nth_cxv by (rewrite (sc_ok n); auto). destruct (Nat.eqb_spec f q) as [->|_]; [exfalso; apply Q3; now left|]. destruct (Nat.eqb_spec a q); [congruence|]. reflexivity. Qed.
Lemma good_mid l1 q l2 l p : mid = l1 ++ q :: l2 -> (l = q :: l2 \/ l = l2) -> p_ok n p -> p_supp p [q; a] -> good (map (fun q => cx q) l ++ b3 ++ post) p.
Proof. intros EM EL PO S. assert (LI : forall r, In r l -> In r stab) by (intros r I; apply mid_in; rewrite EM; apply in_app_iff; right; destruct EL as [-> | ->]; [exact I|right; exact I]).
  assert (Iq : In q stab) by (apply mid_in; rewrite EM; apply in_app_iff; right; left; auto). destruct (DO q Iq) as (Q1 & Q2 & Q3).
  destruct (nth a (sc z p) false) eqn:EA.
  - left. rewrite (flips_mid l LI p post PO). cbn [hd]. assert (NF : ~ In f [q; a]) by (intros [H|[H|[]]]; [apply Q3; now left|now apply Fa]). destruct (supp_sc p _ f S NF) as [H1 _]. now rewrite H1, EA.
  - right. rewrite app_assoc. apply (good_light _ p q false); auto.
    + apply Forall_app. split; [|apply b3_body]. apply Forall_map, Forall_forall. intros r I. apply bcx; auto.
    + intros r I N. destruct (DO r I) as (_ & R2 & R3). assert (NI : ~ In r [q; a]) by (intros [H|[H|[]]]; [now apply N|now apply R2]). destruct (supp_sc p _ r S NI) as [H1 H2]. now rewrite H1, H2, EA. Qed.
Lemma good_post T1 i T2 p : post = T1 ++ i :: T2 -> p_ok n p -> p_supp p (qubits i) -> light stab (fst (frame (map inl (i :: T2)) p)) 1 /\ light stab (fst (frame (map inl T2) p)) 1.
Proof. intros E PO S.
  assert (QI : qubits i = [a] /\ forall T, In T [i :: T2; T2] -> Forall (fun j => j = IH a \/ j = IM a b) T).
  { assert (X : Forall (fun j => j = IH a \/ j = IM a b) (T1 ++ i :: T2)) by (rewrite <- E; unfold post; destruct z; repeat constructor; auto). apply Forall_app in X as [_ X]. split; [|intros T [<-|[<-|[]]]; auto; now apply Forall_cons_iff in X]. apply Forall_cons_iff in X as [[-> | ->] _]; reflexivity. }
  destruct QI as [QI G]. rewrite QI in S.
  assert (W : forall T p, Forall (fun j => j = IH a \/ j = IM a b) T -> p_ok n p -> p_supp p [a] -> light stab (fst (frame (map inl T) p)) 1).
  { clear - An DO ND. intros T. induction T as [|j T IH]; intros p FT PO S.
    - cbn. apply (filter_one _ a); auto. intros q I N. assert (NI : ~ In q [a]) by (intros [H|[]]; auto). destruct (S q NI) as [H1 H2]. now rewrite H1, H2.
    - apply Forall_cons_iff in FT as [Hj FT]. cbn [map frame fst]. apply IH; auto using fstep_ok. apply (fstep_supp [a] j p n); auto; destruct Hj as [-> | ->]; cbn; auto; intros q I; exact I. }
  split; apply W; auto; apply G; [left|right; left]; auto. Qed.

Lemma L1_ok : Forall (ins_ok n) L1flag.
Proof. unfold L1flag. apply Forall_app. split; [unfold pre; destruct z; repeat constructor; auto|]. rewrite !app_assoc. apply Forall_app. split; [|unfold post; destruct z; repeat constructor; auto].
  eapply Forall_impl; [apply body_ok|]. rewrite <- app_assoc. apply (t23 (cx s0 :: b1)). constructor; [apply bcx, s0_in|apply b1_body]. Qed.
Definition cond (r : pauli * list bool) : Prop := existsb (fun b => b) (firstn 1 (snd r)) = true \/ light stab (fst r) 1 \/ light stab (p_mul (fst r) (stab_op n z stab)) 1.
Lemma cond_goodl P R p : Forall (ins_ok n) P -> p_ok n p -> goodl R p -> cond (frame (map inl P ++ inr p :: map inl R) (p_id n)).
Proof. intros FO PO G. rewrite frame_one by auto. right. exact G. Qed.
Lemma cond_good P R p : Forall (ins_ok n) P -> measurements P = 0 -> p_ok n p -> good R p -> cond (frame (map inl P ++ inr p :: map inl R) (p_id n)).
Proof. intros FO M PO [G|G]; rewrite frame_one by auto; [left|right; exact G]. cbn [fst snd]. rewrite M. cbn [repeat app]. destruct (snd (frame (map inl R) p)) as [|c l]; [discriminate|]. cbn in *. now rewrite G. Qed.
Lemma cx_supp p q l : p_supp p (qubits (cx q)) -> In q l -> In a l -> p_supp p l.
Proof. intros S I J. apply (p_supp_incl p _ l S). destruct z; intros r [<-|[<-|[]]]; auto. Qed.
Lemma one_fault F : with_faults n 1 L1flag F -> cond (frame F (p_id n)).
Proof. intros WF. destruct (wf_one n _ F WF) as (P & i & R & p & EL & PO & PS & EF).
  assert (FP : Forall (ins_ok n) (P ++ [i])) by (pose proof L1_ok as X; rewrite EL in X; apply Forall_app in X as [X1 X2]; apply Forall_app; split; auto; apply Forall_cons_iff in X2 as [X2 _]; auto).
  assert (FP1 : Forall (ins_ok n) P) by (apply Forall_app in FP; apply FP).
  assert (GL : goodl (i :: R) p /\ goodl R p -> cond (frame F (p_id n))) by (intros [G1 G2]; destruct EF as [-> | ->]; apply cond_goodl; auto).
  unfold L1flag in EL. apply split_app in EL as [(m1 & E1 & E2)|(m1 & E0 & E2)].
  { (* before the first CNOT *)
    assert (X : i = IH a /\ m1 = [] /\ z = false) by (unfold pre in E1; destruct z; destruct P as [|? P]; try discriminate E1; [injection E1 as <- <-; auto|injection E1 as _ E1; destruct P; discriminate]).
    destruct X as (-> & -> & EZ). cbn [app] in E2. apply GL. subst R.
    assert (G : forall p0, p_ok n p0 -> p_supp p0 [a] -> goodl ((cx s0 :: b1) ++ b2 ++ b3 ++ post) p0).
    { intros p0 PO0 S0. replace ((cx s0 :: b1) ++ b2 ++ b3 ++ post) with (((cx s0 :: b1) ++ b2 ++ b3) ++ post) by (now rewrite <- !app_assoc).
      apply (good_light _ p0 s0 (nth a (sc z p0) false) PO0); [apply t23; constructor; [apply bcx, s0_in|apply b1_body]|]. intros q I N. destruct (DO q I) as (_ & Q2 & Q3).
      assert (NI : ~ In q [a]) by (intros [H|[]]; auto). destruct (supp_sc p0 _ q S0 NI) as [H1 H2]. rewrite H1, H2. split; auto. rewrite oc_rest; auto; [now rewrite andb_true_r, xorb_false_l|]. change (cx s0 :: b1) with ([cx s0] ++ b1). rewrite targets_app, targets_cnot, t1, oc_app, (oc_f q I). rewrite oc_out; auto. intros [H|[]]; auto. }
    split; [|apply G; auto]. unfold goodl. cbn [map frame fst]. apply (G (fstep (IH a) p)); auto using fstep_ok. apply (fstep_supp [a] (IH a) p n); auto. intros q I; exact I. }
  apply split_app in E2 as [(m2 & E1 & E2)|(m2 & E1 & E2)].
  { (* the first CNOT and opening the flag *)
    destruct m1 as [|j m1]; cbn [app] in E1; injection E1 as <- E1.
    - subst m2 R. apply GL. split.
      + replace (cx s0 :: b1 ++ b2 ++ b3 ++ post) with (((cx s0 :: b1) ++ b2 ++ b3) ++ post) by (cbn [app]; now rewrite <- !app_assoc). apply good_early; auto.
        * constructor; [apply bcx, s0_in|apply b1_body].
        * intros q I N. change (cx s0 :: b1) with ([cx s0] ++ b1). rewrite targets_app, targets_cnot, t1, oc_app, (oc_f q I), oc_out; auto. intros [H|[]]; auto.
        * apply (cx_supp p s0); auto; [left|right; left]; auto.
      + replace (b1 ++ b2 ++ b3 ++ post) with ((b1 ++ b2 ++ b3) ++ post) by (now rewrite <- !app_assoc). apply good_early; auto; [apply b1_body|intros q I N; rewrite t1; now apply oc_f|]. apply (cx_supp p s0); auto; [left|right; left]; auto.
    - assert (X : p_supp p [s0; a; f] /\ Forall (body n z a [f]) (i :: m2) /\ forall q, In q stab -> oc q (targets z (i :: m2)) = false /\ oc q (targets z m2) = false).
      { assert (TF : forall q, In q stab -> oc q (targets z [cx f]) = false) by (intros q I; rewrite targets_cnot; now apply oc_f). assert (SF : p_supp p [f] -> p_supp p [s0; a; f]) by (intros S; apply (p_supp_incl _ _ _ S); intros r [<-|[]]; right; right; left; auto).
        assert (SC : p_supp p (qubits (cx f)) -> p_supp p [s0; a; f]) by (intros S; apply (cx_supp p f); auto; cbn; auto).
        assert (BF := bcf). assert (BH := bhf). unfold b1, flag_init in E1. destruct (Bool.bool_dec z true) as [EZ|EZ].
        - rewrite EZ in E1. cbn [app] in E1. rewrite <- EZ in E1. destruct m1 as [|j2 m1]; cbn [app] in E1; injection E1 as <- E1.
          + subst m2. split; [apply SF, PS|]. split; [repeat (apply Forall_cons; [assumption|]); apply Forall_nil|]. intros q I. split; [change (targets z [IH f; cx f]) with (targets z [cx f])|]; apply TF, I.
          + destruct m1 as [|j3 m1]; cbn [app] in E1; [|injection E1 as _ E1; destruct m1; discriminate]. injection E1 as <- <-. split; [apply SC, PS|]. split; [repeat (apply Forall_cons; [assumption|]); apply Forall_nil|]. intros q I. split; [apply TF, I|auto].
        - apply Bool.not_true_is_false in EZ. rewrite EZ in E1. cbn [app] in E1. rewrite <- EZ in E1. destruct m1 as [|j2 m1]; cbn [app] in E1; [|injection E1 as _ E1; destruct m1; discriminate].
          injection E1 as <- <-. split; [apply SC, PS|]. split; [repeat (apply Forall_cons; [assumption|]); apply Forall_nil|]. intros q I. split; [apply TF, I|auto]. }
      destruct X as (S & FB & T). subst R. apply GL. split.
      + replace (i :: m2 ++ b2 ++ b3 ++ post) with (((i :: m2) ++ b2 ++ b3) ++ post) by (cbn [app]; now rewrite <- !app_assoc). apply good_early; auto. intros q I _. apply (T q I).
      + replace (m2 ++ b2 ++ b3 ++ post) with ((m2 ++ b2 ++ b3) ++ post) by (now rewrite <- !app_assoc). apply good_early; auto; [now apply Forall_cons_iff in FB|]. intros q I _. apply (T q I). }
  apply split_app in E2 as [(m3 & E3 & E4)|(m3 & E3 & E4)].
  { (* the middle *)
    assert (M0 : measurements (P ++ [i]) = 0).
    { clear - E0 E1 E3. subst P m1.  assert (X : measurements ((cx s0 :: b1) ++ b2) = 0) by (rewrite measurements_app; unfold b1, b2, flag_init; assert (Y : measurements (map (fun q => cx q) mid) = 0) by (clear; induction mid as [|q l IH]; auto; destruct z; cbn; auto); rewrite Y; destruct z; reflexivity).
      rewrite E3 in X. change (i :: m3) with ([i] ++ m3) in X. rewrite !measurements_app in X. rewrite !measurements_app. assert (Z0 : measurements pre = 0) by (unfold pre; destruct z; auto). lia. }
    unfold b2 in E3. assert (X : exists l1 q l2, mid = l1 ++ q :: l2 /\ i = cx q /\ m3 = map (fun q => cx q) l2).
    { clear - E3. revert m2 E3. induction mid as [|q l IH]; intros m2 E3; [destruct m2; discriminate|]. destruct m2 as [|j m2]; cbn [map app] in E3; injection E3 as E3 E4.
      - exists [], q, l. auto.
      - destruct (IH m2 E4) as (l1 & r & l2 & -> & H2 & H3). exists (q :: l1), r, l2. auto. }
    destruct X as (l1 & q & l2 & EM & EI & E5). subst m3 R.
    assert (PQ : p_supp p [q; a]) by (rewrite EI in PS; apply (cx_supp p q); auto; cbn; auto).
    destruct EF as [-> | ->].
    - apply cond_good; auto; [rewrite measurements_app in M0; lia|]. rewrite EI. apply (good_mid l1 q l2 (q :: l2) p EM); auto.
    - apply cond_good; auto. apply (good_mid l1 q l2 l2 p EM); auto. }
  apply split_app in E4 as [(m4 & E5 & E6)|(m4 & E5 & E6)].
  { (* closing the flag, the last CNOT *)
    subst R. apply GL. assert (X : p_supp p [sl; a; f] /\ Forall (body n z a [f]) (i :: m4) /\ forall q, In q stab -> q <> sl -> oc q (targets z (i :: m4)) = false /\ oc q (targets z m4) = false).
    { assert (BB := b3_body). rewrite E5 in BB. apply Forall_app in BB as [_ BB]. split; [|split; [exact BB|]].
      - unfold b3, flag_measure in E5. destruct m3 as [|j m3]; cbn [app] in E5; injection E5 as <- E5; [apply (cx_supp p f); auto; cbn; auto|].
        assert (SF : p_supp p [f] -> p_supp p [sl; a; f]) by (intros S; apply (p_supp_incl _ _ _ S); intros r [<-|[]]; right; right; left; auto).
        assert (SC : p_supp p (qubits (cx sl)) -> p_supp p [sl; a; f]) by (intros S; apply (cx_supp p sl); auto; cbn; auto).
        assert (II : In i (((if z then [IH f] else []) ++ [IM f m]) ++ [cx sl])) by (rewrite E5; apply in_app_iff; right; left; auto).
        rewrite !in_app_iff in II. destruct II as [[II|[<-|[]]]|[<-|[]]]; auto. destruct z; [|contradiction]. destruct II as [<-|[]]; auto.
      - intros q I N. assert (TT : forall l1 l2, b3 = l1 ++ l2 -> oc q (targets z l2) = false).
        { intros l1 l2 EB. apply oc_out. intros J. assert (J2 : In q (targets z b3)) by (rewrite EB, targets_app; apply in_app_iff; auto). rewrite t3 in J2. destruct J2 as [H|[H|[]]]; [|auto]. subst q. destruct (DO f I) as (_ & _ & Q3). apply Q3. now left. }
        split; [apply (TT m3); auto|]. apply (TT (m3 ++ [i])). rewrite E5. now rewrite <- app_assoc. }
    destruct X as (S & FB & T). split.
    - change (i :: m4 ++ post) with ((i :: m4) ++ post). apply good_late; auto. intros q I N. apply (T q I N).
    - apply good_late; auto; [now apply Forall_cons_iff in FB|]. intros q I N. apply (T q I N). }
  (* the end *)
  destruct (good_post m4 i R p E6 PO PS) as [G1 G2]. apply GL. split; left; auto. Qed.
End One.
