(** * SimProofs2: without noise and with accepted records the stim circuit prepares the state of the circuit *)
From Coq Require Import Permutation.
From Verif Require Export SimProofs FaultSem2.
Local Open Scope nat_scope.

(** ** all outcomes 0 *)
Lemma exec_quiet l : forall k psi, exec l (repeat false k) psi = exec l [] psi.
Proof. induction l as [|i l IHl]; intros k psi; auto. destruct i as [q|c t|q b]; cbn [exec]; auto. destruct k as [|k]; cbn [repeat hd tl]; [reflexivity|]. apply IHl. Qed.
Lemma exec_app0 l1 : forall l2 psi, exec (l1 ++ l2) [] psi = exec l2 [] (exec l1 [] psi).
Proof. induction l1 as [|i l1 IHl]; intros l2 psi; auto. destruct i; cbn [app exec tl]; apply IHl. Qed.
Lemma sexec_app0 l1 : forall l2 psi, sexec (l1 ++ l2) [] psi = sexec l2 [] (sexec l1 [] psi).
Proof. induction l1 as [|i l1 IHl]; intros l2 psi; auto. destruct i; cbn [app sexec tl hd]; apply IHl. Qed.
Lemma sexec_quiet l : forall k psi, sexec l (repeat false k) psi = sexec l [] psi.
Proof. induction l as [|i l IHl]; intros k psi; auto. destruct i as [q|c t|q|q|q b|q b|q b|q t b]; cbn [sexec]; auto; (destruct k as [|k]; cbn [repeat hd tl]; [reflexivity|]; apply IHl). Qed.

Lemma set_nth_comm {A} i j (a b : A) l : i <> j -> set_nth i a (set_nth j b l) = set_nth j b (set_nth i a l).
Proof. revert i j. induction l as [|x l IHl]; intros [|i] [|j] N; cbn; auto; try congruence. f_equal. apply IHl. congruence. Qed.
Lemma cxv_set n c t q v (x : vec) : length x = n -> t < n -> q <> c -> q <> t -> cxv c t (set_nth q v x) = set_nth q v (cxv c t x).
Proof. intros L T H1 H2. unfold cxv. rewrite !nth_set_nth_neq by congruence. apply set_nth_comm. congruence. Qed.
Lemma gate_comm n i j psi : ins_ok n i -> ins_ok n j -> independent i j -> state_eq n (exec [i; j] [] psi) (exec [j; i] [] psi).
Proof. intros Hi Hj ID x Hx. destruct i as [q|c t|q b], j as [q'|c' t'|q' b']; cbn [exec tl hd apply_gate project]; unfold independent in ID; cbn [qubits In] in ID; cbn [ins_ok] in *.
  - assert (q <> q') by (intros ->; apply (ID q'); auto). unfold apply_gate. rewrite !nth_set_nth_neq by congruence. rewrite !(set_nth_comm q q') by auto. destruct (nth q x false), (nth q' x false); lia.
  - assert (q <> c' /\ q <> t') as [N1 N2] by (split; intros ->; [apply (ID c')|apply (ID t')]; auto). destruct Hj as (C1 & C2 & C3). unfold apply_gate. rewrite !(cxv_set n) by auto. rewrite nth_cxv by (unfold vec in *; lia). destruct (Nat.eqb_spec q t'); [congruence|]. reflexivity.
  - assert (q <> q') by (intros ->; apply (ID q'); auto). unfold apply_gate, project. rewrite !nth_set_nth_neq by congruence. destruct (Bool.eqb _ _); lia.
  - assert (q' <> c /\ q' <> t) as [N1 N2] by (split; intros ->; [apply (ID c)|apply (ID t)]; auto). destruct Hi as (C1 & C2 & C3). unfold apply_gate. rewrite !(cxv_set n) by auto. rewrite nth_cxv by (unfold vec in *; lia). destruct (Nat.eqb_spec q' t); [congruence|]. reflexivity.
  - destruct Hi as (C1 & C2 & C3), Hj as (D1 & D2 & D3). assert (c <> t' /\ t <> c' /\ t <> t') as (N1 & N2 & N3) by (repeat split; intros ->; [apply (ID t')|apply (ID c')|apply (ID t')]; auto). unfold apply_gate. f_equal. symmetry. apply (cxv_comm n); auto.
  - destruct Hi as (C1 & C2 & C3). assert (q' <> t) by (intros ->; apply (ID t); auto). unfold apply_gate, project. rewrite nth_cxv by (unfold vec in *; lia). destruct (Nat.eqb_spec q' t); [congruence|]. reflexivity.
  - assert (q <> q') by (intros ->; apply (ID q'); auto). unfold apply_gate, project. rewrite !nth_set_nth_neq by congruence. destruct (Bool.eqb _ _); lia.
  - destruct Hj as (C1 & C2 & C3). assert (q <> t') by (intros ->; apply (ID t'); auto). unfold apply_gate, project. rewrite nth_cxv by (unfold vec in *; lia). destruct (Nat.eqb_spec q t'); [congruence|]. reflexivity.
  - unfold project. destruct (Bool.eqb (nth q' x false) false), (Bool.eqb (nth q x false) false); auto. Qed.
Lemma exec_ext0 n l a b : state_eq n a b -> state_eq n (exec l [] a) (exec l [] b).
Proof. apply exec_ext. Qed.
Lemma seq_trans n a b c : state_eq n a b -> state_eq n b c -> state_eq n a c.
Proof. intros E F x Hx. rewrite E, F; auto. Qed.
Lemma exec_exchange n l l' : exchange l l' -> Forall (ins_ok n) l -> forall psi, state_eq n (exec l [] psi) (exec l' [] psi).
Proof. induction 1 as [l|a i j b ID|l1 l2 l3 E1 I1 E2 I2]; intros F psi; [intros x _; reflexivity| |].
  - change (i :: j :: b) with ([i; j] ++ b). change (j :: i :: b) with ([j; i] ++ b). rewrite !exec_app0. apply exec_ext0. apply Forall_app in F as [_ F]. apply Forall_cons_iff in F as [Fi F]. apply Forall_cons_iff in F as [Fj _]. now apply gate_comm.
  - eapply seq_trans; [apply I1; auto|]. apply I2. clear - E1 F. induction E1; auto. apply Forall_app in F as [A B]. apply Forall_cons_iff in B as [B1 B]. apply Forall_cons_iff in B as [B2 B]. apply Forall_app. split; auto. Qed.
Lemma exchange_ok n l l' : exchange l l' -> Forall (ins_ok n) l -> Forall (ins_ok n) l'.
Proof. induction 1; auto. intros F. apply Forall_app in F as [A B]. apply Forall_cons_iff in B as [B1 B]. apply Forall_cons_iff in B as [B2 B]. apply Forall_app. split; auto. Qed.
Lemma qstep_comm q st i j : independent i j -> qstep q (qstep q st i) j = qstep q (qstep q st j) i.
Proof. intros ID. assert (T : ~ In q (qubits i) \/ ~ In q (qubits j)) by (destruct (in_dec Nat.eq_dec q (qubits i)); [right; now apply ID|now left]).
  assert (K : forall st i, ~ In q (qubits i) -> qstep q st i = st).
  { clear. intros st [r|c t|r b] N; cbn [qstep qubits In] in *.
    - destruct (Nat.eqb_spec r q); [exfalso; auto|reflexivity].
    - destruct (Nat.eqb_spec c q); [exfalso; auto|]. destruct (Nat.eqb_spec t q); [exfalso; auto|reflexivity].
    - destruct (Nat.eqb_spec r q); [exfalso; auto|reflexivity]. }
  destruct T as [T|T]; rewrite !(K _ _ T); reflexivity. Qed.
Lemma exchange_wire q l l' : exchange l l' -> forall st, fold_left (qstep q) l st = fold_left (qstep q) l' st.
Proof. induction 1 as [l|a i j b ID|l1 l2 l3 E1 I1 E2 I2]; intros st; auto; [|now rewrite I1]. rewrite !fold_left_app. cbn [fold_left]. now rewrite qstep_comm. Qed.
Lemma simulable_exchange n l l' : exchange l l' -> simulable n l -> simulable n l'.
Proof. intros E H q Hq. rewrite <- (exchange_wire q l l' E). now apply H. Qed.

(** ** pending Hadamards *)
Lemma move n P i psi : Forall (ins_ok n) (map IH P) -> ins_ok n i -> (forall q, In q P -> ~ In q (qubits i)) -> state_eq n (exec (map IH P ++ [i]) [] psi) (exec (i :: map IH P) [] psi).
Proof. intros FP Fi D. assert (X : exchange (map IH P ++ [i]) (i :: map IH P)).
  { clear FP. induction P as [|q P IHP]; cbn [map app]; [apply ex_refl|]. eapply ex_trans; [|apply (ex_swap [] (IH q) i (map IH P))].
    - cbn [app]. assert (Y : exchange (map IH P ++ [i]) (i :: map IH P)) by (apply IHP; intros r I; apply D; now right). clear - Y. induction Y as [l|a j k b ID|l1 l2 l3 E1 I1 E2 I2]; [apply ex_refl|apply (ex_swap (IH q :: a)); auto|eapply ex_trans; eauto].
    - intros r [<-|[]]. apply D. now left. }
  apply exec_exchange; auto. apply Forall_app. auto. Qed.
Lemma exchange_perm P P' : Permutation P P' -> NoDup P -> exchange (map IH P) (map IH P').
Proof. induction 1 as [|q P P' PP IHP|q r P|P1 P2 P3 A IA B IB]; intros ND; cbn [map].
  - apply ex_refl.
  - apply NoDup_cons_iff in ND as [_ ND]. specialize (IHP ND). clear - IHP. induction IHP as [l|a j k b ID|l1 l2 l3 E1 I1 E2 I2]; [apply ex_refl|apply (ex_swap (IH q :: a)); auto|eapply ex_trans; eauto].
  - apply (ex_swap []). intros x [<-|[]] [E|[]]. apply NoDup_cons_iff in ND as [N _]. apply N. now left.
  - eapply ex_trans; [apply IA; auto|]. apply IB. eapply Permutation_NoDup; eauto. Qed.

Section Run.
Variables (p : Q) (par : bool) (n : nat) (psi0 : state).
Definition sts (pre : list ins) (q : nat) : wst := fold_left (qstep q) pre Fresh.
Record sem_ok (pre : list ins) (s : tst) : Prop := {
  so_len : length (t_init s) = n;
  so_init : forall q, q < n -> inited s q = true <-> sts pre q = Live;
  so_ctrl : forall q, q < n -> (sts pre q = Pend -> In q (t_ctrls s)) /\ (sts pre q = Fresh -> ~ In q (t_ctrls s));
  so_state : exists P, NoDup P /\ (forall q, In q P <-> q < n /\ sts pre q = Pend) /\ state_eq n (exec pre [] psi0) (exec (map IH P) [] (sexec (t_ops s) [] psi0)) }.
Definition good (pre : list ins) : Prop := Forall (ins_ok n) pre /\ forall q, q < n -> sts pre q <> Bad.
Lemma sts_snoc pre i q : sts (pre ++ [i]) q = qstep q (sts pre q) i.
Proof. unfold sts. now rewrite fold_left_app. Qed.
Lemma good_prefix pre i : good (pre ++ [i]) -> good pre.
Proof. intros [F B]. apply Forall_app in F as [F _]. split; auto. intros q Hq E. apply (B q Hq). rewrite sts_snoc, E. destruct i as [r|c t|r b]; cbn [qstep]; [destruct (r =? q)|destruct (c =? q), (t =? q)|destruct (r =? q)]; auto. Qed.
Lemma sexec_idle l qs : sexec (l ++ map (fun q => SDep1 q (2 * p / 3)) qs) [] psi0 = sexec l [] psi0.
Proof. rewrite sexec_app0. generalize (sexec l [] psi0). intros f. induction qs; auto. Qed.
Lemma sem_after pre s qs : sem_ok pre s -> sem_ok pre (after_gate p par s qs).
Proof. intros [A B C D]. unfold after_gate. destruct (negb par); split; auto. cbn [idle_error put t_ops]. unfold idle_error. cbn [put t_ops]. destruct D as (P & ND & HP & E). exists P. split; auto. split; auto. now rewrite sexec_idle. Qed.
Lemma ih_ok P : (forall q, In q P -> q < n) -> Forall (ins_ok n) (map IH P).
Proof. intros H. apply Forall_map, Forall_forall. auto. Qed.
Lemma sem_gate pre s g : good (pre ++ [g]) -> sem_ok pre s -> sem_ok (pre ++ [g]) (sim_gate p par s g).
Proof. intros G [A B C (P & ND & HP & E)]. assert (Fg : ins_ok n g) by (destruct G as [F _]; apply Forall_app in F as [_ F]; now apply Forall_cons_iff in F as [F _]).
  assert (GB : forall q, q < n -> qstep q (sts pre q) g <> Bad) by (intros q Hq; rewrite <- sts_snoc; now apply G). clear G.
  assert (PN : forall q, In q P -> q < n) by (intros q I; now apply HP). assert (PO := ih_ok P PN).
  assert (EX : exec (pre ++ [g]) [] psi0 = exec [g] [] (exec pre [] psi0)) by apply exec_app0.
  destruct g as [q|c t|a b]; cbn [sim_gate].
  - cbn [ins_ok] in Fg. specialize (GB q Fg) as GQ. cbn [qstep] in GQ. rewrite Nat.eqb_refl in GQ. unfold inited at 1. cbn [t_init]. fold (inited s q). destruct (inited s q) eqn:I.
    + apply sem_after. apply (B q Fg) in I. split; cbn [put t_init t_ctrls t_ops]; auto.
      * intros r Hr. rewrite sts_snoc. cbn [qstep]. unfold inited. cbn [put t_init]. fold (inited s r). destruct (Nat.eqb_spec q r) as [->|N]; [|now apply B]. rewrite I. split; auto. intros _. now apply B.
      * intros r Hr. rewrite sts_snoc. cbn [qstep]. destruct (Nat.eqb_spec q r) as [->|N]; [rewrite I; split; discriminate|]. destruct (C r Hr) as [C1 C2]. split; [intros S; apply in_app_iff; left; auto|]. intros S J. apply in_app_iff in J as [J|[J|[]]]; [now apply C2|auto].
      * exists P. split; auto. split; [intros r; rewrite sts_snoc; cbn [qstep]; destruct (Nat.eqb_spec q r) as [->|N]; [|apply HP]; rewrite HP, I; split; intros [_ X]; discriminate|].
        rewrite EX. cbn [put t_ops]. rewrite sexec_app0. cbn [sexec]. eapply seq_trans; [apply exec_ext0; exact E|]. rewrite <- exec_app0.
        eapply seq_trans; [apply move; auto|intros x _; reflexivity]. intros r Ir [<-|[]]. apply HP in Ir as [_ Ir]. congruence.
    + assert (Z : sts pre q = Fresh) by (destruct (sts pre q) eqn:S; try congruence; exfalso; apply (B q Fg) in S; congruence). split; cbn [t_init t_ctrls t_ops]; auto.
      * intros r Hr. rewrite sts_snoc. cbn [qstep]. unfold inited. cbn [t_init]. fold (inited s r). destruct (Nat.eqb_spec q r) as [->|N]; [|now apply B]. rewrite Z, I. split; discriminate.
      * intros r Hr. rewrite sts_snoc. cbn [qstep]. destruct (C r Hr) as [C1 C2]. destruct (Nat.eqb_spec q r) as [->|N]; [rewrite Z; split; [intros _; apply in_app_iff; right; now left|discriminate]|]. split; [intros S; apply in_app_iff; left; auto|]. intros S J. apply in_app_iff in J as [J|[J|[]]]; [now apply C2|auto].
      * exists (P ++ [q]). split; [apply NoDup_snoc; auto; intros J; apply HP in J as [_ J]; congruence|]. split.
        -- intros r. rewrite in_app_iff, HP, sts_snoc. cbn [qstep In]. destruct (Nat.eqb_spec q r) as [->|N]; [rewrite Z; split; [intros _; auto|intros _; right; now left]|]. intuition congruence.
        -- rewrite EX. rewrite map_app, exec_app0. apply exec_ext0. exact E.
  - cbn [ins_ok] in Fg. destruct Fg as (Hc & Ht & Nct). apply sem_after. set (s0 := mkT _ _ _ _ _ _ _ _ _ _).
    assert (GC : sts pre c = Fresh \/ sts pre c = Pend \/ sts pre c = Live) by (specialize (GB c Hc); cbn [qstep] in GB; rewrite Nat.eqb_refl in GB; destruct (sts pre c); auto; congruence).
    assert (GT : sts pre t = Fresh \/ sts pre t = Live) by (specialize (GB t Ht); cbn [qstep] in GB; rewrite Nat.eqb_refl in GB; destruct (Nat.eqb_spec c t); [congruence|]; destruct (sts pre t); auto; congruence).
    assert (SC : exists ops1, t_ops (init_ctrl p s0 c) = t_ops s ++ ops1 /\ t_ctrls (init_ctrl p s0 c) = t_ctrls s /\ t_init (init_ctrl p s0 c) = set_nth c true (t_init s) /\ forall phi, sexec ops1 [] phi = if match sts pre c with Pend => true | _ => false end then apply_gate phi (GH c) else phi).
    { unfold init_ctrl. change (inited s0 c) with (inited s c). destruct (inited s c) eqn:I.
      - exists []. cbn. split; [now rewrite app_nil_r|]. split; auto. split; [unfold inited in I; rewrite <- I; symmetry; apply set_nth_same|]. intros phi. apply (B c Hc) in I. now rewrite I.
      - assert (NL : sts pre c <> Live) by (intros S; apply (B c Hc) in S; congruence). destruct (C c Hc) as [C1 C2]. change (t_ctrls s0) with (t_ctrls s). destruct (isin c (t_ctrls s)) eqn:M.
        + eexists. cbn [set_init put t_ops t_ctrls t_init s0]. split; [reflexivity|]. split; auto. split; auto. intros phi. cbn [sexec]. apply isin_in in M. destruct GC as [S|[S|S]]; [exfalso; now apply C2|now rewrite S|congruence].
        + eexists. cbn [set_init put t_ops t_ctrls t_init s0]. split; [reflexivity|]. split; auto. split; auto. intros phi. cbn [sexec]. assert (NI : ~ In c (t_ctrls s)) by (intros J; apply isin_in in J; congruence). destruct GC as [S|[S|S]]; [now rewrite S|exfalso; auto|congruence]. }
    destruct SC as (ops1 & O1 & O2 & O3 & O4).
    assert (ST : exists ops2, t_ops (init_target p (init_ctrl p s0 c) t) = t_ops s ++ ops1 ++ ops2 /\ t_ctrls (init_target p (init_ctrl p s0 c) t) = t_ctrls s /\ t_init (init_target p (init_ctrl p s0 c) t) = set_nth t true (set_nth c true (t_init s)) /\ forall phi, sexec ops2 [] phi = phi).
    { unfold init_target. destruct (inited (init_ctrl p s0 c) t) eqn:I.
      - exists []. rewrite app_nil_r. split; auto. split; auto. split; auto. rewrite O3. unfold inited in I. rewrite O3 in I. revert I. generalize (set_nth c true (t_init s)). intros l I. rewrite <- I. symmetry. apply set_nth_same.
      - exists [SXerr t (2 * p / 3)]. cbn [set_init put t_ops t_ctrls t_init]. rewrite O1, O2, O3. split; [now rewrite <- app_assoc|]. split; auto. }
    destruct ST as (ops2 & U1 & U2 & U3 & U4).
    assert (IN : forall r, r < n -> nth r (set_nth t true (set_nth c true (t_init s))) false = (if r =? c then true else if r =? t then true else nth r (t_init s) false)).
    { intros r Hr. rewrite nth_set_nth by (rewrite set_nth_length; lia). rewrite nth_set_nth by lia. destruct (r =? t), (r =? c); auto. }
    assert (QS : forall r, r < n -> qstep r (sts pre r) (ICX c t) = (if r =? c then Live else if r =? t then Live else sts pre r)).
    { intros r Hr. cbn [qstep]. rewrite (Nat.eqb_sym c r), (Nat.eqb_sym t r). destruct (Nat.eqb_spec r c) as [->|N1]; [destruct GC as [->|[->| ->]]; reflexivity|]. destruct (Nat.eqb_spec r t) as [->|N2]; [destruct GT as [->| ->]; reflexivity|reflexivity]. }
    split; cbn [put t_init t_ctrls t_ops].
    + rewrite U3, !set_nth_length. auto.
    + intros r Hr. unfold inited. cbn [put t_init]. rewrite U3, IN, sts_snoc, QS by auto. destruct (r =? c); [tauto|]. destruct (r =? t); [tauto|]. now apply B.
    + intros r Hr. rewrite U2, sts_snoc, QS by auto. destruct (r =? c); [split; discriminate|]. destruct (r =? t); [split; discriminate|]. now apply C.
    + rewrite U1. assert (EO : forall phi, sexec (ops1 ++ ops2) [] phi = sexec ops1 [] phi) by (intros phi; now rewrite sexec_app0, U4).
      assert (NTP : ~ In t P) by (intros J; apply HP in J as [_ J]; destruct GT; congruence).
      destruct (in_dec Nat.eq_dec c P) as [J|NJ].
      * apply in_split in J as (P1 & P2 & EP). assert (PM : Permutation P (c :: P1 ++ P2)) by (rewrite EP; symmetry; apply Permutation_middle). assert (ND2 := Permutation_NoDup PM ND). apply NoDup_cons_iff in ND2 as [NC ND2]. set (P0 := P1 ++ P2) in *. clearbody P0. clear EP.
        assert (HP0 : forall r, In r P0 -> In r P /\ r <> c) by (intros r J; split; [apply (Permutation_in _ (Permutation_sym PM)); now right|intros ->; auto]).
        assert (SP : sts pre c = Pend) by (apply HP; apply (Permutation_in _ (Permutation_sym PM)); now left).
        exists P0. split; auto. split.
        -- intros r. rewrite sts_snoc. split.
           ++ intros J. destruct (HP0 r J) as [J1 J2]. assert (Hr := PN r J1). rewrite QS by auto. destruct (Nat.eqb_spec r c); [congruence|]. destruct (Nat.eqb_spec r t) as [->|]; [exfalso; auto|]. now apply HP.
           ++ intros [Hr S]. rewrite QS in S by auto. destruct (Nat.eqb_spec r c); [discriminate|]. destruct (Nat.eqb_spec r t); [discriminate|]. assert (J : In r P) by (apply HP; auto). apply (Permutation_in _ PM) in J as [J|J]; [congruence|auto].
        -- rewrite EX. rewrite sexec_app0, (sexec_app0 (t_ops s)), EO, O4, SP. cbn [sexec].
           eapply seq_trans; [apply exec_ext0; exact E|]. eapply seq_trans; [apply exec_ext0; apply exec_exchange; [apply exchange_perm; [exact PM|exact ND]|exact PO]|].
           cbn [map]. change (IH c :: map IH P0) with ([IH c] ++ map IH P0). rewrite exec_app0. rewrite <- exec_app0. eapply seq_trans; [apply move; [apply ih_ok; intros r J; apply PN; now apply HP0|now cbn|]|intros x _; reflexivity].
           intros r J [<-|[<-|[]]]; [auto|]. destruct (HP0 _ J). auto.
      * assert (NP : sts pre c <> Pend) by (intros S; apply NJ, HP; auto). exists P. split; auto. split.
        -- intros r. rewrite sts_snoc. split.
           ++ intros J. assert (Hr := PN r J). rewrite QS by auto. destruct (Nat.eqb_spec r c) as [->|]; [exfalso; auto|]. destruct (Nat.eqb_spec r t) as [->|]; [exfalso; auto|]. now apply HP.
           ++ intros [Hr S]. rewrite QS in S by auto. destruct (Nat.eqb_spec r c); [discriminate|]. destruct (Nat.eqb_spec r t); [discriminate|]. apply HP; auto.
        -- rewrite EX. rewrite sexec_app0, (sexec_app0 (t_ops s)), EO, O4. replace (match sts pre c with Pend => true | _ => false end) with false by (destruct (sts pre c); congruence). cbn [sexec].
           eapply seq_trans; [apply exec_ext0; exact E|]. rewrite <- exec_app0. eapply seq_trans; [apply move; auto; [now cbn|]|intros x _; reflexivity]. intros r J [<-|[<-|[]]]; auto.
  - cbn [ins_ok] in Fg. specialize (GB a Fg) as GA. cbn [qstep] in GA. rewrite Nat.eqb_refl in GA. assert (NP : sts pre a <> Pend) by (destruct (sts pre a); congruence).
    match goal with |- context [after_gate p par ?x [a]] => set (s1 := x) end.
    assert (A1 : t_init (after_gate p par s1 [a]) = t_init s /\ t_ctrls (after_gate p par s1 [a]) = t_ctrls s /\ sexec (t_ops (after_gate p par s1 [a])) [] psi0 = project a false (sexec (t_ops s) [] psi0)).
    { unfold after_gate. destruct (negb par); unfold idle_error; cbn [put use t_ops t_init t_ctrls]; rewrite ?sexec_idle; (split; [reflexivity|]; split; [reflexivity|]); unfold s1; cbn [put t_ops]; now rewrite sexec_app0. }
    destruct A1 as (A1 & A2 & A3). assert (NPA : ~ In a P) by (intros J; apply HP in J as [_ J]; auto). split; cbn [t_init t_ctrls t_ops].
    + now rewrite A1, set_nth_length.
    + intros r Hr. unfold inited. cbn [t_init]. rewrite A1, sts_snoc. cbn [qstep]. rewrite nth_set_nth by lia. rewrite (Nat.eqb_sym a r). destruct (Nat.eqb_spec r a) as [->|N]; [split; [discriminate|]|now apply B]. destruct (sts pre a); discriminate.
    + intros r Hr. rewrite A2, sts_snoc. cbn [qstep]. destruct (Nat.eqb_spec a r) as [->|N]; [|now apply C]. destruct (sts pre r); split; discriminate.
    + exists P. split; auto. split.
      * intros r. rewrite sts_snoc. cbn [qstep]. destruct (Nat.eqb_spec a r) as [->|N]; [|apply HP]. split; [intros J; exfalso; auto|]. intros [_ S]. destruct (sts pre r); discriminate.
      * rewrite EX. rewrite A3. eapply seq_trans; [apply exec_ext0; exact E|]. rewrite <- exec_app0. eapply seq_trans; [apply move; [exact PO|exact Fg|]|intros x _; reflexivity]. intros r J [<-|[]]; auto. Qed.
Lemma sem_all layers : good (concat layers) -> sem_ok (concat layers) (to_stim_circ p par n layers).
Proof. apply (run_ind p par (fun pre s => good pre -> sem_ok pre s)).
  - intros _. split; cbn; [apply repeat_length| | |].
    + intros q Hq. unfold inited. cbn. rewrite nth_repeat. split; discriminate.
    + intros q Hq. split; [discriminate|auto].
    + exists []. split; [constructor|]. split; [|intros x _; reflexivity]. intros q. split; [intros []|intros [_ X]; discriminate].
  - intros pre s H G. destruct (H G) as [A B C (P & ND & HP & E)]. split; auto. exists P. split; auto. split; auto. unfold idle_error. cbn [put t_ops]. now rewrite sexec_idle.
  - intros pre s H G. destruct (H G) as [A B C D]. split; auto.
  - intros pre s g H G. apply sem_gate; auto. apply H. now apply good_prefix in G. Qed.
End Run.
Lemma stim_faithful p par n circ layers psi : Forall (ins_ok n) circ -> simulable n circ -> layers_of circ layers ->
  state_eq n (sexec (t_ops (to_stim_circ p par n layers)) [] psi) (exec circ [] psi).
Proof. intros F S L. assert (S' := simulable_exchange n _ _ L S). assert (G : good n (concat layers)) by (split; [exact (exchange_ok n _ _ L F)|intros q Hq; now apply S']).
  destruct (sem_all p par n psi layers G) as [_ _ _ (P & ND & HP & E)]. assert (P = []) as ->.
  { destruct P as [|q P]; auto. exfalso. destruct (proj1 (HP q) (or_introl eq_refl)) as [Hq X]. now apply (S' q Hq). }
  cbn [map exec] in E. intros x Hx. rewrite <- E by auto. symmetry. exact (exec_exchange n _ _ L F psi x Hx). Qed.
