(** * OneFault5: one fault in the preparation circuit *)
From Verif Require Export OneFault4 FaultSem2 VerifProofs6.
From Verif Require Import PropVerif.
From Coq Require Import Permutation.
Local Open Scope nat_scope.

Lemma nth_firstn' {A} i j (l : list A) d : j < i -> nth j (firstn i l) d = nth j l d.
Proof. revert j l. induction i as [|i IHi]; intros [|j] [|x l] H; cbn; auto; try lia. apply IHi. lia. Qed.
Lemma fr_h hs : forall p, (forall q, In q hs -> zero_at p q) -> fst (fr (map IH hs) p) = p.
Proof. induction hs as [|h hs IHh]; intros p Z; [reflexivity|]. cbn [map]. rewrite fr_cons. cbn [fst]. rewrite h_quiet by (apply Z; now left). apply IHh. intros q Hq. apply Z. now right. Qed.
Definition icx (p : nat * nat) : ins := ICX (fst p) (snd p).
Lemma fr_prop x rest : forall p, tc x (fst (fr (map icx rest) p)) = fold_left (prop1 x) rest (tc x p).
Proof. induction rest as [|g rest IHr]; intros p; [reflexivity|]. cbn [map fold_left]. rewrite fr_cons. cbn [fst]. rewrite IHr. f_equal. destruct x; reflexivity. Qed.
Lemma firstn_prop1 n x v g : n <= length v -> fst g < n -> snd g < n -> firstn n (prop1 x v g) = prop1 x (firstn n v) g.
Proof. intros Lv Hc Ht. assert (G : forall c t, c < n -> t < n -> firstn n (cxv c t v) = cxv c t (firstn n v)).
  { intros c t C1 T1. apply (vec_ext n); rewrite ?firstn_length, ?cxv_length, ?firstn_length; try lia. intros j Hj. rewrite nth_firstn' by auto. rewrite !nth_cxv by (rewrite ?firstn_length; lia). rewrite !nth_firstn' by auto. reflexivity. }
  destruct x; apply G; auto. Qed.
Lemma prop1_length x v g : length (prop1 x v g) = length v.
Proof. destruct x; apply cxv_length. Qed.
Lemma firstn_prop n x rest : cn_ok n rest -> forall v, n <= length v -> firstn n (fold_left (prop1 x) rest v) = fold_left (prop1 x) rest (firstn n v).
Proof. induction 1 as [|g rest (H1 & H2 & H3) HR IHr]; intros v Lv; [reflexivity|]. cbn [fold_left]. rewrite IHr by (now rewrite prop1_length). now rewrite firstn_prop1. Qed.
Lemma unit_or_zero n q (v : vec) : length v = n -> (forall j, j < n -> j <> q -> nth j v false = false) -> v = vzero n \/ (q < n /\ v = unitv n q).
Proof. intros Lv H. destruct (nth q v false) eqn:E.
  - right. assert (q < n) by (destruct (Nat.lt_ge_cases q n); auto; rewrite nth_overflow in E by lia; discriminate). split; auto. apply (vec_ext n); rewrite ?unitv_length; auto. intros j Hj. rewrite nth_unitv by auto. destruct (Nat.eqb_spec j q) as [->|N]; auto.
  - left. apply (vec_ext n); rewrite ?vzero_length; auto. intros j Hj. rewrite nth_vzero. destruct (Nat.eq_dec j q) as [->|N]; auto. Qed.
(** what one fault leaves on the data at the end of the preparation circuit *)
Definition prep_error (n : nat) (x : bool) (nodes : list (nat * nat)) (e : vec) : Prop := e = vzero n \/ exists q i, q < n /\ i <= length nodes /\ e = fault_error n x nodes q i.
Lemma prop_zero n x l : fold_left (prop1 x) l (vzero n) = vzero n.
Proof. assert (P : forall g, prop1 x (vzero n) g = vzero n). { intros g. destruct x; unfold prop1; cbn beta; apply cxv_quiet; apply nth_vzero. } induction l as [|g l IHl]; [reflexivity|]. cbn [fold_left]. rewrite P. exact IHl. Qed.
Lemma ins_of_gcx nodes : map ins_of (map gcx nodes) = map icx nodes.
Proof. rewrite map_map. reflexivity. Qed.
Lemma prep_fault N n hs nodes F : n <= N -> NoDup hs -> (forall q, In q hs -> q < n) -> cn_ok n nodes -> with_faults N 1 (map ins_of (map GH hs ++ map gcx nodes)) F ->
  Forall (ins_ok N) (map ins_of (map GH hs ++ map gcx nodes)) /\ (forall q, n <= q -> zero_at (fst (frame F (p_id N))) q) /\ forall x, prep_error n x nodes (firstn n (tc x (fst (frame F (p_id N))))).
Proof. intros HN ND HS CN W. rewrite map_app, ins_of_gcx in *. assert (EH : map ins_of (map GH hs) = map IH hs) by (rewrite map_map; reflexivity). rewrite EH in *. clear EH.
  assert (O1 : Forall (ins_ok N) (map IH hs)) by (apply Forall_map, Forall_forall; intros q Hq; specialize (HS q Hq); cbn; lia).
  assert (O2 : Forall (ins_ok N) (map icx nodes)) by (apply Forall_map; eapply Forall_impl; [|exact CN]; intros g (A & B & C); cbn; lia).
  assert (OL : Forall (ins_ok N) (map IH hs ++ map icx nodes)) by (apply Forall_app; auto). split; auto.
  assert (IL : Forall (fun i => incl (qubits i) (seq 0 n)) (map IH hs ++ map icx nodes)).
  { apply Forall_app. split; apply Forall_map; [apply Forall_forall; intros q Hq; specialize (HS q Hq); intros r [<-|[]]; apply in_seq; lia|]. eapply Forall_impl; [|exact CN]; intros g (A & B & C). intros r [<-|[<-|[]]]; apply in_seq; lia. }
  split. { intros q Hq. apply (frame_supp N (seq 0 n) 1 _ F W OL IL (p_id N) (p_id_ok N)); [intros r _; split; cbn; apply nth_vzero|]. intros I. apply in_seq in I. lia. }
  destruct (one_fault_frame N _ F OL W) as (L1 & i & L2 & p & EL & PO & PS & ->). fold (fr L2 p). intros x.
  assert (LT : length (tc x p) = N) by (now apply tc_ok).
  apply split_app in EL as [(H2 & E1 & ->)|(C1 & E1 & E2)].
  - assert (exists l1 q l2, hs = l1 ++ q :: l2 /\ i = IH q /\ H2 = map IH l2) as (l1 & q & l2 & EQ & -> & ->).
    { clear - E1. revert L1 E1. induction hs as [|h hs IHh]; intros L1 E; [destruct L1; discriminate|]. destruct L1 as [|y L1]; cbn in E; injection E as E1 E2.
      - exists [], h, hs. auto.
      - destruct (IHh L1 E2) as (l1 & q & l2 & -> & -> & ->). exists (h :: l1), q, l2. auto. }
    rewrite fr_app. cbn [fst]. assert (Nq : ~ In q l2) by (rewrite EQ in ND; apply NoDup_app_l in ND as (_ & ND & _); now apply NoDup_cons_iff in ND). rewrite fr_h by (intros r Hr; apply PS; intros [<-|[]]; contradiction). rewrite fr_prop.
    rewrite (firstn_prop n) by (auto; unfold vec in *; lia). destruct (unit_or_zero n q (firstn n (tc x p))) as [E|[Hq E]]; [rewrite firstn_length; unfold vec in *; lia| | |].
    + intros j Hj Nj. rewrite nth_firstn' by auto. destruct (PS j) as [Z1 Z2]; [intros [<-|[]]; contradiction|]. destruct x; auto.
    + left. rewrite E. apply prop_zero.
    + right. exists q, 0. split; auto. split; [lia|]. rewrite E. reflexivity.
  - assert (exists n1 g n2, nodes = n1 ++ g :: n2 /\ i = icx g /\ L2 = map icx n2) as (n1 & g & n2 & EQ & -> & ->).
    { clear - E2. revert C1 E2. induction nodes as [|h hs' IHh]; intros C1 E; [destruct C1; discriminate|]. destruct C1 as [|y C1]; cbn in E; injection E as E1 E2.
      - exists [], h, hs'. auto.
      - destruct (IHh C1 E2) as (l1 & q & l2 & -> & -> & ->). exists (h :: l1), q, l2. auto. }
    assert (CG := CN). rewrite EQ in CG. apply Forall_app in CG as [_ CG]. apply Forall_cons_iff in CG as [(G1 & G2 & G3) CG]. rewrite fr_prop, (firstn_prop n) by (auto; unfold vec in *; lia). set (v := firstn n (tc x p)).
    assert (Lv : length v = n) by (unfold v; rewrite firstn_length; unfold vec in *; lia).
    assert (Zv : forall j, j < n -> j <> fst g -> j <> snd g -> nth j v false = false). { intros j Hj N1 N2. unfold v. rewrite nth_firstn' by auto. destruct (PS j) as [Z1 Z2]; [intros [H|[H|[]]]; congruence|]. destruct x; auto. }
    assert (SK : skipn (S (length n1)) nodes = n2) by (rewrite EQ, skipn_app, skipn_all2 by lia; replace (S (length n1) - length n1) with 1 by lia; reflexivity).
    assert (SK0 : skipn (length n1) nodes = g :: n2) by (rewrite EQ, skipn_app, skipn_all2 by lia; now rewrite Nat.sub_diag).
    assert (LN : S (length n1) <= length nodes) by (rewrite EQ, app_length; cbn; lia).
    destruct (nth (fst g) v false) eqn:Vc, (nth (snd g) v false) eqn:Vt.
    + right. exists (source x g), (length n1). split; [destruct x; auto|]. split; [lia|]. unfold fault_error. rewrite SK0. cbn [fold_left]. f_equal.
      apply (vec_ext n); rewrite ?prop1_length, ?unitv_length; auto. intros j Hj.
      assert (U : nth j (prop1 x (unitv n (source x g)) g) false = (j =? fst g) || (j =? snd g)).
      { destruct x; unfold prop1, source; cbn beta; rewrite nth_cxv by (now rewrite unitv_length); rewrite !nth_unitv by auto; rewrite ?Nat.eqb_refl.
        - destruct (Nat.eqb_spec j (snd g)) as [->|]; [|now rewrite orb_false_r]. destruct (Nat.eqb_spec (snd g) (fst g)); [congruence|reflexivity].
        - destruct (Nat.eqb_spec j (fst g)) as [->|]; [|now rewrite orb_false_l]. destruct (Nat.eqb_spec (fst g) (snd g)); [congruence|reflexivity]. }
      rewrite U. destruct (Nat.eqb_spec j (fst g)) as [->|]; [auto|]. destruct (Nat.eqb_spec j (snd g)) as [->|]; [auto|]. now apply Zv.
    + right. exists (fst g), (S (length n1)). split; auto. split; auto. unfold fault_error. rewrite SK. f_equal. destruct (unit_or_zero n (fst g) v Lv) as [E|[_ E]]; auto; [|rewrite E, nth_vzero in Vc; discriminate]. intros j Hj Nj. destruct (Nat.eq_dec j (snd g)) as [->|]; auto.
    + right. exists (snd g), (S (length n1)). split; auto. split; auto. unfold fault_error. rewrite SK. f_equal. destruct (unit_or_zero n (snd g) v Lv) as [E|[_ E]]; auto; [|rewrite E, nth_vzero in Vt; discriminate]. intros j Hj Nj. destruct (Nat.eq_dec j (fst g)) as [->|]; auto.
    + left. replace v with (vzero n); [apply prop_zero|]. apply (vec_ext n); rewrite ?vzero_length; auto. intros j Hj. rewrite nth_vzero. symmetry. destruct (Nat.eq_dec j (fst g)) as [->|]; auto. destruct (Nat.eq_dec j (snd g)) as [->|]; auto. Qed.
