(** * EccRefute2: the codes where expectations fail, and states for which the theorems speak of something *)
From Coq Require Import NArith ZArith Ring.
From Verif Require Export EccRefute.
Local Open Scope amp_scope.

(** ** Encoded states exist *)
Definition logical0 (n : nat) (stabs : list stabilizer) (L : logicals) (f : state) : Prop :=
  encoded n stabs f /\ nz f /\ forall i, i < n -> onBlock n i (LZ L) f == f.
Lemma ket0_gateZ q : gate GZ [] q ket0 == ket0.
Proof. exact (ket0_Z (S q) [(GZ, q)] (in_map _ _ q (proj2 (in_seq (S q) 0 q) (conj (Nat.le_0_l q) (Nat.lt_succ_diag_r q))))). Qed.
Lemma ket0_nz : nz ket0. Proof. exists 0%N. discriminate. Qed.
Lemma wf_of_in N os : Forall (opIn N) os -> forallb wfOp os = true.
Proof.
  intros H. apply forallb_forall. rewrite Forall_forall in H. intros o Ho. specialize (H o Ho). destruct o; cbn [wfOp opIn] in *; auto.
  - destruct H as [_ H]. rewrite Forall_forall in H. apply forallb_forall. intros p Hp. apply negb_true_iff, Nat.eqb_neq. apply (H p Hp).
  - apply negb_true_iff, Nat.eqb_neq. tauto.
Qed.
Lemma zero_exists e stabs L n : encodesZero e stabs L n -> codeIn e n 0 -> exists f, logical0 n stabs L f.
Proof.
  intros Hz [Hc _]. destruct (run_nz _ (wf_of_in _ _ Hc) 0%N ket0 ket0_nz) as [t Ht]. destruct (Ht []) as [Hn _].
  destruct (Hz 0%nat ket0) with (cr := 0%N) (rec := t ++ []) as [H1 H2].
  - intros i j _ _ _. apply ket0_gateZ.
  - intros q _. apply ket0_gateZ.
  - exists (st (run (encodeOf e n 0 (mkFl true false)) (mkConf 0 (t ++ []) ket0))). split; [exact H1|]. split; [exact Hn|exact H2].
Qed.
Lemma q3_exists n : exists f, logical0 n q3stabs q3log f. Proof. apply (zero_exists q3Shor); [apply q3_zero|apply q3_in]. Qed.
Lemma s9_exists n : exists f, logical0 n s9stabs s9log f. Proof. apply (zero_exists q9Shor); [apply s9_zero|apply s9_in]. Qed.
Lemma s7_exists n : exists f, logical0 n s7stabs s7log f. Proof. apply (zero_exists q7Steane); [apply s7_zero|apply s7_in]. Qed.
Lemma l5_exists : exists f, logical0 1 l5stabs l5log f. Proof. apply (zero_exists q5Laflamme); [apply l5_zero|apply l5_in]. Qed.
Lemma flipped n stabs L f b : goodLogicals stabs L -> logical0 n stabs L f -> b < n ->
  encoded n stabs (onBlock n b (LX L) f) /\ nz (onBlock n b (LX L) f) /\ onBlock n b (LZ L) (onBlock n b (LX L) f) == scale (- aone) (onBlock n b (LX L) f).
Proof.
  intros Hg [E0 [N0 Z0]] Hb. destruct (Hg n b f Hb E0) as [E1 [_ [XX [_ XZ]]]]. split; [exact E1|]. split; [now apply word_nz|].
  intros x. pose proof (XZ x) as G. unfold scale in *. transitivity (- aone * (- aone * onBlock n b (LZ L) (onBlock n b (LX L) f) x)); [ring|]. rewrite <- G. f_equal. unfold onBlock at 1 3. apply after_ext. now apply Z0.
Qed.
(** ** Q3Shor: S, S-dagger, T and T-dagger are not the documented gates *)
Lemma q3_not g a b : acts q3Shor q3stabs q3log g (phase a) -> mat g = phase b -> a <> b -> ~ implements q3Shor q3stabs q3log g.
Proof.
  intros Ha Hb Hn Hi. unfold implements in Hi. rewrite Hb in Hi. apply Hn. destruct (q3_exists 1) as [f Hf]. destruct (flipped 1 q3stabs q3log f 0 q3_good Hf ltac:(lia)) as [E1 [N1 Z1]]. destruct Hf as [E0 [N0 Z0]].
  exact (acts_once _ _ _ _ _ _ Ha Hi 1 0 f _ ltac:(lia) E0 E1 N0 N1 (Z0 0%nat ltac:(lia)) Z1).
Qed.
Lemma q3_not_S : ~ implements q3Shor q3stabs q3log GS. Proof. apply (q3_not GS (- aI) aI q3_S eq_refl). discriminate. Qed.
Lemma q3_not_Sdg : ~ implements q3Shor q3stabs q3log GSdg. Proof. apply (q3_not GSdg aI (- aI) q3_Sdg eq_refl). discriminate. Qed.
Lemma q3_not_T : ~ implements q3Shor q3stabs q3log GT. Proof. apply (q3_not GT (aW * aI) aW q3_T eq_refl). discriminate. Qed.
Lemma q3_not_Tdg : ~ implements q3Shor q3stabs q3log GTdg. Proof. apply (q3_not GTdg (- aW) (Am 0 0 0 (-1)) q3_Tdg eq_refl). discriminate. Qed.
(** ** Controlled Y has the wrong sign *)
Lemma q3_not_CY : ~ implementsC q3Shor q3stabs q3log GY.
Proof. intros H. destruct (q3_exists 2) as [f [E0 [N0 Z0]]]. refine (actsC_once _ _ _ _ q3_good q3_CY H 2 0 1 f _ _ _ E0 N0 (Z0 0%nat _)); lia. Qed.
Lemma s7_not_CY : ~ implementsC q7Steane s7stabs s7log GY.
Proof. intros H. destruct (s7_exists 2) as [f [E0 [N0 Z0]]]. refine (actsC_once _ _ _ _ s7_good s7_CY H 2 0 1 f _ _ _ E0 N0 (Z0 0%nat _)); lia. Qed.
(** ** Gates that leave the code: whatever the encoded state *)
Definition leavesCode (e : ecc) (stabs : list stabilizer) (g : gt) : Prop :=
  forall n ncb i f, i < n -> encoded n stabs f -> nz f ->
  exists circ, e_map e n ncb (mkFl false true) (IGate g [] [i]) = Ok (mkFl false true, circ) /\ ~ encoded n stabs (after circ f).
Definition leavesCodeC (e : ecc) (stabs : list stabilizer) (g : gt) : Prop :=
  forall n ncb b i f, i < n -> b < n -> b <> i -> encoded n stabs f -> nz f ->
  exists circ, e_map e n ncb (mkFl false true) (IGate g [(b, true)] [i]) = Ok (mkFl false true, circ) /\ ~ encoded n stabs (after circ f).
Lemma pure_nz os f : forallb wfOp os = true -> forallb (fun o => match o with Gate _ _ _ | Swap _ _ => true | _ => false end) os = true -> nz f -> nz (after os f).
Proof.
  intros Hw Hp Hf. destruct (run_nz os Hw 0%N f Hf) as [t Ht]. destruct (Ht []) as [Hn _]. refine (nz_ext _ _ _ Hn). now apply pure_after.
Qed.
Lemma leaves_of e stabs g l1 l2 : ends (e_red e) stabs [l1] (tpl e g) = true -> opposite (e_red e) (l1 ++ l2) (l2 ++ l1) = true -> In l2 stabs ->
  forallb (fun o => match o with Gate _ _ _ | Swap _ _ => true | _ => false end) (tpl e g) = true -> forallb wfOp (tpl e g) = true -> forallb (inT (e_red e)) (tpl e g) = true ->
  (forall n ncb i, i < n -> e_map e n ncb (mkFl false true) (IGate g [] [i]) = Ok (mkFl false true, map (ren (dq n i) 0) (tpl e g))) -> leavesCode e stabs g.
Proof.
  intros He Ho Hl2 Hp Hw Hin Hm n ncb i f Hi Hf Hz. eexists. split; [now apply Hm|]. intros Hc. set (circ := map (ren (dq n i) 0) (tpl e g)) in *.
  pose proof (ends_sound (e_red e) (dq n i) (dq_inj1 n i (e_red e) Hi) 0 f stabs (fun l Hl => Hf i l Hi Hl) [l1] (tpl e g) He 0%N [] l1 (or_introl eq_refl)) as H1.
  pose proof (Hc i l2 Hi Hl2) as H2. pose proof (clash2 (e_red e) (dq n i) (dq_inj1 n i (e_red e) Hi) l1 l2 (after circ f) Ho H1 H2) as H3.
  destruct (pure_nz circ f) as [x Hx]; auto.
  - unfold circ. apply forallb_forall. intros o Ho'. apply in_map_iff in Ho'. destruct Ho' as [o' [<- Ho']]. rewrite forallb_forall in Hw, Hin. specialize (Hw o' Ho'). specialize (Hin o' Ho').
    destruct o'; cbn [ren wfOp inT] in *; auto.
    + apply forallb_forall. intros p Hp'. apply in_map_iff in Hp'. destruct Hp' as [p' [<- Hp']]. rewrite forallb_forall in Hw. specialize (Hw p' Hp'). apply negb_true_iff, Nat.eqb_neq in Hw.
      cbn [fst]. apply negb_true_iff, Nat.eqb_neq. intros E. apply dq_inj in E; tauto.
    + apply negb_true_iff, Nat.eqb_neq in Hw. apply negb_true_iff, Nat.eqb_neq. intros E. apply dq_inj in E; tauto.
  - unfold circ. apply forallb_forall. intros o Ho'. apply in_map_iff in Ho'. destruct Ho' as [o' [<- Ho']]. rewrite forallb_forall in Hp. specialize (Hp o' Ho'). now destruct o'.
  - exact (Hx (H3 x)).
Qed.
Lemma leavesC_of e stabs g l1 l2 : ends (e_red e + e_red e) (stabs2 e stabs) [l1] (tplC e g) = true -> opposite (e_red e + e_red e) (l1 ++ l2) (l2 ++ l1) = true -> In l2 (stabs2 e stabs) -> stBd (e_red e) stabs = true ->
  forallb (fun o => match o with Gate _ _ _ | Swap _ _ => true | _ => false end) (tplC e g) = true -> forallb wfOp (tplC e g) = true -> forallb (inT (e_red e + e_red e)) (tplC e g) = true ->
  (forall n ncb b i, i < n -> b < n -> b <> i -> e_map e n ncb (mkFl false true) (IGate g [(b, true)] [i]) = Ok (mkFl false true, map (ren (place (e_red e) (dq n b) (dq n i)) 0) (tplC e g))) -> leavesCodeC e stabs g.
Proof.
  intros He Ho Hl2 Hbs Hp Hw Hin Hm n ncb b i f Hi Hb Hn Hf Hz. eexists. split; [now apply Hm|]. intros Hc. set (rho := place (e_red e) (dq n b) (dq n i)) in *. set (circ := map (ren rho 0) (tplC e g)) in *.
  assert (Hinj := place2_inj n (e_red e) b i Hi Hb Hn). fold rho in Hinj.
  assert (Hall : forall g, encoded n stabs g -> forall l, In l (stabs2 e stabs) -> after (word rho l) g == g).
  { clear f Hf Hz Hc. intros f Hf l Hl. unfold stabs2 in Hl. apply in_app_iff in Hl. destruct Hl as [Hl|Hl].
    - unfold rho. rewrite word_place1 by (intros p Hp'; exact (stBd_ok (e_red e) stabs l p Hbs Hl Hp')). exact (Hf b l Hb Hl).
    - apply in_map_iff in Hl. destruct Hl as [l0 [<- Hl]]. unfold rho. rewrite word_place2. exact (Hf i l0 Hi Hl). }
  pose proof (ends_sound (e_red e + e_red e) rho Hinj 0 f (stabs2 e stabs) (Hall f Hf) [l1] (tplC e g) He 0%N [] l1 (or_introl eq_refl)) as H1.
  pose proof (Hall (after circ f) Hc l2 Hl2) as H2.
  pose proof (clash2 (e_red e + e_red e) rho Hinj l1 l2 (after circ f) Ho H1 H2) as H3.
  destruct (pure_nz circ f) as [x Hx]; auto.
  - unfold circ. apply forallb_forall. intros o Ho'. apply in_map_iff in Ho'. destruct Ho' as [o' [<- Ho']]. rewrite forallb_forall in Hw, Hin. specialize (Hw o' Ho'). specialize (Hin o' Ho').
    destruct o'; cbn [ren wfOp inT] in *; auto.
    + apply andb_true_iff in Hin. destruct Hin as [Hi1 Hi2]. rewrite forallb_forall in Hi2, Hw.
      apply forallb_forall. intros p Hp'. apply in_map_iff in Hp'. destruct Hp' as [p' [<- Hp']]. specialize (Hw p' Hp'). specialize (Hi2 p' Hp'). apply negb_true_iff, Nat.eqb_neq in Hw.
      cbn [fst]. apply negb_true_iff, Nat.eqb_neq. intros E. apply Hinj in E; [tauto| |]; apply Nat.ltb_lt; assumption.
    + apply andb_true_iff in Hin. destruct Hin as [Hi1 Hi2]. apply negb_true_iff, Nat.eqb_neq in Hw. apply negb_true_iff, Nat.eqb_neq. intros E. apply Hinj in E; [tauto| |]; apply Nat.ltb_lt; assumption.
  - unfold circ. apply forallb_forall. intros o Ho'. apply in_map_iff in Ho'. destruct Ho' as [o' [<- Ho']]. rewrite forallb_forall in Hp. specialize (Hp o' Ho'). now destruct o'.
  - exact (Hx (H3 x)).
Qed.
Lemma f9_H_leaves : leavesCode q9Surface f9stabs GH.
Proof.
  apply (leaves_of q9Surface f9stabs GH (Xs [1; 4; 5; 8]) (Zs [1; 2; 4; 5]));
    [vm_compute; reflexivity|vm_compute; reflexivity|cbn; tauto|reflexivity|reflexivity|reflexivity|intros n ncb i Hi; reflexivity].
Qed.
Lemma s9_CZ_leaves : leavesCodeC q9Shor s9stabs GZ.
Proof.
  apply (leavesC_of q9Shor s9stabs GZ [(GZ, 0); (GZ, 1); (GX, 9); (GX, 10)] (Zs [10; 11]));
    [vm_cast_no_check (eq_refl true)|vm_compute; reflexivity|cbn; tauto|reflexivity|reflexivity|reflexivity|reflexivity|intros n ncb b i Hi Hb Hn; reflexivity].
Qed.
Lemma s9_CY_leaves : leavesCodeC q9Shor s9stabs GY.
Proof.
  apply (leavesC_of q9Shor s9stabs GY [(GX, 0); (GX, 1); (GZ, 9); (GZ, 10)] (Zs [1; 2]));
    [vm_cast_no_check (eq_refl true)|vm_compute; reflexivity|cbn; tauto|reflexivity|reflexivity|reflexivity|reflexivity|intros n ncb b i Hi Hb Hn; reflexivity].
Qed.
(** ** The first encoding: Q9Surface, and Q5Laflamme with two qubits *)
Definition minus (q : nat) : stabilizer := [(GX, q); (GZ, q); (GX, q); (GZ, q)].
Lemma ket0_zeros n nd : zeros n 0 nd ket0. Proof. intros i j _ _ _. apply ket0_gateZ. Qed.
Lemma ket0_clean e n : cleanAncillas e n ket0. Proof. intros q _. apply ket0_gateZ. Qed.
Lemma f9_not_zero : ~ encodesZero q9Surface f9stabs f9log 1.
Proof.
  intros H. destruct (H 0%nat ket0 (ket0_zeros _ _) (ket0_clean _ _) 0%N [true; false; false; false; false; false; true; false]) as [He _].
  destruct (showsZ_ok 17 (encodeOf q9Surface 1 0 (mkFl true false)) [true; false; false; false; false; false; true; false] [Xs [1; 2] ++ minus 0] (2 ^ 9 + 2 ^ 16)%N ltac:(vm_compute; reflexivity) 0%N) as [[x Hx] Hf].
  apply Hx. specialize (Hf _ (or_introl eq_refl)). specialize (He 0%nat (Xs [1; 2]) ltac:(lia) ltac:(cbn; tauto)).
  refine (clash 17 idn (idn_inj 17) (Xs [1; 2] ++ minus 0) (Xs [1; 2]) _ _ Hf _ x); [vm_compute; reflexivity|exact He].
Qed.
Lemma l5_not_zero : ~ encodesZero q5Laflamme l5stabs l5log 2.
Proof.
  set (rec := map (Nat.eqb 1) [0;0;0;0;0;0;0;1;0;0;0;1;0;0;0;0;0;0;1;1]).
  intros H. destruct (H 0%nat ket0 (ket0_zeros _ _) (ket0_clean _ _) 0%N rec) as [_ Hz].
  destruct (showsZ_ok 14 (encodeOf q5Laflamme 2 0 (mkFl true false)) rec [Zs [1; 3; 5; 7; 9] ++ minus 0] (N.of_nat (4+16+64+256+2+8+32+128+512+1024)) ltac:(vm_compute; reflexivity) 0%N) as [[x Hx] Hf].
  apply Hx. specialize (Hf _ (or_introl eq_refl)). specialize (Hz 1%nat ltac:(lia)).
  refine (clash 14 idn (idn_inj 14) (Zs [1; 3; 5; 7; 9] ++ minus 0) (Zs [1; 3; 5; 7; 9]) _ _ Hf _ x); [vm_compute; reflexivity|exact Hz].
Qed.
(** ** Re-encoding after a measurement: Q7Steane and Q5Laflamme lose a 1 *)
Definition isOne (q : nat) (f : state) : Prop := gate GZ [] q f == scale (- aone) f.
(** one qubit that is 1, the rest of the register 0: the circuit gives a logical 0 *)
Definition loses1 (e : ecc) (stabs : list stabilizer) (L : logicals) (circ : list op) : Prop :=
  forall f, isOne 0 f -> zeros 1 1 (e_red e) f -> cleanAncillas e 1 f -> forall cr rec,
    let f' := st (run circ (mkConf cr rec f)) in encoded 1 stabs f' /\ onBlock 1 0 (LZ L) f' == f'.
Lemma loses_of e stabs L circ : ends (e_red e + e_cor e) ([[(GX, 0); (GZ, 0); (GX, 0)]] ++ map (fun j => [(GZ, j)]) (seq 1 (e_red e + e_cor e - 1))) (stabs ++ [LZ L]) circ = true ->
  loses1 e stabs L circ.
Proof.
  intros He f H1 Hz Ha cr rec. cbv zeta.
  assert (Hw : forall l, In l ([[(GX, 0); (GZ, 0); (GX, 0)]] ++ map (fun j => [(GZ, j)]) (seq 1 (e_red e + e_cor e - 1))) -> after (word idn l) f == f).
  { intros l Hl. apply in_app_iff in Hl. destruct Hl as [[<-|[]]|Hl].
    - intros x. assert (Eo : after (word idn [(GX, 0); (GZ, 0); (GX, 0)]) f == scale (- aone) (after (word idn [(GZ, 0)]) f)) by (apply (opposite_ok 1 idn (idn_inj 1)); vm_compute; reflexivity).
      rewrite (Eo x). unfold scale. change (after (word idn [(GZ, 0)]) f x) with (gate GZ [] 0 f x). rewrite (H1 x). unfold scale. ring.
    - apply in_map_iff in Hl. destruct Hl as [j [<- Hj]]. apply in_seq in Hj. intros x. change (after (word idn [(GZ, j)]) f x) with (gate GZ [] j f x). destruct (Nat.lt_ge_cases j (e_red e)) as [Hd|Hd].
      + pose proof (Hz 0%nat j ltac:(lia) ltac:(lia) Hd x) as G. rewrite Nat.mul_1_r in G. exact G.
      + apply (Ha j). unfold ancillas. apply in_map_iff. exists (j - e_red e)%nat. split; [lia|]. apply in_seq. lia. }
  pose proof (ends_sound (e_red e + e_cor e) idn (idn_inj _) 0 f _ Hw _ _ He cr rec) as G. rewrite ren_id in G by reflexivity.
  assert (Eg : forall l g, after (gatesOf (fun j => 0 + j * 1)%nat l) g = after (word idn l) g).
  { intros l g. unfold gatesOf, word, idn. f_equal. apply map_ext. intros p. now rewrite Nat.mul_1_r. }
  split.
  - intros i l Hi Hl. assert (i = 0)%nat by lia. subst i. rewrite Eg. apply G. apply in_app_iff. now left.
  - unfold onBlock. rewrite Eg. apply G. apply in_app_iff. right. now left.
Qed.
Lemma s7_loses : loses1 q7Steane s7stabs s7log (encodeOf q7Steane 1 0 (mkFl true true) ++ roundOf q7Steane 1 0).
Proof. apply loses_of. vm_compute. reflexivity. Qed.
Lemma l5_loses : loses1 q5Laflamme l5stabs l5log (encodeOf q5Laflamme 1 0 (mkFl true true)).
Proof. apply loses_of. vm_compute. reflexivity. Qed.
