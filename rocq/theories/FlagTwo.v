(** * FlagTwo: the gadgets for two faults, by renaming to a canonical gadget whose fault effects are enumerated *)
From Verif Require Export FlagOne.
Local Open Scope nat_scope.

(** ** Renaming *)
Definition ren (rho beta : nat -> nat) (i : ins) : ins := match i with IH q => IH (rho q) | ICX c t => ICX (rho c) (rho t) | IM q b => IM (rho q) (beta b) end.
Section Rename.
Variables (n m : nat) (rho beta : nat -> nat).
Hypothesis R1 : forall j, j < m -> rho j < n.
Hypothesis R2 : forall i j, i < m -> j < m -> rho i = rho j -> i = j.
Definition rel (p pc : pauli) : Prop := forall j, j < m -> nth (rho j) (fst p) false = nth j (fst pc) false /\ nth (rho j) (snd p) false = nth j (snd pc) false.
Lemma rel_neq j q : j < m -> q < m -> (rho j =? rho q) = (j =? q).
Proof. intros Hj Hq. destruct (Nat.eqb_spec j q) as [->|N]; [apply Nat.eqb_refl|]. apply Nat.eqb_neq. intros E. apply N, R2; auto. Qed.
Lemma rel_step i p pc : p_ok n p -> p_ok m pc -> ins_ok m i -> rel p pc -> rel (fstep (ren rho beta i) p) (fstep i pc) /\ frec (ren rho beta i) p = frec i pc.
Proof. intros [L1 L2] [M1 M2] Hi R. destruct i as [q|c t|q b]; cbn [ren fstep frec ins_ok] in *.
  - split; auto. intros j Hj. cbn [fst snd]. rewrite !nth_set_nth by (unfold vec in *; try lia; rewrite ?L1, ?L2; apply R1; lia). rewrite rel_neq by auto. destruct (R j Hj) as [-> ->]. destruct (R q Hi) as [-> ->]. auto.
  - destruct Hi as (Hc & Ht & N). split; auto. intros j Hj. cbn [fst snd]. rewrite !nth_cxv by (unfold vec in *; try lia; rewrite ?L1, ?L2; apply R1; lia). rewrite !rel_neq by auto. destruct (R j Hj) as [-> ->]. destruct (R c Hc) as [-> ->]. destruct (R t Ht) as [-> ->]. auto.
  - split; auto. now destruct (R q Hi) as [-> _]. Qed.
Lemma rel_mul p pc q qc : p_ok n p -> p_ok m pc -> p_ok n q -> p_ok m qc -> rel p pc -> rel q qc -> rel (p_mul p q) (p_mul pc qc).
Proof. intros [L1 L2] [M1 M2] [L3 L4] [M3 M4] R Q j Hj. cbn [p_mul fst snd]. rewrite !nth_vxor by congruence. destruct (R j Hj) as [-> ->]. destruct (Q j Hj) as [-> ->]. auto. Qed.
Definition pull (p : pauli) : pauli := (map (fun j => nth (rho j) (fst p) false) (seq 0 m), map (fun j => nth (rho j) (snd p) false) (seq 0 m)).
Lemma pull_ok p : p_ok m (pull p).
Proof. split; cbn; now rewrite map_length, seq_length. Qed.
Lemma nth_tab (g : nat -> bool) j : j < m -> nth j (map g (seq 0 m)) false = g j.
Proof. intros Hj. rewrite (nth_indep _ false (g 0)) by (now rewrite map_length, seq_length). rewrite (map_nth g (seq 0 m) 0 j). now rewrite seq_nth. Qed.
Lemma pull_rel p : rel p (pull p).
Proof. intros j Hj. cbn [pull fst snd]. now rewrite !nth_tab. Qed.
Lemma pull_supp p i : ins_ok m i -> p_supp p (qubits (ren rho beta i)) -> p_supp (pull p) (qubits i).
Proof. intros Hi S j N. destruct (Nat.lt_ge_cases j m) as [Hj|Hj]; [|split; apply nth_overflow; cbn; rewrite map_length, seq_length; auto].
  cbn [pull fst snd]. rewrite !nth_tab by auto. apply S. intros I. apply N. destruct i as [q|c t|q b]; cbn [ren qubits ins_ok] in *.
  - destruct I as [E|[]]. left. apply R2; auto.
  - destruct Hi as (Hc & Ht & _). destruct I as [E|[E|[]]]; [left|right; left]; apply R2; auto.
  - destruct I as [E|[]]. left. apply R2; auto. Qed.
Lemma rel_faults k L F : with_faults n k (map (ren rho beta) L) F -> Forall (ins_ok m) L -> exists Fc, with_faults m k L Fc /\
  forall p pc, p_ok n p -> p_ok m pc -> rel p pc -> rel (fst (frame F p)) (fst (frame Fc pc)) /\ snd (frame F p) = snd (frame Fc pc).
Proof. revert k F. induction L as [|i L IH]; intros k F WF FO.
  - inversion WF; subst. exists []. split; [constructor|]. intros p pc _ _ R. auto.
  - apply Forall_cons_iff in FO as [Hi FO]. inversion WF as [|k' i' L' F' W'|k' i' q L' F' OK S W'|k' i' q L' F' OK S W']; subst; clear WF.
    + destruct (IH _ _ W' FO) as (Fc & WC & G). exists (inl i :: Fc). split; [now constructor|]. intros p pc PO PC R. cbn [frame fst snd]. destruct (rel_step i p pc PO PC Hi R) as (R' & ->).
      destruct (G _ _ (fstep_ok n _ p PO) (fstep_ok m i pc PC) R') as (G1 & ->). auto.
    + destruct (IH _ _ W' FO) as (Fc & WC & G). exists (inr (pull q) :: inl i :: Fc). split; [apply wf_before; auto using pull_ok, pull_supp|]. intros p pc PO PC R. cbn [frame fst snd].
      assert (RM := rel_mul q (pull q) p pc OK (pull_ok q) PO PC (pull_rel q) R). assert (O1 := p_mul_ok n q p OK PO). assert (O2 := p_mul_ok m (pull q) pc (pull_ok q) PC).
      destruct (rel_step i _ _ O1 O2 Hi RM) as (R' & ->). destruct (G _ _ (fstep_ok n _ _ O1) (fstep_ok m i _ O2) R') as (G1 & ->). auto.
    + destruct (IH _ _ W' FO) as (Fc & WC & G). exists (inl i :: inr (pull q) :: Fc). split; [apply wf_after; auto using pull_ok, pull_supp|]. intros p pc PO PC R. cbn [frame fst snd].
      destruct (rel_step i p pc PO PC Hi R) as (R' & ->). assert (RM := rel_mul q (pull q) _ _ OK (pull_ok q) (fstep_ok n _ p PO) (fstep_ok m i pc PC) (pull_rel q) R').
      destruct (G _ _ (p_mul_ok n _ _ OK (fstep_ok n _ p PO)) (p_mul_ok m _ _ (pull_ok q) (fstep_ok m i pc PC)) RM) as (G1 & ->). auto. Qed.
Lemma rel_light w p pc k : w <= m -> rel p pc -> light (seq 0 w) pc k -> light (map rho (seq 0 w)) p k.
Proof. intros Hw R. unfold light. intros H. eapply Nat.le_trans; [|exact H]. apply Nat.eq_le_incl. assert (G : forall l, (forall j, In j l -> j < m) -> length (filter (fun q => nth q (fst p) false || nth q (snd p) false) (map rho l)) = length (filter (fun q => nth q (fst pc) false || nth q (snd pc) false) l)).
  { induction l as [|j l IH]; intros B; auto. cbn [map filter]. destruct (R j (B j (or_introl eq_refl))) as [-> ->]. assert (IHl := IH (fun i Hi => B i (or_intror Hi))). destruct (_ || _); cbn [length]; congruence. }
  apply G. intros j Hj. apply in_seq in Hj. lia. Qed.
Lemma rel_stab z w : w <= m -> rel (stab_op n z (map rho (seq 0 w))) (stab_op m z (seq 0 w)).
Proof. intros Hw j Hj. assert (E : nth (rho j) (supp_vec n (map rho (seq 0 w))) false = nth j (supp_vec m (seq 0 w)) false).
  { rewrite !nth_supp by auto. destruct (memb j (seq 0 w)) eqn:E.
    - apply memb_in. apply memb_in in E. apply in_map, E.
    - apply memb_out. apply memb_out in E. intros I. apply E. apply in_map_iff in I as (i & Ei & Ii). apply R2 in Ei; auto; [now subst|]. apply in_seq in Ii. lia. }
  destruct z; cbn [stab_op fst snd]; rewrite ?E, ?nth_vzero; auto. Qed.
End Rename.

(** ** Effects of single faults *)
Definition effect : Type := pauli * list bool.
Definition eadd (e1 e2 : effect) : effect := (p_mul (fst e1) (fst e2), vxor (snd e1) (snd e2)).
Definition bits : list bool := [false; true].
Definition paulis (n : nat) (i : ins) : list pauli :=
  match i with
  | IH q | IM q _ => flat_map (fun x => map (fun y => (set_nth q x (vzero n), set_nth q y (vzero n))) bits) bits
  | ICX c t => flat_map (fun x1 => flat_map (fun x2 => flat_map (fun y1 => map (fun y2 => (set_nth c x1 (set_nth t x2 (vzero n)), set_nth c y1 (set_nth t y2 (vzero n)))) bits) bits) bits) bits
  end.
Lemma in_bits b : In b bits.
Proof. destruct b; cbn; auto. Qed.
Lemma supp1 n q (v : vec) : length v = n -> (forall j, ~ In j [q] -> nth j v false = false) -> v = set_nth q (nth q v false) (vzero n).
Proof. intros L H. apply (vec_ext n); auto; [rewrite set_nth_length, vzero_length; auto|]. intros j Hj. destruct (Nat.eq_dec j q) as [->|N]; [rewrite nth_set_nth_eq by (now rewrite vzero_length); auto|]. rewrite nth_set_nth_neq, nth_vzero by auto. apply H. intros [E|[]]. auto. Qed.
Lemma supp2 n c t (v : vec) : length v = n -> c <> t -> (forall j, ~ In j [c; t] -> nth j v false = false) -> v = set_nth c (nth c v false) (set_nth t (nth t v false) (vzero n)).
Proof. intros L N H. apply (vec_ext n); auto; [rewrite !set_nth_length, vzero_length; auto|]. intros j Hj. destruct (Nat.eq_dec j c) as [->|N1]; [rewrite nth_set_nth_eq by (now rewrite set_nth_length, vzero_length); auto|].
  rewrite nth_set_nth_neq by auto. destruct (Nat.eq_dec j t) as [->|N2]; [rewrite nth_set_nth_eq by (now rewrite vzero_length); auto|]. rewrite nth_set_nth_neq, nth_vzero by auto. apply H. intros [E|[E|[]]]; auto. Qed.
Lemma paulis_all n i p : ins_ok n i -> p_ok n p -> p_supp p (qubits i) -> In p (paulis n i).
Proof. intros Hi [L1 L2] S. assert (S1 : forall j, ~ In j (qubits i) -> nth j (fst p) false = false) by (intros j N; apply (S j N)). assert (S2 : forall j, ~ In j (qubits i) -> nth j (snd p) false = false) by (intros j N; apply (S j N)).
  destruct p as [v w]. cbn [fst snd] in *. destruct i as [q|c t|q b]; cbn [paulis qubits ins_ok] in *.
  - apply in_flat_map. exists (nth q v false). split; [apply in_bits|]. apply in_map_iff. exists (nth q w false). split; [|apply in_bits]. f_equal; symmetry; now apply supp1.
  - destruct Hi as (_ & _ & N). apply in_flat_map. exists (nth c v false). split; [apply in_bits|]. apply in_flat_map. exists (nth t v false). split; [apply in_bits|]. apply in_flat_map. exists (nth c w false). split; [apply in_bits|].
    apply in_map_iff. exists (nth t w false). split; [|apply in_bits]. f_equal; symmetry; now apply supp2.
  - apply in_flat_map. exists (nth q v false). split; [apply in_bits|]. apply in_map_iff. exists (nth q w false). split; [|apply in_bits]. f_equal; symmetry; now apply supp1. Qed.
Definition pad (i : ins) (e : effect) : effect := (fst e, repeat false (measurements [i]) ++ snd e).
Fixpoint effects (n : nat) (L : list ins) : list effect :=
  match L with
  | [] => []
  | i :: L' => map (fun p => frame (map inl (i :: L')) p) (paulis n i) ++ map (fun p => pad i (frame (map inl L') p)) (paulis n i) ++ map (pad i) (effects n L')
  end.
Lemma fstep_mul n i p q : ins_ok n i -> p_ok n p -> p_ok n q -> fstep i (p_mul p q) = p_mul (fstep i p) (fstep i q) /\ frec i (p_mul p q) = vxor (frec i p) (frec i q).
Proof. intros Hi [L1 L2] [M1 M2]. destruct i as [h|c t|h b]; cbn [fstep frec p_mul fst snd ins_ok] in *; unfold p_mul; cbn [fst snd].
  - split; auto. rewrite !nth_vxor by congruence. rewrite !(set_vxor n) by auto. reflexivity.
  - destruct Hi as (Hc & Ht & N). split; auto. rewrite !(cxv_vxor n) by auto. reflexivity.
  - split; auto. rewrite nth_vxor by congruence. reflexivity. Qed.
Lemma vxor_app a b c d : length a = length c -> vxor (a ++ b) (c ++ d) = vxor a c ++ vxor b d.
Proof. revert c. induction a as [|x a IH]; intros [|y c] H; try discriminate; auto. cbn. rewrite IH; auto. Qed.
Lemma frec_length i p : length (frec i p) = measurements [i].
Proof. now destruct i. Qed.
Lemma frame_mul n L : Forall (ins_ok n) L -> forall p q, p_ok n p -> p_ok n q -> frame (map inl L) (p_mul p q) = eadd (frame (map inl L) p) (frame (map inl L) q).
Proof. induction 1 as [|i L Hi HL IH]; intros p q PO QO; [reflexivity|]. cbn [map frame]. destruct (fstep_mul n i p q Hi PO QO) as [-> ->]. rewrite IH by auto using fstep_ok. unfold eadd. cbn [fst snd]. rewrite vxor_app; auto. now rewrite !frec_length. Qed.
Definition e_ok (n k : nat) (e : effect) : Prop := p_ok n (fst e) /\ length (snd e) = k.
Definition esum (e0 : effect) (es : list effect) : effect := fold_left eadd es e0.
Lemma pad_add i e1 e2 b : length b = measurements [i] -> eadd (fst e1, b ++ snd e1) (pad i e2) = (fst (eadd e1 e2), b ++ snd (eadd e1 e2)).
Proof. intros L. unfold eadd, pad. cbn [fst snd]. rewrite vxor_app by (now rewrite L, repeat_length). f_equal. f_equal. rewrite <- L. change (repeat false (length b)) with (vzero (length b)). now apply vxor_zero_r. Qed.
Lemma pad_sum i b es : length b = measurements [i] -> forall e0, esum (fst e0, b ++ snd e0) (map (pad i) es) = (fst (esum e0 es), b ++ snd (esum e0 es)).
Proof. intros L. induction es as [|e es IH]; intros e0; auto. cbn [map esum fold_left]. rewrite pad_add by auto. apply (IH (eadd e0 e)). Qed.
Lemma eadd_comm n k e1 e2 : e_ok n k e1 -> e_ok n k e2 -> eadd e1 e2 = eadd e2 e1.
Proof. intros [[A1 A2] A3] [[B1 B2] B3]. unfold eadd, p_mul. cbn [fst snd]. now rewrite (vxor_comm (fst (fst e1))), (vxor_comm (snd (fst e1))), (vxor_comm (snd e1)). Qed.
(** the outcome of several faults is the sum of the effects of single ones *)
Lemma wf_effects n k L F : with_faults n k L F -> Forall (ins_ok n) L -> exists es, length es = k /\ incl es (effects n L) /\ forall p, p_ok n p -> frame F p = esum (frame (map inl L) p) es.
Proof. induction 1 as [|k i L F W IH|k i q L F OK S W IH|k i q L F OK S W IH]; intros FO.
  - exists []. split; auto. split; [intros x []|]. auto.
  - apply Forall_cons_iff in FO as [Hi FO]. destruct (IH FO) as (es & H1 & H2 & H3). exists (map (pad i) es). split; [now rewrite map_length|]. split.
    + intros e He. apply in_map_iff in He as (e' & <- & I). cbn [effects]. rewrite !in_app_iff. right. right. apply in_map, H2, I.
    + intros p PO. cbn [frame map]. rewrite H3 by auto using fstep_ok. now rewrite pad_sum by (apply frec_length).
  - apply Forall_cons_iff in FO as [Hi FO]. destruct (IH FO) as (es & H1 & H2 & H3). exists (frame (map inl (i :: L)) q :: map (pad i) es). split; [cbn; now rewrite map_length, H1|]. split.
    + intros e [<-|He].
      * cbn [effects]. apply in_app_iff. left. apply in_map_iff. exists q. split; auto. now apply paulis_all.
      * apply in_map_iff in He as (e' & <- & I). cbn [effects]. rewrite !in_app_iff. right. right. apply in_map, H2, I.
    + intros p PO. cbn [esum fold_left]. rewrite <- (frame_mul n (i :: L)) by auto. cbn [frame map]. rewrite H3 by (apply fstep_ok, p_mul_ok; auto).
      assert (E : p_mul p q = p_mul q p) by (destruct PO, OK; unfold p_mul; now rewrite (vxor_comm (fst p)), (vxor_comm (snd p))). rewrite E. fold (esum (fst (frame (map inl L) (fstep i (p_mul q p))), frec i (p_mul q p) ++ snd (frame (map inl L) (fstep i (p_mul q p)))) (map (pad i) es)). now rewrite pad_sum by (apply frec_length).
  - apply Forall_cons_iff in FO as [Hi FO]. destruct (IH FO) as (es & H1 & H2 & H3). exists (pad i (frame (map inl L) q) :: map (pad i) es). split; [cbn; now rewrite map_length, H1|]. split.
    + intros e [<-|He].
      * cbn [effects]. rewrite !in_app_iff. right. left. apply in_map_iff. exists q. split; auto. now apply paulis_all.
      * apply in_map_iff in He as (e' & <- & I). cbn [effects]. rewrite !in_app_iff. right. right. apply in_map, H2, I.
    + intros p PO. cbn [esum fold_left frame map]. rewrite H3 by (apply p_mul_ok; auto using fstep_ok). rewrite pad_add by (apply frec_length). rewrite <- (frame_mul n L) by auto using fstep_ok.
      assert (E : p_mul (fstep i p) q = p_mul q (fstep i p)) by (destruct (fstep_ok n i p PO), OK; unfold p_mul; now rewrite (vxor_comm (fst (fstep i p))), (vxor_comm (snd (fstep i p)))). rewrite E.
      fold (esum (fst (frame (map inl L) (p_mul q (fstep i p))), frec i p ++ snd (frame (map inl L) (p_mul q (fstep i p)))) (map (pad i) es)). now rewrite pad_sum by (apply frec_length). Qed.

(** ** Checking a canonical gadget *)
Definition count (w : nat) (p : pauli) : nat := length (filter (fun q => nth q (fst p) false || nth q (snd p) false) (seq 0 w)).
Definition condb (m : nat) (z : bool) (w nf k : nat) (e : effect) : bool :=
  existsb (fun b => b) (firstn nf (snd e)) || (count w (fst e) <=? k) || (count w (p_mul (fst e) (stab_op m z (seq 0 w))) <=? k).
Definition eeq (e1 e2 : effect) : {e1 = e2} + {e1 <> e2}.
Proof. repeat decide equality. Defined.
Definition check1 (m : nat) (z : bool) (w nf : nat) (L : list ins) : bool := forallb (condb m z w nf 1) (effects m L).
Definition check2 (m : nat) (z : bool) (w nf : nat) (L : list ins) : bool :=
  let es := nodup eeq (effects m L) in forallb (fun e1 => forallb (fun e2 => condb m z w nf 2 (eadd e1 e2)) es) es.
Definition canonical (z : bool) (w nf : nat) (evs : list ev) : list ins := gadget z w 0 evs.
Lemma nodup_in_effects e es : In e es -> In e (nodup eeq es).
Proof. apply nodup_In. Qed.
Lemma light_count w p k : light (seq 0 w) p k <-> count w p <= k.
Proof. reflexivity. Qed.
Lemma condb_spec m z w nf k e : condb m z w nf k e = true -> existsb (fun b => b) (firstn nf (snd e)) = true \/ light (seq 0 w) (fst e) k \/ light (seq 0 w) (p_mul (fst e) (stab_op m z (seq 0 w))) k.
Proof. unfold condb. intros H. apply orb_true_iff in H as [H|H]; [apply orb_true_iff in H as [H|H]|].
  - left. exact H.
  - right. left. apply light_count, Nat.leb_le, H.
  - right. right. apply light_count, Nat.leb_le, H. Qed.
Lemma esum_id m L e : Forall (ins_ok m) L -> e_ok m (measurements L) e -> eadd (frame (map inl L) (p_id m)) e = e.
Proof. intros FO [PO LE]. rewrite frame_id by auto. unfold eadd. cbn [fst snd]. assert (E : p_mul (p_id m) (fst e) = fst e) by (destruct PO; unfold p_mul, p_id; cbn [fst snd]; rewrite !vxor_zero_l by auto; now destruct (fst e)). rewrite E.
  change (repeat false (measurements L)) with (vzero (measurements L)). rewrite vxor_zero_l by auto. now destruct e. Qed.
Lemma effects_ok m L : Forall (ins_ok m) L -> forall e, In e (effects m L) -> e_ok m (measurements L) e.
Proof. assert (PI : forall i p, In p (paulis m i) -> p_ok m p).
  { intros i p. destruct i as [q|c t|q b]; cbn [paulis]; rewrite !in_flat_map; intros H.
    - destruct H as (x & _ & H). apply in_map_iff in H as (y & <- & _). split; cbn; now rewrite set_nth_length, vzero_length.
    - destruct H as (x & _ & H). apply in_flat_map in H as (x2 & _ & H). apply in_flat_map in H as (x3 & _ & H). apply in_map_iff in H as (y & <- & _). split; cbn [fst snd]; now rewrite !set_nth_length, vzero_length.
    - destruct H as (x & _ & H). apply in_map_iff in H as (y & <- & _). split; cbn; now rewrite set_nth_length, vzero_length. }
  assert (IL : forall L, instrs (map inl L) = L) by (induction L0 as [|i L0 IH]; cbn; auto; fold (instrs (map inl L0)); now rewrite IH).
  assert (FR : forall L p, Forall (ins_ok m) L -> p_ok m p -> e_ok m (measurements L) (frame (map inl L) p)).
  { intros L0 p FO PO. split; [apply frame_ok; auto; now apply Forall_map|]. now rewrite frame_flips, IL. }
  induction 1 as [|i L Hi HL IH]; [intros e []|]. intros e H. cbn [effects] in H. rewrite !in_app_iff in H. destruct H as [H|[H|H]].
  - apply in_map_iff in H as (p & <- & I). apply FR; [now constructor|exact (PI _ _ I)].
  - apply in_map_iff in H as (p & <- & I). destruct (FR L p HL (PI _ _ I)) as [H1 H2]. split; [exact H1|]. cbn [pad snd]. rewrite app_length, repeat_length, H2. change (i :: L) with ([i] ++ L). now rewrite measurements_app.
  - apply in_map_iff in H as (e' & <- & I). destruct (IH e' I) as [H1 H2]. split; [exact H1|]. cbn [pad snd]. rewrite app_length, repeat_length, H2. change (i :: L) with ([i] ++ L). now rewrite measurements_app. Qed.
Definition ccond (m : nat) (z : bool) (w nf k : nat) (e : effect) : Prop := existsb (fun b => b) (firstn nf (snd e)) = true \/ light (seq 0 w) (fst e) k \/ light (seq 0 w) (p_mul (fst e) (stab_op m z (seq 0 w))) k.
Lemma check1_sound m z w nf L F : Forall (ins_ok m) L -> check1 m z w nf L = true -> with_faults m 1 L F -> ccond m z w nf 1 (frame F (p_id m)).
Proof. intros FO C WF. destruct (wf_effects m 1 L F WF FO) as (es & E1 & E2 & E3). rewrite E3 by apply p_id_ok. destruct es as [|e [|? ?]]; try discriminate. cbn [esum fold_left].
  rewrite esum_id; auto; [|apply effects_ok; auto; apply E2; left; auto]. apply condb_spec. apply (proj1 (forallb_forall _ _) C). apply E2. left; auto. Qed.
Lemma check2_sound m z w nf L F : Forall (ins_ok m) L -> check2 m z w nf L = true -> with_faults m 2 L F -> ccond m z w nf 2 (frame F (p_id m)).
Proof. intros FO C WF. destruct (wf_effects m 2 L F WF FO) as (es & E1 & E2 & E3). rewrite E3 by apply p_id_ok. destruct es as [|e [|e2 [|? ?]]]; try discriminate. cbn [esum fold_left].
  rewrite esum_id; auto; [|apply effects_ok; auto; apply E2; left; auto]. apply condb_spec. unfold check2 in C. cbn zeta in C.
  pose proof (proj1 (forallb_forall _ _) C e (nodup_in_effects _ _ (E2 e (or_introl eq_refl)))) as C1. cbn beta in C1. exact (proj1 (forallb_forall _ _) C1 e2 (nodup_in_effects _ _ (E2 e2 (or_intror (or_introl eq_refl))))). Qed.

Definition rho_of (stab : list nat) (a f0 j : nat) : nat := let w := length stab in if j <? w then nth j stab 0 else if j =? w then a else f0 + (j - w - 1).
Definition beta_of (b m0 i : nat) : nat := match i with 0 => b | S i => m0 + i end.
Lemma seq_map_nth (stab : list nat) a f0 : map (rho_of stab a f0) (seq 0 (length stab)) = stab.
Proof. apply (nth_ext _ _ 0 0); rewrite map_length, seq_length; auto. intros j Hj. rewrite (nth_indep _ 0 (rho_of stab a f0 0)) by (now rewrite map_length, seq_length). rewrite (map_nth (rho_of stab a f0) (seq 0 (length stab)) 0 j). rewrite seq_nth by auto. unfold rho_of. cbn [Nat.add]. destruct (Nat.ltb_spec j (length stab)); auto. lia. Qed.
Lemma ins_okb n i : (match i with IH q => q <? n | ICX c t => (c <? n) && (t <? n) && negb (c =? t) | IM q _ => q <? n end) = true -> ins_ok n i.
Proof. destruct i as [q|c t|q b]; cbn [ins_ok]; intros H; [now apply Nat.ltb_lt| |now apply Nat.ltb_lt]. apply andb_true_iff in H as [H H3]. apply andb_true_iff in H as [H1 H2]. apply Nat.ltb_lt in H1, H2. apply negb_true_iff, Nat.eqb_neq in H3. auto. Qed.
Definition all_okb (n : nat) (L : list ins) : bool := forallb (fun i => match i with IH q => q <? n | ICX c t => (c <? n) && (t <? n) && negb (c =? t) | IM q _ => q <? n end) L.
Lemma all_ok n L : all_okb n L = true -> Forall (ins_ok n) L.
Proof. intros H. apply Forall_forall. intros i I. apply ins_okb. exact (proj1 (forallb_forall _ _) H i I). Qed.

(** the canonical gadget decides fault tolerance of every instance *)
Lemma canonical_tolerates k n z stab a b f0 m0 nf evs Ec : let w := length stab in let m := w + 1 + nf in let Lc := gadget z w 0 Ec in
  k = 1 \/ k = 2 -> (if k =? 1 then check1 m z w nf Lc else check2 m z w nf Lc) = true -> all_okb m Lc = true -> gadget z a b evs = map (ren (rho_of stab a f0) (beta_of b m0)) Lc ->
  n = f0 + nf -> a < f0 -> NoDup stab -> (forall q, In q stab -> q < f0 /\ q <> a) -> ev_ok (seq f0 nf) [] evs -> datas evs = stab -> tolerates n stab a (seq f0 nf) (gadget z a b evs) k.
Proof. intros w m Lc. assert (Ew : length stab = w) by reflexivity. assert (Em : m = w + 1 + nf) by reflexivity. clearbody Lc m w. intros Hk C OKb EL En An ND HS OK DT. apply all_ok in OKb.
  assert (DO : data_ok n a (seq f0 nf) stab) by (intros q I; destruct (HS q I); split; [lia|split; auto]; intros J; apply in_seq in J; lia).
  assert (R1 : forall j, j < m -> rho_of stab a f0 j < n).
  { intros j Hj. unfold rho_of. rewrite Ew. destruct (Nat.ltb_spec j w) as [H|H]; [destruct (HS (nth j stab 0)); [apply nth_In; lia|lia]|]. destruct (Nat.eqb_spec j w); [lia|]. lia. }
  assert (R2 : forall i j, i < m -> j < m -> rho_of stab a f0 i = rho_of stab a f0 j -> i = j).
  { intros i j Hi Hj. unfold rho_of. rewrite Ew.
    assert (HN : forall i, i < w -> nth i stab 0 < f0 /\ nth i stab 0 <> a) by (intros k0 Hk0; apply HS, nth_In; lia).
    destruct (Nat.ltb_spec i w) as [H1|H1], (Nat.ltb_spec j w) as [H2|H2]; intros E.
    - apply (proj1 (NoDup_nth stab 0) ND); auto; lia.
    - destruct (HN i H1). destruct (Nat.eqb_spec j w); [contradiction|lia].
    - destruct (HN j H2). destruct (Nat.eqb_spec i w); [congruence|lia].
    - destruct (Nat.eqb_spec i w), (Nat.eqb_spec j w); lia. }
  apply (tolerates_intro n z).
  - rewrite <- DT. apply gadget_measures; auto.
    + lia.
    + intros f J. apply in_seq in J. lia.
    + intros J. apply in_seq in J. lia.
    + apply seq_NoDup.
    + now rewrite DT.
    + now rewrite DT.
  - lia.
  - exact DO.
  - rewrite EL. apply Forall_map. eapply Forall_impl; [|exact OKb]. intros i Hi. destruct i as [q|c t|q bb]; cbn [ren ins_ok] in *; auto. destruct Hi as (H1 & H2 & H3). split; [auto|]. split; [auto|]. auto.
  - rewrite EL. apply Forall_map. eapply Forall_impl; [|exact OKb]. intros i Hi.
    assert (G : forall j, j < m -> In (rho_of stab a f0 j) (stab ++ a :: seq f0 nf)).
    { intros j Hj. unfold rho_of. rewrite Ew. apply in_app_iff. destruct (Nat.ltb_spec j w); [left; apply nth_In; lia|]. right. destruct (Nat.eqb_spec j w); [left; auto|]. right. apply in_seq. lia. }
    destruct i as [q|c t|q bb]; cbn [ren qubits ins_ok] in *; intros r; [intros [<-|[]]|intros [<-|[<-|[]]]|intros [<-|[]]]; apply G; tauto.
  - intros F WF. cbn zeta. rewrite EL in WF. destruct (rel_faults n m (rho_of stab a f0) (beta_of b m0) R1 R2 k Lc F WF OKb) as (Fc & WC & G).
    assert (RI : rel m (rho_of stab a f0) (p_id n) (p_id m)) by (intros j Hj; cbn; rewrite !nth_vzero; auto). destruct (G (p_id n) (p_id m) (p_id_ok n) (p_id_ok m) RI) as (G1 & G2).
    assert (CC : ccond m z w nf k (frame Fc (p_id m))) by (destruct Hk as [-> | ->]; [apply (check1_sound m z w nf Lc)|apply (check2_sound m z w nf Lc)]; auto).
    assert (FOc : fok m Fc) by (apply (wf_fok m k Lc); auto). assert (POc := frame_ok m Fc FOc (p_id m) (p_id_ok m)).
    assert (FO : fok n F). { apply (wf_fok n k _ F WF). apply Forall_map. eapply Forall_impl; [|exact OKb]. intros i Hi. destruct i as [q|c t|q bb]; cbn [ren ins_ok] in *; auto. destruct Hi as (H1 & H2 & H3). split; [auto|]. split; [auto|]. auto. }
    assert (PO := frame_ok n F FO (p_id n) (p_id_ok n)).
    rewrite G2, seq_length. assert (ST := seq_map_nth stab a f0). rewrite Ew in ST. destruct CC as [CC|[CC|CC]]; [left; exact CC|right; left|right; right].
    + rewrite <- ST. apply (rel_light m _ w _ (fst (frame Fc (p_id m)))); auto. lia.
    + rewrite <- ST. apply (rel_light m _ w _ (p_mul (fst (frame Fc (p_id m))) (stab_op m z (seq 0 w)))); auto; [lia|]. apply (rel_mul n m); auto using stab_op_ok. apply rel_stab; auto. lia. Qed.
