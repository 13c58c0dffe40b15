(** * FlagPauli: specification of faults - Pauli operators before or after the instructions of a circuit - and Pauli frames *)
From Verif Require Export FlagProofs3.
Local Open Scope nat_scope.

(** ** Specification *)
(** a Pauli operator on n qubits: its X part and its Z part *)
Definition pauli : Type := vec * vec.
Definition op_P (p : pauli) (psi : state) : state := op_Z (snd p) (op_X (fst p) psi).
Definition p_ok (n : nat) (p : pauli) : Prop := length (fst p) = n /\ length (snd p) = n.
Definition p_supp (p : pauli) (l : list nat) : Prop := forall q, ~ In q l -> nth q (fst p) false = false /\ nth q (snd p) false = false.
Definition p_weight (p : pauli) : nat := weight (map (fun b => fst b || snd b) (combine (fst p) (snd p))).
Definition p_mul (p q : pauli) : pauli := (vxor (fst p) (fst q), vxor (snd p) (snd q)).
(** execution of a circuit with Pauli operators in it *)
Fixpoint execf (l : list (ins + pauli)) (outs : list bool) (psi : state) : state :=
  match l with
  | [] => psi
  | inr p :: l' => execf l' outs (op_P p psi)
  | inl (IH q) :: l' => execf l' outs (apply_gate psi (GH q))
  | inl (ICX c t) :: l' => execf l' outs (apply_gate psi (GCX c t))
  | inl (IM q _) :: l' => execf l' (tl outs) (project q (hd false outs) psi)
  end.
Definition qubits (i : ins) : list nat := match i with IH q => [q] | ICX c t => [c; t] | IM q _ => [q] end.
(** F is the circuit L with k faults: each acts on the qubits of an instruction, before or after it *)
Inductive with_faults (n : nat) : nat -> list ins -> list (ins + pauli) -> Prop :=
| wf_nil : with_faults n 0 [] []
| wf_fine k i L F : with_faults n k L F -> with_faults n k (i :: L) (inl i :: F)
| wf_before k i p L F : p_ok n p -> p_supp p (qubits i) -> with_faults n k L F -> with_faults n (S k) (i :: L) (inr p :: inl i :: F)
| wf_after k i p L F : p_ok n p -> p_supp p (qubits i) -> with_faults n k L F -> with_faults n (S k) (i :: L) (inl i :: inr p :: F).
(** L measures stab with ancilla a and flags fl and tolerates k faults: whenever all flags read 0 although k faults happened, the state is that of the fault-free circuit (with a possibly
    different ancilla outcome), up to an error on at most k of the qubits of stab and an error on the ancilla and the flags - or the flags cannot all read 0 *)
Definition equal_up_to_sign (n : nat) (psi phi : state) : Prop := exists s : Z, (s = 1 \/ s = -1)%Z /\ forall x, length x = n -> psi x = (s * phi x)%Z.
Definition tolerates (n : nat) (stab : list nat) (a : nat) (fl : list nat) (L : list ins) (k : nat) : Prop :=
  forall F, with_faults n k L F -> let quiet := repeat false (length fl) in
    (forall psi o x, clean n (a :: fl) psi -> length x = n -> execf F (quiet ++ [o]) psi x = 0%Z) \/
    exists d r e, p_ok n d /\ p_ok n r /\ p_supp d stab /\ p_supp r (a :: fl) /\ p_weight d <= k /\
      forall psi o, clean n (a :: fl) psi -> equal_up_to_sign n (execf F (quiet ++ [o]) psi) (op_P (p_mul d r) (exec L (quiet ++ [xorb o e]) psi)).

(** ** Pauli frames *)
Definition ins_ok (n : nat) (i : ins) : Prop := match i with IH q => q < n | ICX c t => c < n /\ t < n /\ c <> t | IM q _ => q < n end.
Definition fstep (i : ins) (p : pauli) : pauli :=
  match i with
  | IH q => (set_nth q (nth q (snd p) false) (fst p), set_nth q (nth q (fst p) false) (snd p))
  | ICX c t => (cxv c t (fst p), cxv t c (snd p))
  | IM _ _ => p
  end.
Definition frec (i : ins) (p : pauli) : list bool := match i with IM q _ => [nth q (fst p) false] | _ => [] end.
Fixpoint frame (F : list (ins + pauli)) (p : pauli) : pauli * list bool :=
  match F with
  | [] => (p, [])
  | inr q :: F' => frame F' (p_mul q p)
  | inl i :: F' => let r := frame F' (fstep i p) in (fst r, frec i p ++ snd r)
  end.
Definition instrs (F : list (ins + pauli)) : list ins := flat_map (fun e => match e with inl i => [i] | inr _ => [] end) F.
Definition fok (n : nat) (F : list (ins + pauli)) : Prop := Forall (fun e => match e with inl i => ins_ok n i | inr p => p_ok n p end) F.
Fixpoint xouts (outs flips : list bool) : list bool := match flips with [] => outs | b :: flips' => xorb (hd false outs) b :: xouts (tl outs) flips' end.

Lemma eus_refl n a b : state_eq n a b -> equal_up_to_sign n a b.
Proof. intros E. exists 1%Z. split; auto. intros x Hx. rewrite E by auto. lia. Qed.
Lemma eus_trans n a b c : equal_up_to_sign n a b -> equal_up_to_sign n b c -> equal_up_to_sign n a c.
Proof. intros (s & Hs & E) (t & Ht & G). exists (s * t)%Z. split; [destruct Hs, Ht; subst; auto|]. intros x Hx. rewrite E, G by auto. lia. Qed.
Lemma eus_sym n a b : equal_up_to_sign n a b -> equal_up_to_sign n b a.
Proof. intros (s & Hs & E). exists s. split; auto. intros x Hx. rewrite E by auto. destruct Hs; subst; lia. Qed.
Lemma op_P_eus n p a b : p_ok n p -> equal_up_to_sign n a b -> equal_up_to_sign n (op_P p a) (op_P p b).
Proof. intros [L1 L2] (s & Hs & E). exists s. split; auto. intros x Hx. unfold op_P, op_Z, op_X. rewrite E by (rewrite vxor_length; congruence). lia. Qed.
Lemma apply_eus n g a b : equal_up_to_sign n a b -> equal_up_to_sign n (apply_gate a g) (apply_gate b g).
Proof. intros (s & Hs & E). exists s. split; auto. intros x Hx. destruct g as [q|c t]; cbn [apply_gate].
  - rewrite !E by (now rewrite set_nth_length). destruct (nth q x false); lia.
  - apply E. now rewrite cxv_length. Qed.
Lemma project_eus n q o a b : equal_up_to_sign n a b -> equal_up_to_sign n (project q o a) (project q o b).
Proof. intros (s & Hs & E). exists s. split; auto. intros x Hx. unfold project. rewrite E by auto. destruct (Bool.eqb _ _); lia. Qed.
Lemma execf_eus n F : fok n F -> forall outs a b, equal_up_to_sign n a b -> equal_up_to_sign n (execf F outs a) (execf F outs b).
Proof. induction F as [|e F IH]; intros FO outs a b E; auto. apply Forall_cons_iff in FO as [He FO]. destruct e as [[q|c t|q m]|p]; cbn [execf]; apply IH; auto using apply_eus, project_eus, op_P_eus. Qed.

Lemma dot_set n z x q v : length z = n -> length x = n -> q < n -> dot z (set_nth q v x) = xorb (dot z x) (nth q z false && xorb v (nth q x false)).
Proof. intros Lz Lx Hq. assert (E : set_nth q v x = vxor x (if xorb v (nth q x false) then unitv n q else vzero n)).
  { apply (vec_ext n); [now rewrite set_nth_length|rewrite vxor_length; destruct (xorb v (nth q x false)); rewrite ?unitv_length, ?vzero_length; auto|]. intros j Hj. rewrite nth_set_nth by (unfold vec in *; lia).
    rewrite nth_vxor by (destruct (xorb v (nth q x false)); rewrite ?unitv_length, ?vzero_length; auto). destruct (xorb v (nth q x false)) eqn:EX; rewrite ?nth_unitv, ?nth_vzero by auto; destruct (Nat.eqb_spec j q) as [->|N]; rewrite ?xorb_false_r; auto; destruct v, (nth q x false); auto; discriminate. }
  rewrite E. rewrite dot_vxor_r by (destruct (xorb v (nth q x false)); rewrite ?unitv_length, ?vzero_length; congruence). destruct (xorb v (nth q x false)); [rewrite (dot_unitv_r n) by auto; now rewrite andb_true_r|]. rewrite (dot_comm z (vzero n)), dot_vzero_l'. now rewrite andb_false_r. Qed.
Lemma dot_set_l n z x q v : length z = n -> length x = n -> q < n -> dot (set_nth q v z) x = xorb (dot z x) (nth q x false && xorb v (nth q z false)).
Proof. intros. rewrite dot_comm, (dot_set n) by auto. now rewrite dot_comm. Qed.
Lemma step_cx n p c t psi : p_ok n p -> c < n -> t < n -> c <> t -> state_eq n (apply_gate (op_P p psi) (GCX c t)) (op_P (fstep (ICX c t) p) (apply_gate psi (GCX c t))).
Proof. intros [L1 L2] Hc Ht N x Hx. cbn [apply_gate fstep]. unfold op_P, op_Z, op_X. cbn [apply_gate fst snd]. rewrite (cxv_vxor n) by (rewrite ?cxv_length; auto). rewrite (cxv_invol c t (fst p)) by auto.
  replace (dot (cxv t c (snd p)) x) with (dot (snd p) (cxv c t x)); auto. rewrite <- (dot_cxv n t c (snd p) (cxv c t x)) by (rewrite ?cxv_length; auto). now rewrite cxv_invol. Qed.
Lemma set_vxor n q v w a b : length a = n -> length b = n -> q < n -> vxor (set_nth q v a) (set_nth q w b) = set_nth q (xorb v w) (vxor a b).
Proof. intros La Lb Hq. apply (vec_ext n); [rewrite vxor_length; rewrite !set_nth_length; congruence|rewrite set_nth_length, vxor_length; congruence|]. intros j Hj. rewrite nth_set_nth by (rewrite vxor_length; unfold vec in *; lia). rewrite !nth_vxor by (rewrite ?set_nth_length; congruence).
  rewrite !nth_set_nth by (unfold vec in *; lia). destruct (j =? q); auto. Qed.
Lemma set_nth_id q (x : vec) : set_nth q (nth q x false) x = x.
Proof. apply set_nth_same. Qed.
Lemma step_h n p q psi : p_ok n p -> q < n -> equal_up_to_sign n (apply_gate (op_P p psi) (GH q)) (op_P (fstep (IH q) p) (apply_gate psi (GH q))).
Proof. intros [L1 L2] Hq. exists (if nth q (fst p) false && nth q (snd p) false then -1 else 1)%Z. split; [destruct (_ && _); auto|]. intros x Hx. cbn [apply_gate fstep]. unfold op_P, op_Z, op_X. cbn [apply_gate fst snd].
  rewrite !(dot_set n) by auto. rewrite (dot_set_l n) by auto.
  assert (E : forall v, vxor (set_nth q v x) (fst p) = set_nth q (xorb v (nth q (fst p) false)) (vxor x (fst p))).
  { intros v. rewrite <- (set_nth_id q (fst p)) at 1. now apply (set_vxor n). }
  assert (E2 : forall v w, set_nth q v (vxor x (set_nth q w (fst p))) = set_nth q v (vxor x (fst p))).
  { intros v w. rewrite <- (set_nth_id q x) at 1. rewrite (set_vxor n) by auto. apply (vec_ext n); [rewrite !set_nth_length, vxor_length; congruence|rewrite set_nth_length, vxor_length; congruence|]. intros j Hj. rewrite !nth_set_nth by (rewrite ?set_nth_length, vxor_length; unfold vec in *; lia). destruct (j =? q); auto. }
  rewrite !E, !E2. assert (EN : nth q (vxor x (set_nth q (nth q (snd p) false) (fst p))) false = xorb (nth q x false) (nth q (snd p) false)) by (rewrite nth_vxor by (now rewrite set_nth_length, L1); rewrite nth_set_nth_eq by (unfold vec in *; lia); auto).
  rewrite EN. rewrite !xorb_false_l. 
  destruct (nth q x false), (nth q (fst p) false), (nth q (snd p) false), (dot (snd p) x); cbn [andb xorb]; lia. Qed.
Lemma step_m n p q o psi : p_ok n p -> q < n -> state_eq n (project q o (op_P p psi)) (op_P p (project q (xorb o (nth q (fst p) false)) psi)).
Proof. intros [L1 L2] Hq x Hx. unfold project, op_P, op_Z, op_X. rewrite nth_vxor by congruence. destruct (nth q x false), (nth q (fst p) false), o; cbn [xorb Bool.eqb]; lia. Qed.
Lemma step_p n p q psi : p_ok n p -> p_ok n q -> equal_up_to_sign n (op_P q (op_P p psi)) (op_P (p_mul q p) psi).
Proof. intros [L1 L2] [M1 M2]. exists (if dot (snd p) (fst q) then -1 else 1)%Z. split; [destruct (dot _ _); auto|]. intros x Hx. unfold op_P, op_Z, op_X, p_mul. cbn [fst snd].
  rewrite dot_vxor_l by congruence. rewrite dot_vxor_r by congruence. rewrite vxor_assoc. destruct (dot (snd p) (fst q)), (dot (snd q) x), (dot (snd p) x); cbn [xorb]; lia. Qed.
Lemma fstep_ok n i p : p_ok n p -> p_ok n (fstep i p).
Proof. intros [L1 L2]. destruct i; split; cbn [fstep fst snd]; rewrite ?set_nth_length, ?cxv_length; auto. Qed.
Lemma p_mul_ok n p q : p_ok n p -> p_ok n q -> p_ok n (p_mul p q).
Proof. intros [L1 L2] [M1 M2]. split; cbn [p_mul fst snd]; rewrite vxor_length; congruence. Qed.
Lemma frame_ok n F : fok n F -> forall p, p_ok n p -> p_ok n (fst (frame F p)).
Proof. induction F as [|e F IH]; intros FO p Hp; auto. apply Forall_cons_iff in FO as [He FO]. destruct e as [i|q]; cbn [frame fst]; apply IH; auto using fstep_ok, p_mul_ok. Qed.
Theorem frame_sound n F : fok n F -> forall p outs psi, p_ok n p ->
  equal_up_to_sign n (execf F outs (op_P p psi)) (op_P (fst (frame F p)) (exec (instrs F) (xouts outs (snd (frame F p))) psi)).
Proof. induction F as [|e F IH]; intros FO p outs psi Hp; [apply eus_refl; intros x _; reflexivity|]. apply Forall_cons_iff in FO as [He FO]. destruct e as [[q|c t|q m]|q]; cbn [execf frame instrs flat_map app exec frec fst snd]; fold (instrs F).
  - eapply eus_trans; [apply execf_eus; [exact FO|]; apply (step_h n p q psi Hp He)|]. apply IH; auto using fstep_ok.
  - eapply eus_trans; [apply execf_eus; [exact FO|]; apply eus_refl; destruct He as (H1 & H2 & H3); apply (step_cx n p c t psi Hp H1 H2 H3)|]. apply IH; auto using fstep_ok.
  - cbn [xouts hd tl]. eapply eus_trans; [apply execf_eus; [exact FO|]; apply eus_refl, (step_m n p q (hd false outs) psi Hp He)|]. apply IH; auto.
  - eapply eus_trans; [apply execf_eus; [exact FO|]; apply (step_p n p q psi Hp He)|]. apply IH; auto using p_mul_ok. Qed.
