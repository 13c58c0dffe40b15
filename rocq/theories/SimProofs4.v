(** * SimProofs4: the syndromes of the sampled records are those of the sampled data *)
From Coq Require Import Permutation.
From Verif Require Export SimProofs3.
Local Open Scope nat_scope.

Lemma sexec_app l1 : forall l2 o1 o2 psi, length o1 = length (records l1) -> sexec (l1 ++ l2) (o1 ++ o2) psi = sexec l2 o2 (sexec l1 o1 psi).
Proof. induction l1 as [|i l1 IHl]; intros l2 o1 o2 psi H.
  - destruct o1; [reflexivity|discriminate].
  - destruct i as [q|c t|q|q|q b|q b|q b|q t b]; cbn [app sexec]; try (now apply IHl); cbn [records flat_map app length] in H; (destruct o1 as [|o o1]; [discriminate|]); cbn [app hd tl]; apply IHl; injection H as H; exact H. Qed.
Lemma flip_ext n q a b : state_eq n a b -> state_eq n (flipq q a) (flipq q b).
Proof. intros E x Hx. unfold flipq. apply E. now rewrite set_nth_length. Qed.
Lemma project_ext n q o a b : state_eq n a b -> state_eq n (project q o a) (project q o b).
Proof. intros E x Hx. unfold project. now rewrite E. Qed.
Lemma gate_ext n g a b : state_eq n a b -> state_eq n (apply_gate a g) (apply_gate b g).
Proof. intros E x Hx. unfold apply_gate. destruct g; rewrite !E; auto; rewrite ?cxv_length, ?set_nth_length; auto. Qed.
Lemma sexec_ext n l : forall outs a b, state_eq n a b -> state_eq n (sexec l outs a) (sexec l outs b).
Proof. induction l as [|i l IHl]; intros outs a b E; auto. destruct i as [q|c t|q|q|q d|q d|q d|q t d]; cbn [sexec]; apply IHl; auto using gate_ext.
  - destruct (hd false outs); auto using flip_ext, project_ext.
  - apply gate_ext. destruct (hd false outs); auto using flip_ext, project_ext, gate_ext. Qed.
(** qubits that are not mentioned stay |0> *)
Lemma clean_one n a psi : clean n [a] psi <-> forall x, length x = n -> nth a x false = true -> psi x = 0%Z.
Proof. unfold clean. split; intros H x Hx; [intros E; apply H; auto; exists a; split; [now left|auto]|]. intros (q & [<-|[]] & E). auto. Qed.
Lemma clean_gate n a psi q : q <> a -> clean n [a] psi -> clean n [a] (apply_gate psi (GH q)).
Proof. rewrite !clean_one. intros N H x Hx E. unfold apply_gate. rewrite !H; auto; try (now rewrite set_nth_length); try (now rewrite nth_set_nth_neq by auto). destruct (nth q x false); auto. Qed.
Lemma clean_project n a psi q o : clean n [a] psi -> clean n [a] (project q o psi).
Proof. rewrite !clean_one. intros H x Hx E. unfold project. rewrite H by auto. now destruct (Bool.eqb _ _). Qed.
Lemma clean_flip n a psi q : q <> a -> clean n [a] psi -> clean n [a] (flipq q psi).
Proof. rewrite !clean_one. intros N H x Hx E. unfold flipq. apply H; [now rewrite set_nth_length|]. now rewrite nth_set_nth_neq by auto. Qed.
Lemma clean_sexec n a l : ~ In a (sq l) -> (forall q, In q (sq l) -> q < n) -> forall outs psi, clean n [a] psi -> clean n [a] (sexec l outs psi).
Proof. induction l as [|i l IHl]; intros N B outs psi C; auto. change (sq (i :: l)) with (sop_qubits i ++ sq l) in *. assert (Nl : ~ In a (sq l)) by (intros J; apply N, in_app_iff; auto). assert (Bl : forall q, In q (sq l) -> q < n) by (intros q J; apply B, in_app_iff; auto).
  assert (Ni : forall q, In q (sop_qubits i) -> q <> a) by (intros q J ->; apply N, in_app_iff; auto). specialize (IHl Nl Bl).
  destruct i as [q|c t|q|q|q d|q d|q d|q t d]; cbn [sexec]; apply IHl; auto; cbn [sop_qubits In] in Ni.
  - apply clean_gate; auto.
  - rewrite clean_one in *. intros x Hx E. unfold apply_gate. apply C; [now rewrite cxv_length|]. rewrite nth_cxv; [|assert (t < n) by (apply B; cbn; auto); unfold vec in *; lia]. destruct (Nat.eqb_spec a t) as [->|]; auto. exfalso. apply (Ni t); auto.
  - destruct (hd false outs); auto using clean_flip, clean_project.
  - apply clean_gate; auto. destruct (hd false outs); auto 9 using clean_flip, clean_project, clean_gate. Qed.

Lemma sexec_cx_z l anc : forall outs psi, sexec (map (fun q => SCX q anc) l) outs psi = exec (map (fun q => ICX q anc) l) [] psi.
Proof. induction l as [|q l IHl]; intros outs psi; auto. cbn [map sexec exec]. apply IHl. Qed.
Lemma sexec_cx_x l anc : forall outs psi, sexec (map (fun q => SCX anc q) l) outs psi = exec (map (fun q => ICX anc q) l) [] psi.
Proof. induction l as [|q l IHl]; intros outs psi; auto. cbn [map sexec exec]. apply IHl. Qed.
Definition par (n : nat) (r x : vec) : bool := dot (supp_vec n (support r)) x.
Lemma gadget_datas n z anc r : anc < n -> (forall q, In q (support r) -> q < n /\ q <> anc) -> measures n z (support r) anc [] (gadget z anc 0 (map ED (support r))).
Proof. intros An B. rewrite <- (datas_map (support r)) at 1. apply gadget_measures; auto.
  - intros f [].
  - constructor.
  - assert (X := ok_datas (support r) [] [] [] ok_nil). rewrite app_nil_r in X. exact X.
  - rewrite datas_map. intros q I. destruct (B q I). auto.
  - rewrite datas_map. apply support_nodup. Qed.
(** measuring a Z check keeps the strings with that parity *)
Lemma zcheck n anc r o psi : anc < n -> (forall q, In q (support r) -> q < n /\ q <> anc) -> clean n [anc] psi -> exists c1 c2 : Z, (0 < c1)%Z /\ (0 < c2)%Z /\
  forall x, length x = n -> (c1 * sexec (check_ops false anc r) [o] psi x = if nth anc x false then 0 else c2 * (if Bool.eqb (par n r x) o then psi x else 0))%Z.
Proof. intros An B C. destruct (gadget_datas n true anc r An B) as (_ & c1 & c2 & P1 & P2 & M). exists c1, (c2 * 2)%Z. split; auto. split; [lia|]. intros x Hx.
  assert (S : sexec (check_ops false anc r) [o] psi = (if o then flipq anc (exec (gadget true anc 0 (map ED (support r))) [o] psi) else exec (gadget true anc 0 (map ED (support r))) [o] psi)).
  { unfold check_ops, gadget. rewrite comp_datas. cbn [app]. change [o] with ([] ++ [o]) at 1. rewrite sexec_app; [|assert (E : forall l, records (map (fun q => SCX q anc) l) = []) by (induction l; auto); now rewrite E].
    unfold ancilla_cnot. change [o] with ([] ++ [o]) at 2 3. rewrite exec_app; [|assert (E : forall l, measurements (map (fun q => ICX q anc) l) = 0) by (induction l; auto); now rewrite E]. rewrite sexec_cx_z. cbn [sexec exec hd tl]. reflexivity. }
  assert (M' := fun y Hy => M psi [] o C eq_refl y Hy). cbn [app existsb forallb andb] in M'.
  assert (MZ : forall y, length y = n -> measured n true (support r) o psi y = (2 * (if Bool.eqb (par n r y) o then psi y else 0))%Z).
  { intros y Hy. unfold measured, op_Z, par. destruct (dot (supp_vec n (support r)) y), o; cbn [Bool.eqb]; lia. }
  rewrite S. destruct o.
  - unfold flipq. rewrite M' by (now rewrite set_nth_length). rewrite nth_set_nth by (unfold vec in *; lia). rewrite Nat.eqb_refl. destruct (nth anc x false) eqn:E; cbn [negb Bool.eqb]; [reflexivity|].
    rewrite MZ by (now rewrite !set_nth_length). replace (set_nth anc false (set_nth anc true x)) with x; [lia|]. rewrite <- E. apply (vec_ext n); rewrite ?set_nth_length; auto. intros j Hj. rewrite nth_set_nth by (rewrite set_nth_length; unfold vec in *; lia). rewrite nth_set_nth by (unfold vec in *; lia). destruct (Nat.eqb_spec j anc) as [->|]; auto.
  - rewrite M' by auto. destruct (nth anc x false) eqn:E; cbn [Bool.eqb]; [reflexivity|]. rewrite MZ by (now rewrite set_nth_length). replace (set_nth anc false x) with x by (rewrite <- E; symmetry; apply set_nth_same). lia. Qed.
(** measuring an X check adds the state and its image under the check *)
Lemma xcheck n anc r o psi : anc < n -> (forall q, In q (support r) -> q < n /\ q <> anc) -> clean n [anc] psi -> exists c1 c2 : Z, (0 < c1)%Z /\ (0 < c2)%Z /\
  forall x, length x = n -> (c1 * sexec (check_ops true anc r) [o] psi x = c2 * (psi (set_nth anc false x) + (if o then -1 else 1) * psi (vxor (set_nth anc false x) (supp_vec n (support r)))))%Z.
Proof. intros An B C. destruct (gadget_datas n false anc r An B) as (_ & c1 & c2 & P1 & P2 & M). exists c1, c2. split; auto. split; auto. intros x Hx.
  assert (S : sexec (check_ops true anc r) [o] psi = apply_gate (if o then flipq anc (exec (gadget false anc 0 (map ED (support r))) [o] psi) else exec (gadget false anc 0 (map ED (support r))) [o] psi) (GH anc)).
  { unfold check_ops, gadget. rewrite comp_datas. cbn [app sexec]. change [o] with ([] ++ [o]) at 1. rewrite sexec_app; [|assert (E : forall l, records (map (fun q => SCX anc q) l) = []) by (induction l; auto); now rewrite E].
    unfold ancilla_cnot. cbn [exec]. change [o] with ([] ++ [o]) at 2 3. rewrite exec_app; [|assert (E : forall l, measurements (map (fun q => ICX anc q) l) = 0) by (induction l; auto); now rewrite E]. rewrite sexec_cx_x. cbn [sexec exec hd tl]. reflexivity. }
  assert (M' := fun y Hy => M psi [] o C eq_refl y Hy). cbn [app existsb forallb andb] in M'.
  assert (RR : (forall b : bool, c1 * (if o then flipq anc (exec (gadget false anc 0 (map ED (support r))) [o] psi) else exec (gadget false anc 0 (map ED (support r))) [o] psi) (set_nth anc b x) = if b then 0 else c2 * measured n false (support r) o psi (set_nth anc false x))%Z).
  { assert (SS : forall b b', set_nth anc b (set_nth anc b' x) = set_nth anc b x).
    { intros b b'. apply (vec_ext n); rewrite ?set_nth_length; auto. intros j Hj. rewrite !nth_set_nth by (rewrite ?set_nth_length; unfold vec in *; lia). now destruct (j =? anc). }
    assert (NS : forall b, nth anc (set_nth anc b x) false = b) by (intros b; rewrite nth_set_nth by (unfold vec in *; lia); now rewrite Nat.eqb_refl).
    intros b. destruct o.
    - unfold flipq. rewrite NS, SS. rewrite M' by (now rewrite set_nth_length). rewrite NS, SS. destruct b; cbn [negb Bool.eqb]; auto.
    - rewrite M' by (now rewrite set_nth_length). rewrite NS, SS. destruct b; cbn [Bool.eqb]; auto. }
  rewrite S. cbn [apply_gate]. rewrite Z.mul_add_distr_l. rewrite Z.mul_assoc, (Z.mul_comm c1 (if nth anc x false then _ else _)), <- Z.mul_assoc. rewrite (RR false), (RR true). rewrite Z.mul_0_r, Z.add_0_r. unfold measured, op_X. reflexivity. Qed.
