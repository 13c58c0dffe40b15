(** * Z3Proofs: meaning of the symbolic helpers *)
From Verif Require Export Z3Model PrepProofs3.
Local Open Scope nat_scope.

Section S.
Context {V W : Type}.
Implicit Types a : asg V W.
Definition evec a (v : svec V W) : vec := map (seval a) v.
Lemma evec_length a v : length (evec a v) = length v.
Proof. apply map_length. Qed.
Lemma nth_evec a v i : nth i (evec a v) false = seval a (nth i v (Con false)).
Proof. unfold evec. change false with (seval a (Con false)) at 1. now rewrite map_nth. Qed.
Lemma sym_add_eval a x y : seval a (sym_add x y) = xorb (seval a x) (seval a y).
Proof. destruct x as [[]|], y as [[]|]; unfold seval; cbn; auto; destruct (eval a e); auto. Qed.
Lemma sym_eq_eval a x y : eval a (sym_eq x y) = Bool.eqb (seval a x) (seval a y).
Proof. destruct x as [[]|], y as [[]|]; unfold seval; cbn; auto; destruct (eval a e); auto. Qed.
Lemma add_length (v1 v2 : svec V W) : length (symbolic_vector_add v1 v2) = length v1.
Proof. unfold symbolic_vector_add. now rewrite map_length, seq_length. Qed.
Lemma add_eval a v1 v2 : length v1 = length v2 -> evec a (symbolic_vector_add v1 v2) = vxor (evec a v1) (evec a v2).
Proof. intros H. apply (vec_ext (length v1)); [now rewrite evec_length, add_length|apply vxor_length'; rewrite evec_length; auto|].
  intros i Hi. rewrite nth_vxor by (rewrite !evec_length; auto). rewrite !nth_evec. unfold symbolic_vector_add.
  rewrite nth_indep with (d' := sym_add (nth 0 v1 (Con false)) (nth 0 v2 (Con false))) by (rewrite map_length, seq_length; auto).
  rewrite (map_nth (fun i => sym_add (nth i v1 (Con false)) (nth i v2 (Con false)))), seq_nth by auto. apply sym_add_eval. Qed.
Lemma mult_length v (s : sym V W) : length (symbolic_scalar_mult v s) = length v.
Proof. apply map_length. Qed.
Lemma mult_eval a v (s : sym V W) : evec a (symbolic_scalar_mult v s) = if seval a s then v else vzero (length v).
Proof. unfold evec, symbolic_scalar_mult. rewrite map_map. induction v as [|b v IH]; cbn [map length]; [destruct (seval a s); auto|].
  rewrite IH. destruct b, (seval a s) eqn:E; cbn; auto. Qed.
Lemma eq_eval a v1 v2 : length v1 = length v2 -> (eval a (symbolic_vector_eq v1 v2) = true <-> evec a v1 = evec a v2).
Proof. intros H. unfold symbolic_vector_eq. cbn [eval]. rewrite forallb_forall. split.
  - intros F. apply (vec_ext (length v1)); [apply evec_length|now rewrite evec_length|]. intros i Hi. rewrite !nth_evec.
    specialize (F (sym_eq (nth i v1 (Con false)) (nth i v2 (Con false)))). rewrite sym_eq_eval in F. apply eqb_prop. apply F.
    apply (in_map (fun i => sym_eq (nth i v1 (Con false)) (nth i v2 (Con false)))), in_seq. lia.
  - intros E f Hf. apply in_map_iff in Hf as (i & <- & Hi). rewrite sym_eq_eval, <- !nth_evec, E. apply eqb_reflx. Qed.
Lemma stab_fold a n (gens : mat) (meas : list (sym V W)) : wf n gens -> length meas = length gens -> forall k acc, length acc = n ->
  forall s, s + k = length gens -> 
  let r := fold_left (fun acc i => symbolic_vector_add acc (symbolic_scalar_mult (nth (S i) gens []) (nth (S i) meas (Con false)))) (seq (s - 1) k) acc in
  1 <= s -> length r = n /\ evec a r = vxor (evec a acc) (lincomb n (skipn s (evec a meas)) (skipn s gens)).
Proof. intros WG LM. induction k as [|k IH]; intros acc La s Es; cbn [seq fold_left]; intros Hs.
  - split; auto. rewrite !skipn_all2 by (rewrite ?evec_length; unfold mat, vec in *; lia). cbn [lincomb]. symmetry. apply vxor_zero_r. now rewrite evec_length.
  - replace (S (s - 1)) with (S s - 1) by lia. set (acc1 := symbolic_vector_add _ _). assert (L1 : length acc1 = n) by (unfold acc1; now rewrite add_length).
    destruct (IH acc1 L1 (S s) ltac:(lia) ltac:(lia)) as [A B]. split; auto. rewrite B. replace (S s - 1) with s in * by lia.
    assert (Ls : s < length gens) by (clear - Es; unfold mat, vec in *; lia). assert (Lg : length (nth s gens []) = n) by (apply (wf_in n gens); auto; now apply nth_In).
    unfold acc1. replace (S s - 1) with s by lia. rewrite add_eval by (rewrite mult_length; unfold vec in *; lia). rewrite mult_eval.
    assert (SK : forall (X : Type) (l : list X) d q, q < length l -> skipn q l = nth q l d :: skipn (S q) l).
    { clear. intros X l d. induction l as [|x l IH]; intros q Hq; cbn in Hq; [lia|]. destruct q; auto. cbn [skipn nth]. rewrite IH by lia. reflexivity. }
    rewrite (SK _ (evec a meas) false s) by (rewrite evec_length; unfold mat, vec in *; lia). rewrite (SK _ gens [] s) by auto. cbn [lincomb]. rewrite nth_evec, Lg, <- vxor_assoc.
    assert (LL : length (lincomb n (skipn (S s) (evec a meas)) (skipn (S s) gens)) = n). { apply lincomb_length. apply Forall_forall. intros r Hr. apply (wf_in n gens); auto. rewrite <- (firstn_skipn (S s) gens). apply in_app_iff. auto. }
    destruct (seval a (nth s meas (Con false))); auto. now rewrite (vxor_zero_l n) by auto. Qed.
Lemma vars_to_stab_eval a n (gens : mat) (meas : list (sym V W)) : wf n gens -> length meas = length gens -> gens <> [] ->
  length (vars_to_stab meas gens) = n /\ evec a (vars_to_stab meas gens) = lincomb n (evec a meas) gens.
Proof. intros WG LM NE. destruct gens as [|g gens]; [congruence|]. destruct meas as [|s meas]; [discriminate|]. unfold vars_to_stab.
  assert (Lg : length g = n) by (inversion WG; auto).
  destruct (stab_fold a n (g :: gens) (s :: meas) WG LM (length meas) (symbolic_scalar_mult g s) ltac:(now rewrite mult_length) 1 ltac:(cbn in *; lia) ltac:(lia)) as [A B].
  cbn [length nth] in *. rewrite Nat.sub_succ, Nat.sub_0_r. split; [exact A|]. etransitivity; [exact B|]. cbn [skipn evec map lincomb]. rewrite mult_eval.
  destruct (seval a s); auto. rewrite Lg. apply vxor_zero_l. apply lincomb_length. inversion WG; auto. Qed.
Lemma odd_overlap_eval a (v : svec V W) e : eval a (odd_overlap v e) = (length (filter (fun i => nth i (evec a v) false) (filter (fun i => nth i e false) (seq 0 (length e)))) =? 1).
Proof. unfold odd_overlap. cbn [eval]. f_equal. rewrite (filter_ext (fun i => nth i (evec a v) false) (fun i => seval a (nth i v (Con false)))) by (intros; apply nth_evec).
  induction (filter (fun i => nth i e false) (seq 0 (length e))) as [|i l IH]; auto. cbn [map filter]. fold (seval a (nth i v (Con false))). destruct (seval a _); cbn [length]; auto. Qed.
Lemma filter_filter {A} (f g : A -> bool) l : filter f (filter g l) = filter (fun x => g x && f x) l.
Proof. induction l as [|x l IH]; auto. cbn [filter]. destruct (g x) eqn:G; cbn [filter andb]; rewrite IH; auto. Qed.
(** an overlap of exactly one qubit is an odd overlap *)
Lemma odd_overlap_dot a (v : svec V W) e : length v = length e -> eval a (odd_overlap v e) = true -> dot (evec a v) e = true.
Proof. intros H E. rewrite odd_overlap_eval in E. apply Nat.eqb_eq in E. rewrite filter_filter in E.
  rewrite (dot_seq (length e)) by (rewrite ?evec_length; auto). rewrite (filter_ext _ (fun x => nth x e false && nth x (evec a v) false)) by (intros; apply andb_comm). now rewrite E. Qed.
Lemma evec_vars a (f : nat -> V) k : evec a (map (fun i => Sym (EVar (f i))) (seq 0 k)) = map (fun i => a_bool a (f i)) (seq 0 k).
Proof. unfold evec. rewrite map_map. reflexivity. Qed.
End S.
