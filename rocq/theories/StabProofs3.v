(** * StabProofs3: syndromes, stabilizer_equivalent, __eq__, and signed groups. *)
From Verif Require Export StabProofs2.

(** the constructed code has n-qubit generators l (as signed Paulis) *)
Definition code_gens (n : nat) (l : list sp) (c : stabcode) : Prop :=
  l <> [] /\ allq n l /\ sc_n c = n /\ sc_gens c = map binsp l /\ sc_sym c = map symp (map snd l) /\
  sc_k c = (Z.of_nat n - Z.of_nat (rk (2 * n + 1) (map binsp l)))%Z.

Lemma span_snoc_iff n M r v : wf n M -> length r = n -> length v = n -> (span n (M ++ [r]) v <-> span n M v \/ span n M (vxor r v)).
Proof. intros HM Hr Hv. rewrite (span_perm n (M ++ [r]) (r :: M)).
  - rewrite span_cons_iff by auto. tauto.
  - apply wf_app; split; auto; constructor; auto.
  - constructor; auto.
  - intros x. rewrite in_app_iff. simpl. tauto. Qed.

Lemma built_gens n l d Lz Lx : input_ok n l d Lz Lx -> code_gens n l (built n l d Lz Lx).
Proof. intros (Nl & Hq & _). repeat split; auto. Qed.

Lemma npWidth_binsp n l : l <> [] -> allq n l -> npWidth (map binsp l) = 2 * n + 1.
Proof. intros Nl H. destruct l as [|g l]; [congruence|]. inversion H; subst. unfold npWidth; simpl hd. apply binsp_length. Qed.

Lemma get_syndrome_spec w n l c e : (1 <= w)%Z -> code_gens n l c -> e <> [] -> length (snd (parse e)) = n ->
  get_syndrome w c e = Ret (map (fun g => Z.b2z (sympl (snd g) (snd (parse e)))) l).
Proof. intros Hw (Nl & Hq & Hn & Hg & Hs & _) Ne Hl. unfold get_syndrome, pauli_to_symplectic_vec.
  rewrite pauli_to_binary_parse by auto. cbn [pbind]. unfold binsp at 1. rewrite removelast_bin, Hs.
  rewrite (smm_spec w n) by (auto using allq_snd; destruct l; congruence || discriminate). now rewrite map_map. Qed.

Lemma sympl_vxor_r P Q R : length P = length Q -> length Q = length R -> sympl P (snd (pmul Q R)) = xorb (sympl P Q) (sympl P R).
Proof. intros H1 H2. unfold sympl.
  assert (map xbit (snd (pmul Q R)) = vxor (map xbit Q) (map xbit R) /\ map zbit (snd (pmul Q R)) = vxor (map zbit Q) (map zbit R)) as [-> ->].
  { pose proof (symp_vxor Q R H2) as E. unfold symp in E. rewrite vxor_app in E by (rewrite !map_length; auto).
    apply app_inj_len in E; auto. rewrite map_length, pmul_length by auto. rewrite (vxor_length' (length Q)); rewrite ?map_length; auto. }
  rewrite !dot_vxor_r by (rewrite !map_length; auto).
  destruct (dot (map xbit P) (map zbit Q)), (dot (map xbit P) (map zbit R)), (dot (map zbit P) (map xbit Q)), (dot (map zbit P) (map xbit R)); reflexivity. Qed.

Lemma get_syndrome_mul w n l c P Q sP sQ sR : (1 <= w)%Z -> code_gens n l c -> 0 < n -> length P = n -> length Q = n ->
  exists s t u, get_syndrome w c (print sP P) = Ret s /\ get_syndrome w c (print sQ Q) = Ret t /\
    get_syndrome w c (print sR (snd (pmul P Q))) = Ret u /\
    length s = length l /\ length t = length l /\ length u = length l /\
    forall i, i < length l -> nth i u 0%Z = ((nth i s 0 + nth i t 0) mod 2)%Z.
Proof. intros Hw HC Hn HP HQ.
  assert (NE : forall s R, length R = n -> print s R <> []).
  { intros s R HR E. destruct s, R; simpl in *; try discriminate; lia. }
  assert (PR : forall s R, length R = n -> snd (parse (print s R)) = R).
  { intros s R HR. change (print s R) with (printsp (s, R)). rewrite parse_print; auto. apply NE; auto. }
  assert (HPQ : length (snd (pmul P Q)) = n) by (rewrite pmul_length; lia).
  rewrite !(get_syndrome_spec w n l) by (auto; rewrite ?PR; auto). rewrite !PR by auto.
  eexists _, _, _. do 3 (split; [reflexivity|]). rewrite !map_length. do 3 (split; auto).
  intros i Hi. destruct HC as (Nl & Hq & _). pose proof (nth_In l (NoSign, []) Hi) as Hin. unfold allq in Hq. rewrite Forall_forall in Hq. specialize (Hq _ Hin).
  rewrite !(nth_indep _ 0%Z (Z.b2z (sympl (snd (nth i l (NoSign, []))) []))) by (rewrite map_length; auto).
  assert (NM : forall R, nth i (map (fun g : sp => Z.b2z (sympl (snd g) R)) l) (Z.b2z (sympl (snd (nth i l (NoSign, []))) [])) = Z.b2z (sympl (snd (nth i l (NoSign, []))) R)).
  { intros R. rewrite (nth_indep _ _ (Z.b2z (sympl (snd ((NoSign, []) : sp)) R))) by (rewrite map_length; auto).
    exact (map_nth (fun g : sp => Z.b2z (sympl (snd g) R)) l (NoSign, []) i). }
  rewrite !NM, sympl_vxor_r by lia.
  destruct (sympl _ P), (sympl _ Q); reflexivity. Qed.

(** *** stabilizer_equivalent *)
Lemma stab_equiv_spec n l c p1 p2 : code_gens n l c -> p1 <> [] -> p2 <> [] ->
  length (snd (parse p1)) = n -> length (snd (parse p2)) = n ->
  exists b, stabilizer_equivalent c p1 p2 = Ret b /\
    (b = true <-> span (2*n+1) (map binsp l) (binsp (parse p2)) \/ span (2*n+1) (map binsp l) (vxor (binsp (parse p1)) (binsp (parse p2)))).
Proof. intros (Nl & Hq & Hn & Hg & Hs & _) N1 N2 L1 L2. unfold stabilizer_equivalent.
  rewrite !pauli_to_binary_parse by auto. cbn [pbind]. rewrite Hg.
  set (G := map binsp l). set (v1 := binsp (parse p1)). set (v2 := binsp (parse p2)).
  assert (W : wf (2*n+1) G) by now apply wf_binsp.
  assert (E1 : length v1 = 2*n+1) by (unfold v1; rewrite binsp_length; lia).
  assert (E2 : length v2 = 2*n+1) by (unfold v2; rewrite binsp_length; lia).
  assert (EW : npWidth G = 2*n+1) by (now apply npWidth_binsp).
  assert (EA : npWidth (G ++ [v1]) = 2*n+1). { unfold npWidth in *. subst G. destruct l; [congruence|]. exact EW. }
  assert (EA2 : npWidth ((G ++ [v1]) ++ [v2]) = 2*n+1). { unfold npWidth in *. subst G. destruct l; [congruence|]. exact EW. }
  assert (EV1 : npWidth [v1] = 2*n+1) by exact E1. assert (EV2 : npWidth [v2] = 2*n+1) by exact E2.
  unfold vstack. rewrite EW, EV1, Nat.eqb_refl. cbn [pbind]. rewrite EA, EV2, Nat.eqb_refl. cbn [pbind]. rewrite EA2, ?EA.
  eexists. split; [reflexivity|]. rewrite Nat.eqb_eq.
  assert (W1 : wf (2*n+1) (G ++ [v1])) by (apply wf_app; split; auto; constructor; auto).
  rewrite rk_snoc by auto.
  rewrite span_snoc_iff by auto. tauto. Qed.

Lemma stab_equiv_mismatch n l c p1 p2 : code_gens n l c -> p1 <> [] -> p2 <> [] ->
  (length (snd (parse p1)) <> n \/ length (snd (parse p2)) <> n) -> stabilizer_equivalent c p1 p2 = Raise ValueError.
Proof. intros (Nl & Hq & Hn & Hg & Hs & _) N1 N2 L. unfold stabilizer_equivalent.
  rewrite !pauli_to_binary_parse by auto. cbn [pbind]. rewrite Hg.
  unfold vstack. rewrite (npWidth_binsp n l) by auto. unfold npWidth at 1; simpl hd. rewrite binsp_length.
  destruct (Nat.eqb_spec (2*n+1) (2 * length (snd (parse p1)) + 1)) as [E|]; [|reflexivity]. cbn [pbind].
  assert (EA : npWidth (map binsp l ++ [binsp (parse p1)]) = 2*n+1).
  { pose proof (npWidth_binsp n l Nl Hq). unfold npWidth in *. destruct l; [congruence|]. assumption. }
  rewrite EA. unfold npWidth at 1; simpl hd. rewrite binsp_length.
  destruct (Nat.eqb_spec (2*n+1) (2 * length (snd (parse p2)) + 1)) as [E'|]; [|reflexivity]. lia. Qed.

(** *** __eq__ *)
Lemma code_eq_spec n l1 l2 c1 c2 : code_gens n l1 c1 -> code_gens n l2 c2 ->
  exists b, code_eq c1 c2 = Ret b /\
   (b = true <-> forall v, span (2*n+1) (map binsp l1) v <-> span (2*n+1) (map binsp l2) v).
Proof. intros (N1 & Q1 & _ & G1 & _) (N2 & Q2 & _ & G2 & _). unfold code_eq. rewrite G1, G2.
  rewrite !(npWidth_binsp n) by auto. set (A := map binsp l1). set (B := map binsp l2).
  assert (WA : wf (2*n+1) A) by now apply wf_binsp. assert (WB : wf (2*n+1) B) by now apply wf_binsp.
  assert (WAB : wf (2*n+1) (A ++ B)) by (apply wf_app; auto).
  destruct (Nat.eqb_spec (rk (2*n+1) A) (rk (2*n+1) B)) as [E|E].
  - unfold vstack. unfold A at 1. unfold B at 1. rewrite !(npWidth_binsp n) by auto. rewrite Nat.eqb_refl. cbn [pbind].
    assert (npWidth (A ++ B) = 2*n+1) as ->.
    { pose proof (npWidth_binsp n l1 N1 Q1). unfold npWidth, A in *. destruct l1; [congruence | assumption]. }
    eexists; split; [reflexivity|]. rewrite Nat.eqb_eq. split.
    + intros R. symmetry in R. pose proof (proj1 (rk_app_iff _ _ _ WA WB) R) as R2.
      intros v. symmetry. apply rk_eq_span; auto.
    + intros S. symmetry. apply rk_app_iff; auto. intros v Hv. apply S. apply span_in; auto.
  - eexists; split; [reflexivity|]. split; [discriminate|]. intros S. exfalso. apply E. apply rk_span; auto. Qed.

Lemma code_eq_widths n1 n2 l1 l2 c1 c2 : code_gens n1 l1 c1 -> code_gens n2 l2 c2 -> n1 <> n2 ->
  code_eq c1 c2 = if Nat.eqb (rk (2*n1+1) (map binsp l1)) (rk (2*n2+1) (map binsp l2)) then Raise ValueError else Ret false.
Proof. intros (N1 & Q1 & _ & G1 & _) (N2 & Q2 & _ & G2 & _) D. unfold code_eq. rewrite G1, G2.
  rewrite (npWidth_binsp n1), (npWidth_binsp n2) by auto. unfold vstack. rewrite (npWidth_binsp n1), (npWidth_binsp n2) by auto.
  destruct (Nat.eqb_spec (2*n1+1) (2*n2+1)); [lia|]. reflexivity. Qed.
