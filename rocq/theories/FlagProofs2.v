(** * FlagProofs2: every gadget made of ancilla CNOTs and properly nested flags measures its stabilizer *)
From Verif Require Export FlagProofs.
Local Open Scope nat_scope.

Definition closes (evs : list ev) : nat := length (filter (fun e => match e with EC _ _ => true | _ => false end) evs).
Lemma comp_measurements z a evs : measurements (flat_map (comp z a) evs) = closes evs.
Proof. induction evs as [|e evs IH]; auto. cbn [flat_map]. rewrite measurements_app, IH. destruct e, z; reflexivity. Qed.
Lemma closes_ok fresh opn evs : ev_ok fresh opn evs -> closes evs = length fresh + length opn.
Proof. intros E. induction E; auto; unfold closes in *; cbn [filter length]; rewrite IHE; cbn [length]; [lia|]. rewrite !app_length. cbn [length]. lia. Qed.

Section Run.
Variables (n a : nat) (fl : list nat) (psi : state).
Hypothesis An : a < n.
Hypothesis Fn : forall f, In f fl -> f < n.
Hypothesis Na : ~ In a fl.

Lemma z_run evs fresh opn : ev_ok fresh opn evs -> forall S done c phi fo, zst n a fl psi c S fresh opn done phi -> data_ok n a fl (S ++ datas evs) -> NoDup (fresh ++ opn ++ done) -> incl (fresh ++ opn ++ done) fl ->
  length fo = closes evs ->
  if existsb (fun b => b) fo then state_eq n (exec (flat_map (comp true a) evs) fo phi) (fun _ => 0%Z)
  else exists done', zst n a fl psi (c * 2 ^ Z.of_nat (closes evs)) (S ++ datas evs) [] [] done' (exec (flat_map (comp true a) evs) fo phi) /\ Permutation.Permutation done' (fresh ++ opn ++ done).
Proof. induction 1 as [|q fresh opn evs E IH|f fresh opn evs E IH|f m fresh o1 o2 evs E IH]; intros S done c phi fo Z DO ND I L.
  - destruct fo; [|discriminate]. cbn. exists done. rewrite app_nil_r. split; auto. rewrite Z.mul_1_r. exact Z.
  - cbn [flat_map comp ancilla_cnot app exec datas]. fold (datas evs). change (S ++ q :: datas evs) with (S ++ [q] ++ datas evs). rewrite app_assoc.
    cbn [datas flat_map app] in DO. fold (datas evs) in DO. change (q :: datas evs) with ([q] ++ datas evs) in DO. rewrite app_assoc in DO.
    apply IH; auto. apply z_data; auto. intros r Hr. apply DO. apply in_app_iff; auto. intros f Hf ->. apply Na, I, Hf.
  - cbn [flat_map comp ancilla_cnot flag_init app exec datas] in *. fold (datas evs) in *.
    assert (DS : data_ok n a fl S) by (intros r Hr; apply DO; apply in_app_iff; auto).
    assert (P : Permutation.Permutation ((f :: fresh) ++ opn ++ done) (fresh ++ (f :: opn) ++ done)) by (cbn [app]; apply Permutation.Permutation_middle).
    pose proof (IH S done c (apply_gate (apply_gate phi (GH f)) (GCX f a)) fo) as X. 
    assert (Zo : zst n a fl psi c S fresh (f :: opn) done (apply_gate (apply_gate phi (GH f)) (GCX f a))) by (apply z_open; auto).
    specialize (X Zo DO (Permutation.Permutation_NoDup P ND)). assert (I' : incl (fresh ++ (f :: opn) ++ done) fl) by (intros r Hr; apply I; exact (Permutation.Permutation_in r (Permutation.Permutation_sym P) Hr)).
    specialize (X I' L). destruct (existsb _ fo); auto. destruct X as (d & X1 & X2). exists d. split; auto. rewrite X2. symmetry. exact P.
  - cbn [flat_map comp ancilla_cnot flag_measure app exec datas] in *. fold (datas evs) in *.
    assert (DS : data_ok n a fl S) by (intros r Hr; apply DO; apply in_app_iff; auto).
    assert (P : Permutation.Permutation (fresh ++ (o1 ++ f :: o2) ++ done) (fresh ++ (o1 ++ o2) ++ f :: done)).
    { rewrite close_perm. rewrite <- app_assoc. rewrite !app_assoc. rewrite <- (app_assoc (fresh ++ o1) o2 (f :: done)), <- (app_assoc (fresh ++ o1) o2 done). rewrite !app_assoc. apply Permutation.Permutation_middle. }
    destruct fo as [|o fo]; [discriminate|]. cbn [hd tl existsb].
    pose proof (z_close n a fl psi An Fn Na c S f fresh o1 o2 done phi o Z DS ND I) as ZC. destruct o; cbn [orb].
    + now apply exec_zero.
    + assert (L' : length fo = closes evs) by (unfold closes in *; cbn [filter length] in L; lia).
      assert (I' : incl (fresh ++ (o1 ++ o2) ++ f :: done) fl) by (intros r Hr; apply I; exact (Permutation.Permutation_in r (Permutation.Permutation_sym P) Hr)).
      specialize (IH S (f :: done) (2 * c)%Z _ fo ZC DO (Permutation.Permutation_NoDup P ND) I' L'). destruct (existsb _ fo); auto. destruct IH as (d & X1 & X2). exists d. split; [|rewrite X2; symmetry; exact P].
      replace (c * 2 ^ Z.of_nat (closes (EC f m :: evs)))%Z with (2 * c * 2 ^ Z.of_nat (closes evs))%Z; auto.
      change (closes (EC f m :: evs)) with (Datatypes.S (closes evs)). rewrite Nat2Z.inj_succ, Z.pow_succ_r by lia. lia. Qed.
Lemma x_run evs fresh opn : ev_ok fresh opn evs -> forall S done phi fo, xst n a fl psi S fresh opn done phi -> data_ok n a fl (S ++ datas evs) -> NoDup (fresh ++ opn ++ done) -> incl (fresh ++ opn ++ done) fl ->
  length fo = closes evs ->
  if existsb (fun b => b) fo then state_eq n (exec (flat_map (comp false a) evs) fo phi) (fun _ => 0%Z)
  else exists done', xst n a fl psi (S ++ datas evs) [] [] done' (exec (flat_map (comp false a) evs) fo phi) /\ Permutation.Permutation done' (fresh ++ opn ++ done).
Proof. induction 1 as [|q fresh opn evs E IH|f fresh opn evs E IH|f m fresh o1 o2 evs E IH]; intros S done phi fo Z DO ND I L.
  - destruct fo; [|discriminate]. cbn. exists done. rewrite app_nil_r. split; auto.
  - cbn [flat_map comp ancilla_cnot app exec datas]. fold (datas evs). change (S ++ q :: datas evs) with (S ++ [q] ++ datas evs). rewrite app_assoc.
    cbn [datas flat_map app] in DO. fold (datas evs) in DO. change (q :: datas evs) with ([q] ++ datas evs) in DO. rewrite app_assoc in DO.
    apply IH; auto. apply x_data; auto. intros r Hr. apply DO. apply in_app_iff; left. apply in_app_iff; auto.
  - cbn [flat_map comp ancilla_cnot flag_init app exec datas] in *. fold (datas evs) in *.
    assert (P : Permutation.Permutation ((f :: fresh) ++ opn ++ done) (fresh ++ (f :: opn) ++ done)) by (cbn [app]; apply Permutation.Permutation_middle).
    assert (Zo : xst n a fl psi S fresh (f :: opn) done (apply_gate phi (GCX a f))) by (apply x_open; auto).
    assert (I' : incl (fresh ++ (f :: opn) ++ done) fl) by (intros r Hr; apply I; exact (Permutation.Permutation_in r (Permutation.Permutation_sym P) Hr)).
    specialize (IH S done _ fo Zo DO (Permutation.Permutation_NoDup P ND) I' L). destruct (existsb _ fo); auto. destruct IH as (d & X1 & X2). exists d. split; auto. rewrite X2. symmetry. exact P.
  - cbn [flat_map comp ancilla_cnot flag_measure app exec datas] in *. fold (datas evs) in *.
    assert (P : Permutation.Permutation (fresh ++ (o1 ++ f :: o2) ++ done) (fresh ++ (o1 ++ o2) ++ f :: done)).
    { rewrite close_perm. rewrite <- app_assoc. rewrite !app_assoc. rewrite <- (app_assoc (fresh ++ o1) o2 (f :: done)), <- (app_assoc (fresh ++ o1) o2 done). rewrite !app_assoc. apply Permutation.Permutation_middle. }
    destruct fo as [|o fo]; [discriminate|]. cbn [hd tl existsb].
    pose proof (x_close n a fl psi An Fn Na S f fresh o1 o2 done phi o Z ND I) as ZC. destruct o; cbn [orb].
    + now apply exec_zero.
    + assert (L' : length fo = closes evs) by (unfold closes in *; cbn [filter length] in L; lia).
      assert (I' : incl (fresh ++ (o1 ++ o2) ++ f :: done) fl) by (intros r Hr; apply I; exact (Permutation.Permutation_in r (Permutation.Permutation_sym P) Hr)).
      specialize (IH S (f :: done) _ fo ZC DO (Permutation.Permutation_NoDup P ND) I' L'). destruct (existsb _ fo); auto. destruct IH as (d & X1 & X2). exists d. split; auto. rewrite X2; symmetry; exact P. Qed.
End Run.

Lemma supp_length n l : length (supp_vec n l) = n.
Proof. unfold supp_vec. now rewrite map_length, seq_length. Qed.
Lemma nth_supp n l j : j < n -> nth j (supp_vec n l) false = memb j l.
Proof. intros Hj. unfold supp_vec. rewrite (nth_indep _ false (existsb (Nat.eqb 0) l)) by (now rewrite map_length, seq_length). rewrite (map_nth (fun i => existsb (Nat.eqb i) l) (seq 0 n) 0 j). now rewrite seq_nth. Qed.
Lemma supp_cons n q l : ~ In q l -> supp_vec n (q :: l) = vxor (unitv n q) (supp_vec n l).
Proof. intros N. apply (vec_ext n); [apply supp_length|rewrite vxor_length; rewrite unitv_length; auto; now rewrite supp_length|].
  intros j Hj. rewrite nth_vxor by (now rewrite unitv_length, supp_length). rewrite nth_unitv by auto. rewrite !nth_supp by auto. cbn [memb existsb]. fold (memb j l).
  destruct (Nat.eqb_spec j q) as [->|]; [|now rewrite xorb_false_l]. assert (E : memb q l = false) by (now apply memb_out). now rewrite E. Qed.
Lemma supp_nil n : supp_vec n [] = vzero n.
Proof. apply (vec_ext n); [apply supp_length|apply repeat_length|]. intros j Hj. rewrite nth_supp by auto. unfold vzero. now rewrite nth_repeat. Qed.
Lemma dot_vzero_l' v k : dot (vzero k) v = false.
Proof. revert v. induction k as [|k IH]; intros [|b v]; auto. cbn. now rewrite IH. Qed.
Lemma supp_dot n l x : NoDup l -> (forall q, In q l -> q < n) -> length x = n -> dot (supp_vec n l) x = par l x.
Proof. intros ND. induction ND as [|q l NI ND IH]; intros F L.
  - rewrite supp_nil. apply dot_vzero_l'.
  - rewrite supp_cons by auto. rewrite dot_vxor_l by (rewrite unitv_length, supp_length; auto). rewrite IH by (auto; intros; apply F; right; auto). cbn [par fold_right]. fold (par l x). f_equal. rewrite dot_comm. apply (dot_unitv_r n); auto. apply F. now left. Qed.
Lemma supp_add n l x : NoDup l -> (forall q, In q l -> q < n) -> length x = n -> addv l x = vxor x (supp_vec n l).
Proof. intros ND. revert x. induction ND as [|q l NI ND IH]; intros x F L.
  - rewrite supp_nil. cbn. symmetry. now apply vxor_zero_r.
  - cbn [addv fold_right]. fold (addv l x). rewrite supp_cons by auto. rewrite IH by (auto; intros; apply F; right; auto). 
    apply (vec_ext n); [unfold flip; rewrite set_nth_length, vxor_length; auto; now rewrite supp_length|rewrite vxor_length; auto; rewrite vxor_length; rewrite unitv_length; auto; now rewrite supp_length|].
    assert (Hq : q < n) by (apply F; now left). assert (LV : length (vxor x (supp_vec n l)) = n) by (rewrite vxor_length; auto; now rewrite supp_length).
    intros j Hj. unfold flip. rewrite nth_set_nth by lia. rewrite !nth_vxor by (rewrite ?vxor_length; rewrite ?unitv_length, ?supp_length; auto). rewrite nth_unitv by auto.
    destruct (Nat.eqb_spec j q) as [->|N]; [|now destruct (nth j x false), (nth j (supp_vec n l) false)]. now destruct (nth q x false), (nth q (supp_vec n l) false). Qed.

Lemma datas_app e1 e2 : datas (e1 ++ e2) = datas e1 ++ datas e2.
Proof. unfold datas. apply flat_map_app. Qed.
(** a gadget that opens and closes its flags measures the product over its data qubits *)
Lemma gadget_measures n z a b fl evs : a < n -> (forall f, In f fl -> f < n) -> ~ In a fl -> NoDup fl -> ev_ok fl [] evs -> data_ok n a fl (datas evs) -> NoDup (datas evs) ->
  measures n z (datas evs) a fl (gadget z a b evs).
Proof. intros An Fn Na NDf OK DO ND. assert (CL : closes evs = length fl) by (rewrite (closes_ok _ _ _ OK); cbn; lia).
  assert (DL : forall q, In q (datas evs) -> q < n) by (intros q Hq; now apply DO). split.
  { unfold gadget. rewrite !measurements_app, comp_measurements, CL. destruct z; cbn; lia. }
  exists (if z then 2 else 1)%Z, (if z then 2 ^ Z.of_nat (closes evs) else 1)%Z. split; [destruct z; lia|]. split; [destruct z; try lia; apply Z.pow_pos_nonneg; lia|].
  intros psi fo o PC L x Hx.
  assert (SA : nth a (set_nth a false x) false = false) by (apply nth_set_nth_eq; unfold vec in *; lia).
  assert (YL : length (set_nth a false x) = n) by (now rewrite set_nth_length).
  assert (CY : zeros fl x = true -> clear (a :: fl) (set_nth a false x) = set_nth a false x).
  { intros EZ. apply clear_same. intros q [<-|I]; [auto|]. rewrite nth_set_nth_neq by (intros ->; contradiction). exact (proj1 (zeros_spec fl x) EZ q I). }
  assert (INC : incl (fl ++ [] ++ []) fl) by (intros r Hr; cbn in Hr; rewrite app_nil_r in Hr; exact Hr).
  assert (NDF : NoDup (fl ++ [] ++ [])) by (cbn; now rewrite app_nil_r).
  assert (Lf : length fo = closes evs) by congruence. fold (zeros fl x). destruct z.
  - pose proof (z_run n a fl psi An Fn Na evs fl [] OK [] [] 1 psi fo (z_init n a fl psi An PC) DO NDF INC Lf) as R.
    unfold gadget. cbn [app]. rewrite exec_app by (now rewrite comp_measurements). cbn [exec hd].
    destruct (existsb _ fo).
    + unfold project. rewrite R by auto. now destruct (Bool.eqb _ _).
    + destruct R as (d & R & P). rewrite app_nil_l in R. unfold project. rewrite R by auto. cbn [app]. cbn [app] in P. rewrite app_nil_r in P.
      assert (EZ : zeros d x = zeros fl x).
      { destruct (zeros fl x) eqn:EZ.
        - apply zeros_spec. intros q Hq. apply (proj1 (zeros_spec fl x) EZ). exact (Permutation.Permutation_in q P Hq).
        - destruct (zeros d x) eqn:E2; auto. rewrite <- EZ. symmetry. apply zeros_spec. intros q Hq. apply (proj1 (zeros_spec d x) E2). exact (Permutation.Permutation_in q (Permutation.Permutation_sym P) Hq). }
      rewrite EZ. cbn [par fold_right]. rewrite xorb_false_r. destruct (zeros fl x) eqn:EZ2; cbn [andb]; [|now destruct (Bool.eqb _ _)].
      unfold measured, op_Z. rewrite supp_dot by auto. rewrite (par_ext (datas evs) (set_nth a false x) x) by (intros q Hq; apply nth_set_nth_neq; now apply DO).
      rewrite <- (clear_set (a :: fl) x a false) by (now left). rewrite CY by auto.
      destruct (nth a x false), o, (par (datas evs) x); cbn [Bool.eqb xorb]; lia.
  - unfold gadget. rewrite (app_assoc (flat_map _ _)). change ([IH a] ++ (flat_map (comp false a) evs ++ [IH a]) ++ [IM a b]) with (IH a :: (flat_map (comp false a) evs ++ [IH a]) ++ [IM a b]).
    cbn [exec]. rewrite <- app_assoc. rewrite exec_app by (now rewrite comp_measurements). cbn [app exec hd].
    pose proof (x_run n a fl psi An Fn Na evs fl [] OK [] [] _ fo (x_init n a fl psi An Na PC) DO NDF INC Lf) as R.
    set (phi := exec (flat_map (comp false a) evs) fo (apply_gate psi (GH a))) in *.
    destruct (existsb _ fo).
    + unfold project. cbn [apply_gate]. rewrite !R by (now rewrite set_nth_length). destruct (Bool.eqb _ _), (nth a x false); auto.
    + destruct R as (d & R & P). rewrite app_nil_l in R. unfold project. cbn [apply_gate]. rewrite !R by (now rewrite set_nth_length). cbn [app eqs forallb]. cbn [app] in P. rewrite app_nil_r in P.
      assert (EZ : forall v, zeros d (set_nth a v x) = zeros fl x).
      { intros v. transitivity (zeros d x). apply zeros_ext. intros q Hq. apply nth_set_nth_neq. intros ->. apply Na. exact (Permutation.Permutation_in a P Hq).
        destruct (zeros fl x) eqn:EZ.
        - apply zeros_spec. intros q Hq. apply (proj1 (zeros_spec fl x) EZ). exact (Permutation.Permutation_in q P Hq).
        - destruct (zeros d x) eqn:E2; auto. rewrite <- EZ. symmetry. apply zeros_spec. intros q Hq. apply (proj1 (zeros_spec d x) E2). exact (Permutation.Permutation_in q (Permutation.Permutation_sym P) Hq). }
      rewrite !EZ. rewrite andb_true_r. rewrite !nth_set_nth_eq by (unfold vec in *; lia). destruct (zeros fl x) eqn:EZ2; cbn [andb]; [|destruct (Bool.eqb _ _), (nth a x false); auto].
      unfold measured, op_X. rewrite (clear_set (a :: fl) x a true) by (now left). rewrite <- (clear_set (a :: fl) x a false) by (now left). rewrite CY by auto. rewrite (supp_add n) by auto.
      destruct (nth a x false), o; cbn [Bool.eqb]; lia. Qed.
