(** * Properties C11-C15: CSS codes (codes/css_code.py).
    [opt_ok] says that a given matrix is an array (all rows have the declared width); [ldpc_ok] is the
    contract of the external ldpc.mod2 functions. *)
From Verif Require Import StabProofs3 CssProofs.

(** the pure-X / pure-Z operator of a check row (specification) *)
Definition opX (r : vec) : list pauli := map (fun b : bool => if b then PX else PI) r.
Definition opZ (r : vec) : list pauli := map (fun b : bool => if b then PZ else PI) r.

Lemma symp_opX r : symp (opX r) = r ++ vzero (length r).
Proof. unfold symp, opX. rewrite !map_map. f_equal.
  - rewrite <- (map_id r) at 2. apply map_ext. now intros [].
  - unfold vzero. induction r as [|[] r IH]; simpl; auto; now f_equal. Qed.
Lemma symp_opZ r : symp (opZ r) = vzero (length r) ++ r.
Proof. unfold symp, opZ. rewrite !map_map. f_equal.
  - unfold vzero. induction r as [|[] r IH]; simpl; auto; now f_equal.
  - rewrite <- (map_id r) at 2. apply map_ext. now intros []. Qed.
Lemma bin_opX n r : length r = n -> bin false (opX r) = padX n r.
Proof. intros <-. unfold bin, padX. rewrite symp_opX, <- app_assoc. reflexivity. Qed.
Lemma bin_opZ n r : length r = n -> bin false (opZ r) = padZ n r.
Proof. intros <-. unfold bin, padZ. rewrite symp_opZ, <- app_assoc. reflexivity. Qed.
Lemma map_xbit_opX r : map xbit (opX r) = r.
Proof. unfold opX. rewrite map_map. rewrite <- (map_id r) at 2. apply map_ext. now intros []. Qed.
Lemma map_zbit_opX r : map zbit (opX r) = vzero (length r).
Proof. unfold opX. rewrite map_map. unfold vzero. induction r as [|[] r IH]; simpl; auto; now f_equal. Qed.
Lemma map_zbit_opZ r : map zbit (opZ r) = r.
Proof. unfold opZ. rewrite map_map. rewrite <- (map_id r) at 2. apply map_ext. now intros []. Qed.
Lemma map_xbit_opZ r : map xbit (opZ r) = vzero (length r).
Proof. unfold opZ. rewrite map_map. unfold vzero. induction r as [|[] r IH]; simpl; auto; now f_equal. Qed.
Lemma checks_print_X rows : checks_as_strings "X" rows = map (fun r => print NoSign (opX r)) rows.
Proof. unfold checks_as_strings, print, opX. apply map_ext. intros r. simpl. rewrite map_map. apply map_ext. now intros []. Qed.
Lemma checks_print_Z rows : checks_as_strings "Z" rows = map (fun r => print NoSign (opZ r)) rows.
Proof. unfold checks_as_strings, print, opZ. apply map_ext. intros r. simpl. rewrite map_map. apply map_ext. now intros []. Qed.

Lemma dot_vzero_l v k : dot (vzero k) v = false.
Proof. unfold vzero. revert v; induction k; intros [|b v]; simpl; auto; now rewrite IHk. Qed.
Lemma commute_XX a b : length a = length b -> pmul (opX a) (opX b) = pmul (opX b) (opX a).
Proof. intros H. apply pcommute_sympl; [unfold opX; now rewrite !map_length|]. unfold sympl.
  rewrite !map_zbit_opX, dot_vzero_l, dot_comm, dot_vzero_l. reflexivity. Qed.
Lemma commute_ZZ a b : length a = length b -> pmul (opZ a) (opZ b) = pmul (opZ b) (opZ a).
Proof. intros H. apply pcommute_sympl; [unfold opZ; now rewrite !map_length|]. unfold sympl.
  rewrite !map_xbit_opZ, dot_vzero_l, dot_comm, dot_vzero_l. reflexivity. Qed.
Lemma commute_XZ a b : length a = length b -> (pmul (opX a) (opZ b) = pmul (opZ b) (opX a) <-> dot a b = false).
Proof. intros H. rewrite (pcommute_sympl (opX a) (opZ b)) by (unfold opX, opZ; now rewrite !map_length). unfold sympl.
  rewrite map_xbit_opX, map_zbit_opZ, map_zbit_opX, map_xbit_opZ, dot_vzero_l, xorb_false_r. reflexivity. Qed.

(** ** C11 *)
(** construction succeeds exactly on these inputs: at least one matrix, equal widths, every X check
    overlapping every Z check evenly, at least one check, a positive distance not above the x/z distances
    (hx_of/hz_of: a missing matrix is the matrix without rows of the other's width). *)
Theorem C11_accepts_iff : forall L distance Hx Hz xd zd, opt_ok Hx -> opt_ok Hz ->
  let hx := hx_of Hx Hz in let hz := hz_of Hx Hz in
  (exists c, CSSCode L distance Hx Hz xd zd = Ret c) <->
  (Hx <> None \/ Hz <> None) /\ nd_cols hx = nd_cols hz /\
  (forall a b, In a (nd_rows hx) -> In b (nd_rows hz) -> dot a b = false) /\
  (nd_rows hx <> [] \/ nd_rows hz <> []) /\ (0 < distance)%Z /\
  (forall x, xd = Some x -> (distance <= x)%Z) /\ (forall x, zd = Some x -> (distance <= x)%Z).
Proof. intros. now apply CSSCode_iff. Qed.
Print Assumptions C11_accepts_iff.

(** what is built: number of qubits, number of logical qubits, and the generators are the binary forms of
    the check operators, which commute pairwise *)
Theorem C11_code_parameters : forall L distance Hx Hz xd zd c, opt_ok Hx -> opt_ok Hz ->
  CSSCode L distance Hx Hz xd zd = Ret c ->
  let hx := nd_rows (hx_of Hx Hz) in let hz := nd_rows (hz_of Hx Hz) in
  sc_n (css_stab c) = nd_cols (hx_of Hx Hz) /\
  (exists rx rz, has_rank (sc_n (css_stab c)) hx rx /\ has_rank (sc_n (css_stab c)) hz rz /\ rx + rz <= sc_n (css_stab c) /\
     sc_k (css_stab c) = Z.of_nat (sc_n (css_stab c) - rx - rz)) /\
  (forall P, In P (map opX hx ++ map opZ hz) -> length P = sc_n (css_stab c)) /\
  sc_gens (css_stab c) = map (bin false) (map opX hx ++ map opZ hz) /\
  (forall P Q, In P (map opX hx ++ map opZ hz) -> In Q (map opX hx ++ map opZ hz) -> pmul P Q = pmul Q P).
Proof. intros L distance Hx Hz xd zd c OX OZ H hx hz.
  destruct (CSSCode_inv L distance Hx Hz xd zd c OX OZ H) as ((EX & EZ & WX & WZ & O & _ & _ & En & EG & EK) & _).
  fold hx in EX, WX, O, EG, EK. fold hz in EZ, WZ, O, EG, EK. rewrite En. set (n := nd_cols (hx_of Hx Hz)) in *. 
  assert (KX : forall r, In r hx -> length r = n) by (intros r; exact (wf_in n hx r WX)).
  assert (KZ : forall r, In r hz -> length r = n) by (intros r; exact (wf_in n hz r WZ)).
  split; [reflexivity|]. split; [|split; [|split]].
  - exists (rk n hx), (rk n hz). split; [now apply rk_correct|]. split; [now apply rk_correct|].
    assert (B : rk n hx + rk n hz <= n).
    { destruct (compute_logical_spec ldpc_ref n hx hz ldpc_ref_ok WX WZ) as (_ & _ & _ & E); [now apply orthogonal_kernel | lia]. }
    split; auto. rewrite EK. lia.
  - intros P HP. apply in_app_iff in HP as [HP|HP]; apply in_map_iff in HP as (r & <- & Hr); unfold opX, opZ; rewrite map_length; auto.
  - rewrite EG, map_app, !map_map. f_equal; apply map_ext_in; intros r Hr; symmetry; [apply bin_opX | apply bin_opZ]; auto.
  - intros P Q HP HQ. apply in_app_iff in HP as [HP|HP]; apply in_map_iff in HP as (r & <- & Hr);
    apply in_app_iff in HQ as [HQ|HQ]; apply in_map_iff in HQ as (q & <- & Hq).
    + apply commute_XX. rewrite !KX; auto.
    + apply commute_XZ; auto. rewrite KX, KZ; auto.
    + symmetry. apply commute_XZ; auto. rewrite KX, KZ; auto.
    + apply commute_ZZ. rewrite !KZ; auto. Qed.
Print Assumptions C11_code_parameters.

(** the printed checks denote the check operators *)
Theorem C11_printed_checks : forall L distance Hx Hz xd zd c, opt_ok Hx -> opt_ok Hz ->
  CSSCode L distance Hx Hz xd zd = Ret c ->
  x_checks_as_pauli_strings c = map (fun r => print NoSign (opX r)) (nd_rows (hx_of Hx Hz)) /\
  z_checks_as_pauli_strings c = map (fun r => print NoSign (opZ r)) (nd_rows (hz_of Hx Hz)) /\
  x_logicals_as_pauli_strings c = map (fun r => print NoSign (opX r)) (css_Lx c) /\
  z_logicals_as_pauli_strings c = map (fun r => print NoSign (opZ r)) (css_Lz c).
Proof. intros L distance Hx Hz xd zd c OX OZ H.
  destruct (CSSCode_inv L distance Hx Hz xd zd c OX OZ H) as ((EX & EZ & _) & _).
  unfold x_checks_as_pauli_strings, z_checks_as_pauli_strings, x_logicals_as_pauli_strings, z_logicals_as_pauli_strings.
  rewrite EX, EZ, !checks_print_X, !checks_print_Z. repeat split. Qed.
Print Assumptions C11_printed_checks.

Definition ex_hx : nd := mkNd 4 [[true;true;true;true]].
Definition ex_hz : nd := mkNd 4 [[true;true;false;false];[false;false;true;true];[true;true;true;true]].
Definition ex_css : css := match CSSCode ldpc_ref 1 (Some ex_hx) (Some ex_hz) None None with Ret c => c | Raise _ => mkCss (mkStab 0 [] [] 0 0 None None) ex_hx ex_hz 0 0 0 [] [] end.
Example C11_nonvacuous : opt_ok (Some ex_hx) /\ opt_ok (Some ex_hz) /\
  CSSCode ldpc_ref 1 (Some ex_hx) (Some ex_hz) None None = Ret ex_css /\ sc_k (css_stab ex_css) = 1%Z /\
  CSSCode ldpc_ref 1 (Some ex_hx) (Some (mkNd 4 [[true;false;false;false]])) None None = Raise InvalidCSSCodeError /\
  x_checks_as_pauli_strings ex_css = [str "XXXX"].
Proof. repeat split; repeat constructor. Qed.

(** ** C12 *)
Theorem C12_logicals_complete : forall L distance Hx Hz xd zd c, ldpc_ok L -> opt_ok Hx -> opt_ok Hz ->
  CSSCode L distance Hx Hz xd zd = Ret c ->
  let n := sc_n (css_stab c) in let hx := nd_rows (css_Hx c) in let hz := nd_rows (css_Hz c) in
  (* X logicals *)
  (forall l, In l (css_Lx c) -> in_kernel n hz l) /\
  (forall v, in_kernel n hz v <-> span n (hx ++ css_Lx c) v) /\
  (forall a, length a = length (css_Lx c) -> span n hx (lincomb n a (css_Lx c)) -> a = vzero (length (css_Lx c))) /\
  Z.of_nat (length (css_Lx c)) = sc_k (css_stab c) /\
  (* Z logicals *)
  (forall l, In l (css_Lz c) -> in_kernel n hx l) /\
  (forall v, in_kernel n hx v <-> span n (hz ++ css_Lz c) v) /\
  (forall a, length a = length (css_Lz c) -> span n hz (lincomb n a (css_Lz c)) -> a = vzero (length (css_Lz c))) /\
  Z.of_nat (length (css_Lz c)) = sc_k (css_stab c).
Proof. intros L distance Hx Hz xd zd c HL OX OZ H.
  destruct (CSSCode_inv L distance Hx Hz xd zd c OX OZ H) as ((EX & EZ & WX & WZ & O & ELx & ELz & En & _ & EK) & _).
  rewrite En, EX, EZ, EK, ELx, ELz. cbn [nd_rows]. set (n := nd_cols (hx_of Hx Hz)) in *.
  set (hx := nd_rows (hx_of Hx Hz)) in *. set (hz := nd_rows (hz_of Hx Hz)) in *.
  assert (G : forall m1 m2, wf n m1 -> wf n m2 -> orthogonal m1 m2 ->
     (forall l, In l (compute_logical L n m1 m2) -> in_kernel n m1 l) /\
     (forall v, in_kernel n m1 v <-> span n (m2 ++ compute_logical L n m1 m2) v) /\
     (forall a, length a = length (compute_logical L n m1 m2) -> span n m2 (lincomb n a (compute_logical L n m1 m2)) -> a = vzero (length (compute_logical L n m1 m2))) /\
     length (compute_logical L n m1 m2) + rk n m1 + rk n m2 = n).
  { intros m1 m2 W1 W2 O'. destruct (compute_logical_spec L n m1 m2 HL W1 W2 (orthogonal_kernel n m1 m2 W2 O')) as (WL & K & (WB & IB & SB) & E).
    destruct HL as (HN & HB & _). destruct (HN n m1 W1) as (_ & _ & SK). destruct (HB n m2 W2) as (WI & _ & SI).
    split; auto. split; [|split; auto].
    - intros v. rewrite <- SK, <- SB, !span_app_iff by auto. split; intros (a & b & Ha & Hb & Hv); exists a, b; repeat split; auto; now apply SI.
    - intros a Ha S. apply SI in S. pose proof (indep_app_disjoint n _ _ _ WI WL IB S (ex_intro _ a (conj Ha eq_refl))) as Z0.
      apply indep_app_r in IB; auto. }
  destruct (G hz hx WZ WX (orthogonal_sym _ _ O)) as (A1 & A2 & A3 & A4). destruct (G hx hz WX WZ O) as (B1 & B2 & B3 & B4).
  repeat (split; [solve [auto | lia]|]). lia. Qed.
Print Assumptions C12_logicals_complete.

(** non-vacuity: the contract of the external functions has an executable instance *)
Example C12_nonvacuous : ldpc_ok ldpc_ref /\ css_Lx ex_css <> [] /\ length (css_Lx ex_css) = 1 /\ length (css_Lz ex_css) = 1.
Proof. split; [exact ldpc_ref_ok|]. repeat split; try reflexivity. discriminate. Qed.

(** ** C13 *)
Lemma syn_zero_kernel n h r s : matvec (mkNd n h) r = Ret s -> s = vzero (length s) -> in_kernel n h r.
Proof. unfold matvec. cbn [nd_cols nd_rows]. destruct (Nat.eqb_spec n (length r)) as [E|]; [|discriminate]. intros H Z0. injection H as <-.
  split; auto. intros q Hq. unfold mulMV in Z0. revert Hq Z0. clear. rewrite map_length. unfold vzero. induction h as [|x h IH]; [contradiction|].
  simpl. intros [->|Hq] Z0; injection Z0 as E1 E2; auto. Qed.

Theorem C13_logical_x_error : forall L distance Hx Hz xd zd c r s, ldpc_ok L -> opt_ok Hx -> opt_ok Hz ->
  CSSCode L distance Hx Hz xd zd = Ret c -> get_z_syndrome c r = Ret s -> s = vzero (length s) ->
  exists b, check_if_logical_x_error c r = Ret b /\
    (b = false <-> span (sc_n (css_stab c)) (nd_rows (css_Hx c)) r).
Proof. intros L distance Hx Hz xd zd c r s HL OX OZ H HS Z0.
  destruct (CSSCode_inv L distance Hx Hz xd zd c OX OZ H) as ((EX & EZ & WX & WZ & O & ELx & ELz & En & _ & _) & _).
  unfold get_z_syndrome in HS. rewrite EZ in HS. pose proof (syn_zero_kernel _ _ _ _ HS Z0) as K.
  unfold check_if_logical_x_error, matvec. rewrite En, EX, ELz. cbn [nd_cols nd_rows]. rewrite (proj1 K), Nat.eqb_refl. cbn [pbind].
  eexists; split; [reflexivity|]. now apply logical_core. Qed.
Print Assumptions C13_logical_x_error.

Theorem C13_logical_z_error : forall L distance Hx Hz xd zd c r s, ldpc_ok L -> opt_ok Hx -> opt_ok Hz ->
  CSSCode L distance Hx Hz xd zd = Ret c -> get_x_syndrome c r = Ret s -> s = vzero (length s) ->
  exists b, check_if_logical_z_error c r = Ret b /\
    (b = false <-> span (sc_n (css_stab c)) (nd_rows (css_Hz c)) r).
Proof. intros L distance Hx Hz xd zd c r s HL OX OZ H HS Z0.
  destruct (CSSCode_inv L distance Hx Hz xd zd c OX OZ H) as ((EX & EZ & WX & WZ & O & ELx & ELz & En & _ & _) & _).
  unfold get_x_syndrome in HS. rewrite EX in HS. pose proof (syn_zero_kernel _ _ _ _ HS Z0) as K.
  unfold check_if_logical_z_error, matvec. rewrite En, EX, EZ, ELx. cbn [nd_cols nd_rows]. rewrite (proj1 K), Nat.eqb_refl. cbn [pbind].
  eexists; split; [reflexivity|]. apply logical_core; auto using orthogonal_sym. Qed.
Print Assumptions C13_logical_z_error.

(** the verdict does not depend on which bases the external library returns *)
Theorem C13_representatives_irrelevant : forall L L' distance Hx Hz xd zd c c' r s, ldpc_ok L -> ldpc_ok L' -> opt_ok Hx -> opt_ok Hz ->
  CSSCode L distance Hx Hz xd zd = Ret c -> CSSCode L' distance Hx Hz xd zd = Ret c' ->
  get_z_syndrome c r = Ret s -> s = vzero (length s) ->
  check_if_logical_x_error c r = check_if_logical_x_error c' r.
Proof. intros L L' distance Hx Hz xd zd c c' r s HL HL' OX OZ H H' HS Z0.
  destruct (C13_logical_x_error L distance Hx Hz xd zd c r s) as (b & Eb & Sb); auto.
  destruct (CSSCode_inv L distance Hx Hz xd zd c OX OZ H) as ((EX & EZ & WX & WZ & O & ELx & ELz & En & _ & _) & _).
  destruct (CSSCode_inv L' distance Hx Hz xd zd c' OX OZ H') as ((EX' & EZ' & _ & _ & _ & ELx' & ELz' & En' & _ & _) & _).
  assert (HS' : get_z_syndrome c' r = Ret s). { unfold get_z_syndrome in *. rewrite EZ'. rewrite EZ in HS. exact HS. }
  destruct (C13_logical_x_error L' distance Hx Hz xd zd c' r s) as (b' & Eb' & Sb'); auto.
  rewrite Eb, Eb'. f_equal. rewrite En, EX in Sb. rewrite En', EX' in Sb'.
  destruct b, b'; auto; [exact (proj2 Sb (proj1 Sb' eq_refl)) | symmetry; exact (proj2 Sb' (proj1 Sb eq_refl))]. Qed.
Print Assumptions C13_representatives_irrelevant.

Example C13_nonvacuous : get_z_syndrome ex_css [true;true;true;true] = Ret [false;false;false] /\
  check_if_logical_x_error ex_css [true;true;true;true] = Ret false /\
  get_z_syndrome ex_css [true;true;false;false] = Ret [false;false;false] /\
  check_if_logical_x_error ex_css [true;true;false;false] = Ret true.
Proof. repeat split; reflexivity. Qed.

(** ** C14 *)
Theorem C14_membership : forall L distance Hx Hz xd zd c v, opt_ok Hx -> opt_ok Hz ->
  CSSCode L distance Hx Hz xd zd = Ret c -> length v = sc_n (css_stab c) ->
  (exists b, check_if_x_stabilizer c v = Ret b /\ (b = true <-> span (sc_n (css_stab c)) (nd_rows (css_Hx c)) v)) /\
  (exists b, check_if_z_stabilizer c v = Ret b /\ (b = true <-> span (sc_n (css_stab c)) (nd_rows (css_Hz c)) v)).
Proof. intros L distance Hx Hz xd zd c v OX OZ H Hv.
  destruct (CSSCode_inv L distance Hx Hz xd zd c OX OZ H) as ((EX & EZ & WX & WZ & O & _ & _ & En & _ & _) & _).
  rewrite En in Hv. rewrite En. unfold check_if_x_stabilizer, check_if_z_stabilizer. rewrite EX, EZ.
  split; apply (stab_core (mkNd _ _)); auto. Qed.
Print Assumptions C14_membership.

Theorem C14_coset_equality : forall L distance Hx Hz xd zd c a b, opt_ok Hx -> opt_ok Hz ->
  CSSCode L distance Hx Hz xd zd = Ret c -> length a = sc_n (css_stab c) -> length b = sc_n (css_stab c) ->
  (exists r, stabilizer_eq_x_error c a b = Ret r /\ (r = true <-> span (sc_n (css_stab c)) (nd_rows (css_Hx c)) (vxor a b))) /\
  (exists r, stabilizer_eq_z_error c a b = Ret r /\ (r = true <-> span (sc_n (css_stab c)) (nd_rows (css_Hz c)) (vxor a b))).
Proof. intros L distance Hx Hz xd zd c a b OX OZ H Ha Hb.
  destruct (CSSCode_inv L distance Hx Hz xd zd c OX OZ H) as ((EX & EZ & WX & WZ & O & _ & _ & En & _ & _) & _).
  rewrite En in Ha, Hb. rewrite En. unfold stabilizer_eq_x_error, stabilizer_eq_z_error. rewrite EX, EZ.
  split; apply (steq_core (mkNd _ _)); auto. Qed.
Print Assumptions C14_coset_equality.

Example C14_nonvacuous : check_if_x_stabilizer ex_css [true;true;true;true] = Ret true /\
  check_if_x_stabilizer ex_css [true;true;false;false] = Ret false /\
  stabilizer_eq_z_error ex_css [true;false;true;false] [false;true;true;false] = Ret true /\
  stabilizer_eq_z_error ex_css [true;false;true;false] [false;false;true;false] = Ret false.
Proof. repeat split; reflexivity. Qed.

(** ** C15 *)
(** what the test decides: equally many checks, and every Z check is a product of X checks *)
Theorem C15_self_dual_means : forall L distance Hx Hz xd zd c, opt_ok Hx -> opt_ok Hz ->
  CSSCode L distance Hx Hz xd zd = Ret c ->
  (is_self_dual c = true <-> length (nd_rows (css_Hx c)) = length (nd_rows (css_Hz c)) /\
     forall v, span (sc_n (css_stab c)) (nd_rows (css_Hz c)) v -> span (sc_n (css_stab c)) (nd_rows (css_Hx c)) v).
Proof. intros L distance Hx Hz xd zd c OX OZ H.
  destruct (CSSCode_inv L distance Hx Hz xd zd c OX OZ H) as ((EX & EZ & WX & WZ & O & _ & _ & En & _ & _) & _).
  rewrite En. unfold is_self_dual. rewrite EX, EZ. cbn [nd_rows nd_cols]. rewrite andb_true_iff, !Nat.eqb_eq.
  set (n := nd_cols (hx_of Hx Hz)) in *. set (hx := nd_rows (hx_of Hx Hz)) in *. set (hz := nd_rows (hz_of Hx Hz)) in *.
  pose proof (rk_app_iff n hx hz WX WZ) as R.
  assert (R' : rk n hx = rk n (hx ++ hz) <-> forall v, span n hz v -> span n hx v).
  { split.
    - intros E. assert (E' : rk n (hx ++ hz) = rk n hx) by (symmetry; exact E). pose proof (proj1 R E') as S. intros v. apply span_incl; auto.
    - intros S. symmetry. apply R. intros r Hr. apply S. now apply span_in. }
  unfold vec in *. split; intros [A B]; split; auto; now apply R'. Qed.
Print Assumptions C15_self_dual_means.

(** for codes without redundant checks the test is exact *)
Theorem C15_self_dual_exact_when_independent : forall L distance Hx Hz xd zd c, opt_ok Hx -> opt_ok Hz ->
  CSSCode L distance Hx Hz xd zd = Ret c ->
  indep (sc_n (css_stab c)) (nd_rows (css_Hx c)) -> indep (sc_n (css_stab c)) (nd_rows (css_Hz c)) ->
  (is_self_dual c = true <->
     forall v, span (sc_n (css_stab c)) (nd_rows (css_Hz c)) v <-> span (sc_n (css_stab c)) (nd_rows (css_Hx c)) v).
Proof. intros L distance Hx Hz xd zd c OX OZ H IX IZ. rewrite (C15_self_dual_means L distance Hx Hz xd zd) by auto.
  destruct (CSSCode_inv L distance Hx Hz xd zd c OX OZ H) as ((EX & EZ & WX & WZ & O & _ & _ & En & _ & _) & _).
  rewrite En in *. rewrite EX, EZ in *. cbn [nd_rows nd_cols] in *.
  set (n := nd_cols (hx_of Hx Hz)) in *. set (hx := nd_rows (hx_of Hx Hz)) in *. set (hz := nd_rows (hz_of Hx Hz)) in *.
  pose proof (has_rank_indep n hx WX IX) as RX. pose proof (has_rank_indep n hz WZ IZ) as RZ.
  split.
  - intros [E S] v. split; auto. revert v.
    assert (Q : rk n hz = rk n hx). { apply rk_unique in RX, RZ; auto. unfold vec, mat in *. lia. }
    intros v Hv. apply (rk_eq_span n hz hx); auto. intros r Hr. apply S. now apply span_in.
  - intros S. split; [|intros v; apply S]. eapply has_rank_unique; [exact WX | exact RX |]. apply (has_rank_span n hz hx); auto. Qed.
Print Assumptions C15_self_dual_exact_when_independent.

(** with redundant checks the test errs in both directions *)
Theorem C15_self_dual_refuted :
  (exists Hx Hz c v, nd_ok Hx /\ nd_ok Hz /\ CSSCode ldpc_ref 1 (Some Hx) (Some Hz) None None = Ret c /\ is_self_dual c = true /\
     span (nd_cols Hx) (nd_rows Hx) v /\ ~ span (nd_cols Hx) (nd_rows Hz) v) /\
  (exists Hx Hz c, nd_ok Hx /\ nd_ok Hz /\ CSSCode ldpc_ref 1 (Some Hx) (Some Hz) None None = Ret c /\ is_self_dual c = false /\
     forall v, span (nd_cols Hx) (nd_rows Hx) v <-> span (nd_cols Hx) (nd_rows Hz) v).
Proof. split.
  - exists (mkNd 4 [[true;true;false;false];[false;false;true;true]]), (mkNd 4 [[true;true;false;false];[true;true;false;false]]).
    eexists. exists [false;false;true;true].
    split; [repeat constructor|]. split; [repeat constructor|]. split; [reflexivity|]. split; [reflexivity|]. cbn [nd_cols nd_rows].
    split; [apply in_spanb_spec; [repeat constructor | reflexivity | reflexivity]|].
    intros S. apply in_spanb_spec in S; [|repeat constructor | reflexivity]. discriminate.
  - exists (mkNd 4 [[true;true;false;false]]), (mkNd 4 [[true;true;false;false];[true;true;false;false]]).
    eexists. split; [repeat constructor|]. split; [repeat constructor|]. split; [reflexivity|]. split; [reflexivity|]. cbn [nd_cols nd_rows].
    intros v. split; apply span_incl; try (repeat constructor; fail); intros r Hr; apply span_in; simpl in *; try (repeat constructor; fail); tauto. Qed.
Print Assumptions C15_self_dual_refuted.

Example C15_nonvacuous :
  let H := mkNd 7 [[true;false;true;false;true;false;true];[false;true;true;false;false;true;true];[false;false;false;true;true;true;true]] in
  match CSSCode ldpc_ref 3 (Some H) (Some H) None None with Ret c => is_self_dual c = true /\ sc_k (css_stab c) = 1%Z | Raise _ => False end.
Proof. vm_compute. split; reflexivity. Qed.
