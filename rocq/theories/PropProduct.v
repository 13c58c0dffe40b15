(** * Property C20: 3D / 4D homological product codes
    (analog_information_decoding/code_construction/{code_constructor,sparse_code_constructor}.py). *)
From Verif Require Import ProductProofs.
Local Open Scope Z_scope.

(** specification: A B = 0 modulo 2, entry by entry *)
Definition compose_zero (A B : arr) : Prop :=
  a_cols A = a_rows B /\ forall i j, (i < a_rows A)%nat -> (j < a_cols B)%nat -> Z.even (sumZ (a_cols A) (fun k => a_at A i k * a_at B k j)) = true.
(** syndrome bit i of the error e under the checks H *)
Definition syn (H : arr) (e : nat -> Z) (i : nat) : Z := (sumZ (a_cols H) (fun l => a_at H i l * e l)) mod 2.

Lemma compose_zero_iff A B : compose_zero A B <-> a_cols A = a_rows B /\ zero2 (mmul A B).
Proof. reflexivity. Qed.

Lemma shapes_3d a1 a2 p : a_cols a1 = a_rows a2 -> a_cols (firstM a1 p) = a_rows (midM a1 a2 p) /\ a_cols (midM a1 a2 p) = a_rows (lastM a2 p).
Proof. intros H. cbn. nia. Qed.

Theorem C20_3d_chain_complex : forall a1 a2 p, compose_zero a1 a2 ->
  exists d1 d2 d3, generate_3d_product_code a1 a2 p = Ret (d1, d2, d3) /\
    compose_zero d1 d2 /\ compose_zero d2 d3 /\
    (a_rows d1 = a_rows a1 * a_rows p /\ a_cols d1 = a_cols a1 * a_rows p + a_rows a1 * a_cols p /\
     a_cols d2 = a_cols a2 * a_rows p + a_rows a2 * a_cols p /\ a_cols d3 = a_cols a2 * a_cols p)%nat.
Proof. intros a1 a2 p [H Z]. exists (firstM a1 p), (midM a1 a2 p), (lastM a2 p).
  destruct (shapes_3d a1 a2 p H) as [S1 S2]. change (zero2 (mmul a1 a2)) in Z.
  unfold generate_3d_product_code. rewrite first_ok, mid_ok, last_ok by auto. cbn [pbind]. rewrite !matmul_ok by auto. cbn [pbind].
  pose proof (first_mid a1 a2 p H Z) as Z1. pose proof (mid_last a1 a2 p H Z) as Z2.
  rewrite (proj2 (even_everywhere_iff _) Z1), (proj2 (even_everywhere_iff _) Z2). split; [reflexivity|].
  split; [split; auto|]. split; [split; auto|]. cbn. repeat split. Qed.
Print Assumptions C20_3d_chain_complex.

(** and nothing else is accepted *)
Theorem C20_3d_accepts_iff : forall a1 a2 p, (0 < a_rows p)%nat ->
  ((exists ds, generate_3d_product_code a1 a2 p = Ret ds) <-> compose_zero a1 a2).
Proof. intros a1 a2 p R. split.
  - intros [ds E]. destruct (Nat.eq_dec (a_cols a1) (a_rows a2)) as [H|H].
    + split; auto. change (zero2 (mmul a1 a2)). apply (first_mid_conv a1 a2 p H R).
      unfold generate_3d_product_code in E. rewrite first_ok, mid_ok, last_ok in E by auto. cbn [pbind] in E.
      destruct (shapes_3d a1 a2 p H) as [S1 S2]. rewrite !matmul_ok in E by auto. cbn [pbind] in E.
      apply even_everywhere_iff. destruct (even_everywhere (mmul (firstM a1 p) (midM a1 a2 p))); auto; discriminate.
    + exfalso. unfold generate_3d_product_code in E. rewrite first_ok in E. cbn [pbind] in E. unfold middle_map in E. rewrite first_ok in E. cbn [pbind] in E.
      destruct (Nat.ltb _ _); [discriminate|]. rewrite hstackA_ok in E by reflexivity. cbn [pbind] in E.
      destruct (vstackA _ _) as [d2|] eqn:V; [|discriminate]. cbn [pbind] in E. rewrite last_ok in E. cbn [pbind] in E.
      unfold vstackA in V. destruct (Nat.eqb _ _); [|discriminate]. injection V as <-.
      unfold matmul in E. match type of E with context [if (?x =? ?y)%nat then Ret (mmul (firstM a1 p) _) else _] => destruct (Nat.eqb_spec x y) as [Q|Q] end; [|discriminate].
      cbn in Q. assert (a_cols a1 * a_rows p = a_rows a2 * a_rows p)%nat by lia. apply H. nia.
  - intros C. destruct (C20_3d_chain_complex a1 a2 p C) as (d1 & d2 & d3 & E & _). eauto. Qed.
Print Assumptions C20_3d_accepts_iff.

Lemma gen4_ok a1 a2 a3 p checks : compose_zero a1 a2 -> compose_zero a2 a3 ->
  generate_4d_product_code a1 a2 a3 p checks = Ret (firstM a1 p, midM a1 a2 p, midM a2 a3 p, lastM a3 p) /\
  compose_zero (firstM a1 p) (midM a1 a2 p) /\ compose_zero (midM a1 a2 p) (midM a2 a3 p) /\ compose_zero (midM a2 a3 p) (lastM a3 p).
Proof. intros [H Z] [H' Z']. change (zero2 (mmul a1 a2)) in Z. change (zero2 (mmul a2 a3)) in Z'.
  destruct (shapes_3d a1 a2 p H) as [S1 _]. destruct (shapes_3d a2 a3 p H') as [S2 S3].
  assert (S4 : a_cols (midM a1 a2 p) = a_rows (midM a2 a3 p)) by (rewrite <- S2; reflexivity).
  pose proof (first_mid a1 a2 p H Z) as Z1. pose proof (mid_mid a1 a2 a3 p H H' Z Z') as Z2. pose proof (mid_last a2 a3 p H' Z') as Z3.
  split; [|split; [|split]; split; auto].
  unfold generate_4d_product_code. rewrite first_ok, !mid_ok, last_ok by auto. cbn [pbind]. destruct checks; auto.
  unfold run_checks_scipy. rewrite !matmul_ok by auto. cbn [pbind].
  rewrite (proj2 (even_everywhere_iff _) Z1), (proj2 (even_everywhere_iff _) Z2), (proj2 (even_everywhere_iff _) Z3). reflexivity. Qed.

(** the 4D construction succeeds and is a chain complex whether or not its own checks are switched on *)
Theorem C20_4d_chain_complex : forall a1 a2 a3 p checks, compose_zero a1 a2 -> compose_zero a2 a3 ->
  exists d1 d2 d3 d4, generate_4d_product_code a1 a2 a3 p checks = Ret (d1, d2, d3, d4) /\
    compose_zero d1 d2 /\ compose_zero d2 d3 /\ compose_zero d3 d4.
Proof. intros a1 a2 a3 p checks H H'. destruct (gen4_ok a1 a2 a3 p checks H H') as (E & A). repeat eexists; [exact E | apply A..]. Qed.
Print Assumptions C20_4d_chain_complex.

(** Z.even of sums of products modulo 2 *)
Lemma even_mod2 x : Z.even (x mod 2) = Z.even x.
Proof. rewrite (Z.div_mod x 2) at 2 by lia. rewrite Z.even_add, Z.even_mul. simpl. destruct (Z.even (x mod 2)); reflexivity. Qed.
Lemma even_sum_ext n f g : (forall k, (k < n)%nat -> Z.even (f k) = Z.even (g k)) -> Z.even (sumZ n f) = Z.even (sumZ n g).
Proof. induction n; simpl; intros H; auto. rewrite !Z.even_add, IHn, H; auto. Qed.

(** composing to zero means: the syndrome under A of any B-image vanishes *)
Theorem C20_metacheck_annihilates : forall A B e i, compose_zero A B -> (i < a_rows A)%nat ->
  Z.even (sumZ (a_cols A) (fun k => a_at A i k * syn B e k)) = true.
Proof. intros A B e i [H Z] Hi. unfold syn.
  rewrite (even_sum_ext _ _ (fun k => sumZ (a_cols B) (fun l => a_at A i k * a_at B k l * e l))).
  - rewrite sumZ_swap. apply sumZ_even. intros l Hl. rewrite sumZ_scal_r, Z.even_mul, Z; auto.
  - intros k Hk. rewrite Z.even_mul, even_mod2, <- Z.even_mul, <- sumZ_scal. f_equal. apply sumZ_ext. intros l Hl. ring. Qed.
Print Assumptions C20_metacheck_annihilates.

Lemma compose_zero_tr A B : compose_zero A B -> compose_zero (trA B) (trA A).
Proof. intros [H Z]. split; [symmetry; exact H|]. cbn. intros i j Hi Hj. rewrite <- (Z j i Hj Hi). f_equal. rewrite H. apply sumZ_ext. intros; ring. Qed.

(** create_code: from a CSS code (hx, hz) returned by the external hypergraph product and two further seeds,
    no exception is raised and the four arrays written to disk satisfy Mx Hx = 0, Hx Hz^T = 0, Mz Hz = 0. *)
Theorem C20_create_code_4d : forall hx hz s2 s3 checks, compose_zero hx (trA hz) ->
  exists mx hx' hz' mz, create_code_arrays hx hz s2 s3 checks = Ret (mx, hx', hz', mz) /\
    compose_zero mx hx' /\ compose_zero hx' (trA hz') /\ compose_zero mz hz'.
Proof. intros hx hz s2 s3 checks H. destruct (C20_3d_chain_complex hx (trA hz) s2 H) as (d1 & d2 & d3 & E & C1 & C2 & _).
  destruct (gen4_ok d1 d2 d3 s3 checks C1 C2) as (E4 & [S1 Z1] & [S2 Z2] & [S3 Z3]).
  unfold create_code_arrays. rewrite E. cbn [pbind]. rewrite E4. cbn [pbind]. rewrite !matmul_ok by auto. cbn [pbind].
  rewrite (proj2 (even_everywhere_iff (mmul _ _)) Z1), (proj2 (even_everywhere_iff (mmul _ _)) Z2), (proj2 (even_everywhere_iff (mmul _ _)) Z3).
  cbn [negb orb]. do 4 eexists. split; [reflexivity|]. split; [split; auto|]. split; [split; auto|].
  apply compose_zero_tr. split; auto. Qed.
Print Assumptions C20_create_code_4d.

Theorem C20_create_code_3d : forall hx hz s2, compose_zero hx (trA hz) ->
  exists hx' hz' mz, create_code_arrays_3d hx hz s2 = Ret (hx', hz', mz) /\ compose_zero hx' (trA hz') /\ compose_zero mz hz'.
Proof. intros hx hz s2 H. destruct (C20_3d_chain_complex hx (trA hz) s2 H) as (d1 & d2 & d3 & E & C1 & C2 & _).
  unfold create_code_arrays_3d. rewrite E. cbn [pbind]. do 3 eexists. split; [reflexivity|]. split; [exact C1|]. now apply compose_zero_tr. Qed.
Print Assumptions C20_create_code_3d.

(** non-vacuity: the 2D toric-code chain complex from two ring codes of length 2 and a ring seed *)
Definition arr_of (r c : nat) (l : list (list Z)) : arr := mkArr r c (fun i j => nth j (nth i l []) 0).
Definition ring3 : arr := arr_of 3 3 [[1;1;0];[0;1;1];[1;0;1]].
Definition ex_a1 : arr := hcat (kron ring3 (eye 3)) (kron (eye 3) (trA ring3)).
Definition ex_a2 : arr := vcat (kron (eye 3) (trA ring3)) (kron ring3 (eye 3)).
Lemma compose_zero_dec A B : a_cols A = a_rows B -> even_everywhere (mmul A B) = true -> compose_zero A B.
Proof. intros H E. split; [exact H|]. exact (proj1 (even_everywhere_iff (mmul A B)) E). Qed.
Lemma ex_C20 : compose_zero ex_a1 ex_a2.
Proof. refine (compose_zero_dec ex_a1 ex_a2 eq_refl _). vm_compute. reflexivity. Qed.
Example C20_nonvacuous : compose_zero ex_a1 ex_a2 /\ (exists ds, generate_3d_product_code ex_a1 ex_a2 ring3 = Ret ds) /\
  generate_3d_product_code ring3 ring3 ring3 = Raise RuntimeError.
Proof. split; [exact ex_C20|]. split; [apply C20_3d_accepts_iff; [unfold ring3, arr_of; cbn [a_rows]; lia | exact ex_C20]|].
  unfold generate_3d_product_code. rewrite first_ok, mid_ok, last_ok by reflexivity. cbn [pbind]. 
  destruct (shapes_3d ring3 ring3 ring3 eq_refl) as [S1 S2]. rewrite !matmul_ok by auto. cbn [pbind].
  replace (even_everywhere (mmul (firstM ring3 ring3) (midM ring3 ring3 ring3))) with false by (vm_compute; reflexivity). reflexivity. Qed.
