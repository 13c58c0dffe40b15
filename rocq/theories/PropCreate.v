(** * C65: the product codes written to disk by create_code *)
From Coq Require Import List Arith Bool ZArith Lia String.
From Verif Require Import ProductProofs PropProduct CssProofs PropCss BbProofs CreateModel.
Import ListNotations.
Local Open Scope nat_scope.

(** specification: lg is a complete, independent set of logical operators: it commutes with the checks [checks], and together with the
    stabilizers [stabs] it spans everything that does, without redundancy *)
Definition logicals (n : nat) (checks stabs : mat) (lg : list vec) : Prop :=
  (forall l, In l lg -> in_kernel n checks l) /\ (forall v, in_kernel n checks v <-> span n (stabs ++ lg) v) /\
  (forall a, List.length a = List.length lg -> span n stabs (lincomb n a lg) -> a = vzero (List.length lg)) /\
  exists r1 r2, has_rank n checks r1 /\ has_rank n stabs r2 /\ List.length lg + r1 + r2 = n.
Lemma logicals_ok L n m1 m2 : ldpc_ok L -> wf n m1 -> wf n m2 -> orthogonal m1 m2 -> logicals n m1 m2 (compute_logical L n m1 m2).
Proof. intros HL W1 W2 O. destruct (compute_logical_spec L n m1 m2 HL W1 W2 (orthogonal_kernel n m1 m2 W2 O)) as (WL & K & (WB & IB & SB) & E).
  destruct HL as (HN & HB & _). destruct (HN n m1 W1) as (_ & _ & SK). destruct (HB n m2 W2) as (WI & _ & SI).
  split; [exact K|]. split; [|split].
  - intros v. rewrite <- SK, <- SB, !span_app_iff by auto. split; intros (a & b & Ha & Hb & Hv); exists a, b; repeat split; auto; now apply SI.
  - intros a Ha S. apply SI in S. pose proof (indep_app_disjoint n _ _ _ WI WL IB S (ex_intro _ a (conj Ha eq_refl))) as Z0. apply indep_app_r in IB; auto.
  - exists (rk n m1), (rk n m2). split; [now apply rk_correct|]. split; [now apply rk_correct|exact E]. Qed.
(** the check matrix of an array as bits *)
Definition bits (A : arr) : mat := nd_rows (to_nd A).
Lemma bits_wf A : wf (a_cols A) (bits A).
Proof. exact (to_nd_ok A). Qed.
Lemma compose_orth A B : compose_zero A (trA B) -> orthogonal (bits A) (bits B).
Proof. intros [S Z] a b Ha Hb. unfold bits, to_nd in Ha, Hb. cbn [nd_rows] in Ha, Hb. apply in_map_iff in Ha as (i & <- & Hi). apply in_map_iff in Hb as (j & <- & Hj). apply in_seq in Hi, Hj.
  cbn [trA a_rows a_cols a_at] in S, Z. rewrite <- S, dot_odd. cbn [Nat.add]. specialize (Z i j ltac:(lia) ltac:(lia)). rewrite <- Z.negb_even, Z. reflexivity. Qed.
Lemma orth_sym (A B : mat) : orthogonal A B -> orthogonal B A.
Proof. intros O a b Ha Hb. rewrite dot_comm. now apply O. Qed.
Lemma lz_ok L hx hz : ldpc_ok L -> compose_zero hx (trA hz) -> logicals (a_cols hx) (bits hx) (bits hz) (compute_lz L hx hz) /\ logicals (a_cols hx) (bits hz) (bits hx) (compute_lz L hz hx).
Proof. intros OL C. pose proof (compose_orth _ _ C) as O. assert (W : wf (a_cols hx) (bits hz)) by (destruct C as [S _]; cbn in S; rewrite S; apply bits_wf).
  destruct C as [S _]. cbn in S. unfold compute_lz. rewrite <- S. fold (bits hx) (bits hz). pose proof (bits_wf hx). pose proof (orth_sym _ _ O). split; apply logicals_ok; assumption. Qed.

(** 4D: from any hypergraph product (hx0, hz0) with commuting checks and two further seeds, the call succeeds and the saved matrices are
    commuting checks with their meta-checks and, on request, complete sets of logical operators *)
Theorem C65_create_code : forall L hgp s0 s1 s2 s3 rest compute_logicals checks hx0 hz0, ldpc_ok L -> hgp s0 s1 = (hx0, hz0) -> compose_zero hx0 (trA hz0) ->
  exists f, create_code L hgp "hgp" (s0 :: s1 :: s2 :: s3 :: rest) compute_logicals checks = mkCreated (Some f) None (Ret tt) /\
    compose_zero (s_hx f) (trA (s_hz f)) /\ (exists mx, s_mx f = Some mx /\ compose_zero mx (s_hx f)) /\ compose_zero (s_mz f) (s_hz f) /\
    (if compute_logicals then
       exists lx lz, s_lx f = Some lx /\ s_lz f = Some lz /\ logicals (a_cols (s_hx f)) (bits (s_hz f)) (bits (s_hx f)) lx /\ logicals (a_cols (s_hx f)) (bits (s_hx f)) (bits (s_hz f)) lz /\
         List.length lx = List.length lz
     else s_lx f = None /\ s_lz f = None).
Proof. intros L hgp s0 s1 s2 s3 rest cl checks hx0 hz0 OL EH C.
  destruct (C20_create_code_4d hx0 hz0 s2 s3 checks C) as (mx & hx & hz & mz & E & C1 & C2 & C3).
  destruct (C20_3d_chain_complex hx0 (trA hz0) s2 C) as (d1 & d2 & d3 & E3 & _).
  unfold create_code. cbn [String.eqb Ascii.eqb Bool.eqb seed nth_error pbind]. rewrite EH, E3. cbn [pbind]. rewrite E. unfold compute_logicals_.
  destruct (lz_ok L hx hz OL C2) as [LZ LX].
  eexists. split; [reflexivity|]. cbn [s_hx s_hz s_mx s_mz s_lx s_lz]. split; [exact C2|]. split; [eauto|]. split; [exact C3|]. destruct cl; [|split; reflexivity].
  exists (compute_lz L hz hx), (compute_lz L hx hz). repeat (split; [reflexivity|]). split; [exact LX|]. split; [exact LZ|].
  destruct LX as (_ & _ & _ & r1 & r2 & A1 & A2 & A3). destruct LZ as (_ & _ & _ & t1 & t2 & B1 & B2 & B3).
  assert (Wx : wf (a_cols hx) (bits hx)) by apply bits_wf. assert (Wz : wf (a_cols hx) (bits hz)) by (destruct C2 as [S _]; cbn in S; rewrite S; apply bits_wf).
  rewrite (rk_unique _ _ _ Wz A1) in A3. rewrite (rk_unique _ _ _ Wx A2) in A3. rewrite (rk_unique _ _ _ Wx B1) in B3. rewrite (rk_unique _ _ _ Wz B2) in B3. lia. Qed.
Print Assumptions C65_create_code.
(** what is rejected, before anything is written *)
Theorem C65_rejections : forall L hgp constructor seeds compute_logicals checks,
  (constructor <> "hgp"%string -> create_code L hgp constructor seeds compute_logicals checks = fails ValueError) /\
  (List.length seeds < 4 -> forall f p, create_code L hgp "hgp" seeds compute_logicals checks <> mkCreated (Some f) p (Ret tt)) /\
  (forall s0 s1 s2 s3 hx0 hz0, seeds = [s0; s1; s2; s3] -> hgp s0 s1 = (hx0, hz0) -> 0 < a_rows s2 -> ~ compose_zero hx0 (trA hz0) ->
     exists e, create_code L hgp "hgp" seeds compute_logicals checks = fails e).
Proof. intros L hgp constructor seeds cl checks. split; [|split].
  - intros N. unfold create_code. apply String.eqb_neq in N. now rewrite N.
  - intros Hl f p. unfold create_code. destruct seeds as [|s0 [|s1 [|s2 [|s3 rest]]]]; cbn [List.length] in Hl; try lia; cbn [String.eqb Ascii.eqb Bool.eqb seed nth_error pbind]; try discriminate.
    + destruct (hgp s0 s1). discriminate.
    + destruct (hgp s0 s1). destruct (generate_3d_product_code _ _ _); discriminate.
  - intros s0 s1 s2 s3 hx0 hz0 -> EH R N. unfold create_code. cbn [String.eqb Ascii.eqb Bool.eqb seed nth_error pbind]. rewrite EH.
    destruct (generate_3d_product_code hx0 (trA hz0) s2) as [ds|e] eqn:E; [|exists e; reflexivity]. exfalso. apply N. apply (C20_3d_accepts_iff hx0 (trA hz0) s2 R). eauto. Qed.
Print Assumptions C65_rejections.
(** 3D: the matrices and logical operators are saved, but only if the logical operators are asked for; in any case the call then fails and the
    parameters of the code are never stored *)
Theorem C65_create_code_3d_refuted : forall L hgp s0 s1 s2 rest compute_logicals hx0 hz0, ldpc_ok L -> hgp s0 s1 = (hx0, hz0) -> compose_zero hx0 (trA hz0) ->
  exists fs, create_code_3d L hgp "hgp" (s0 :: s1 :: s2 :: rest) compute_logicals = mkCreated fs None (Raise AttributeError) /\
    (if compute_logicals then exists f lx lz, fs = Some f /\ compose_zero (s_hx f) (trA (s_hz f)) /\ compose_zero (s_mz f) (s_hz f) /\ s_lx f = Some lx /\ s_lz f = Some lz /\
       logicals (a_cols (s_hx f)) (bits (s_hz f)) (bits (s_hx f)) lx /\ logicals (a_cols (s_hx f)) (bits (s_hx f)) (bits (s_hz f)) lz
     else fs = None).
Proof. intros L hgp s0 s1 s2 rest cl hx0 hz0 OL EH C. destruct (C20_create_code_3d hx0 hz0 s2 C) as (hx & hz & mz & E & C1 & C2). destruct (lz_ok L hx hz OL C1) as [LZ LX].
  unfold create_code_3d. cbn [String.eqb Ascii.eqb Bool.eqb seed nth_error pbind]. rewrite EH. rewrite E. unfold compute_logicals_.
  eexists. split; [reflexivity|]. destruct cl; [|reflexivity]. do 3 eexists. split; [reflexivity|]. cbn [s_hx s_hz s_mz s_lx s_lz]. repeat (split; [eauto; fail|]). exact LZ. Qed.
Print Assumptions C65_create_code_3d_refuted.

(** with the hypergraph product of bposd the checks always commute, so create_code succeeds on all seeds *)
Lemma hypergraph_product_commutes h1 h2 : compose_zero (fst (hypergraph_product h1 h2)) (trA (snd (hypergraph_product h1 h2))).
Proof. unfold hypergraph_product. cbn [fst snd].
  assert (Z0 : zero2 (mmul (zerosA 0 (a_rows h1)) h1)) by (intros i j Hi; cbn in Hi; lia).
  pose proof (mid_last (zerosA 0 (a_rows h1)) h1 (trA h2) eq_refl Z0) as M. split; [reflexivity|].
  intros i j Hi Hj. change (i < a_rows h1 * a_cols h2) in Hi. change (j < a_cols h1 * a_rows h2) in Hj. specialize (M i j ltac:(cbn; lia) Hj). rewrite <- M. f_equal. apply sumZ_ext. intros k Hk. f_equal.
  change (a_at (midM (zerosA 0 (a_rows h1)) h1 (trA h2)) i k) with (if i <? a_rows h1 * a_cols h2 then a_at (firstM h1 (trA h2)) i k else a_at (lowZ (zerosA 0 (a_rows h1)) h1 (trA h2)) (i - a_rows h1 * a_cols h2) k).
  apply Nat.ltb_lt in Hi. rewrite Hi. reflexivity. Qed.
Theorem C65_hypergraph_product : forall L s0 s1 s2 s3 checks, ldpc_ok L ->
  exists f lx lz, create_code L hypergraph_product "hgp" [s0; s1; s2; s3] true checks = mkCreated (Some f) None (Ret tt) /\
    compose_zero (s_hx f) (trA (s_hz f)) /\ s_lx f = Some lx /\ s_lz f = Some lz /\
    logicals (a_cols (s_hx f)) (bits (s_hz f)) (bits (s_hx f)) lx /\ logicals (a_cols (s_hx f)) (bits (s_hx f)) (bits (s_hz f)) lz.
Proof. intros L s0 s1 s2 s3 checks OL. destruct (hypergraph_product s0 s1) as [hx0 hz0] eqn:E. pose proof (hypergraph_product_commutes s0 s1) as C. rewrite E in C. cbn [fst snd] in C.
  destruct (C65_create_code L hypergraph_product s0 s1 s2 s3 [] true checks hx0 hz0 OL E C) as (f & Ef & C2 & _ & _ & lx & lz & E1 & E2 & L1 & L2 & _). exists f, lx, lz. tauto. Qed.
Print Assumptions C65_hypergraph_product.
(** non-vacuity: the library contract is met, the toric code of two rings of length three is a product with commuting, non-trivial checks *)
Example C65_nonvacuous : ldpc_ok ldpc_ref /\ compose_zero (fst (hypergraph_product ring3 ring3)) (trA (snd (hypergraph_product ring3 ring3))) /\
  map (fun r => List.length (filter (fun b => b) r)) (bits (fst (hypergraph_product ring3 ring3))) = [4; 4; 4; 4; 4; 4; 4; 4; 4] /\ ~ compose_zero ring3 (trA ring3).
Proof. split; [exact ldpc_ref_ok|]. split; [apply hypergraph_product_commutes|]. split; [vm_compute; reflexivity|]. intros [_ Z]. specialize (Z 0 1 ltac:(vm_compute; lia) ltac:(vm_compute; lia)). vm_compute in Z. discriminate. Qed.
