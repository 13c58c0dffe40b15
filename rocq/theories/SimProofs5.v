(** * SimProofs5: the syndromes of the sampled records are those of the sampled data (continued) *)
From Coq Require Import Permutation.
From Verif Require Export SimProofs4.
Local Open Scope nat_scope.

Definition sgn (b : bool) : Z := if b then (-1)%Z else 1%Z.
(** psi is an eigenstate of X(r) with sign e *)
Definition eigen (n : nat) (r : vec) (e : bool) (psi : state) : Prop := forall x, length x = n -> psi (vxor x r) = (sgn e * psi x)%Z.
Definition checks (x : bool) (k : nat) (rows : list vec) : list sop := flat_map (fun a => check_ops x (fst a) (snd a)) (combine (seq k (length rows)) rows).
Lemma sq_check x anc r q : In q (sq (check_ops x anc r)) -> q = anc \/ In q (support r).
Proof. unfold sq. intros I. apply in_flat_map in I as (o & Io & I). unfold check_ops in Io. destruct x.
  - apply in_app_iff in Io as [[<-|[]]|Io]; [destruct I as [<-|[]]; auto|]. apply in_app_iff in Io as [Io|[<-|[]]]; [|destruct I as [<-|[]]; auto]. apply in_map_iff in Io as (r' & <- & Ir). destruct I as [<-|[<-|[]]]; auto.
  - apply in_app_iff in Io as [Io|[<-|[]]]; [|destruct I as [<-|[]]; auto]. apply in_map_iff in Io as (r' & <- & Ir). destruct I as [<-|[<-|[]]]; auto. Qed.
Lemma records_checks_len x rows k : length (records (checks x k rows)) = length rows.
Proof. unfold checks. rewrite records_checks, map_length, seq_length. reflexivity. Qed.
Lemma par_xor n r x y : length x = n -> length y = n -> SimProofs4.par n r (vxor x y) = xorb (SimProofs4.par n r x) (SimProofs4.par n r y).
Proof. intros. unfold SimProofs4.par. apply dot_vxor_r. congruence. Qed.
Lemma step_split x k r rows o outs psi : sexec (checks x k (r :: rows)) (o :: outs) psi = sexec (checks x (S k) rows) outs (sexec (check_ops x k r) [o] psi).
Proof. unfold checks. cbn [length seq combine flat_map fst snd]. change (o :: outs) with ([o] ++ outs). apply sexec_app. now rewrite records_check. Qed.
Lemma clean_next n x k a r o psi : a <> k -> k < n -> (forall q, In q (support r) -> q < k) -> k < a -> clean n [a] psi -> clean n [a] (sexec (check_ops x k r) [o] psi).
Proof. intros N Hk B L C. apply clean_sexec; auto.
  - intros I. apply sq_check in I as [I|I]; [lia|]. apply B in I. lia.
  - intros q I. apply sq_check in I as [->|I]; auto. apply B in I. lia. Qed.

Lemma zchecks n k0 rows : forall k outs psi, k0 <= k -> k + length rows <= n -> length outs = length rows -> (forall r q, In r rows -> In q (support r) -> q < k0) -> (forall a, k <= a < k + length rows -> clean n [a] psi) ->
  (forall x, length x = n -> sexec (checks false k rows) outs psi x <> 0%Z -> psi x <> 0%Z /\ forall i, i < length rows -> SimProofs4.par n (nth i rows []) x = nth i outs false) /\
  (forall R e, length R = n -> (forall a, k <= a < k + length rows -> nth a R false = false) -> (forall r, In r rows -> SimProofs4.par n r R = false) -> eigen n R e psi -> eigen n R e (sexec (checks false k rows) outs psi)).
Proof. induction rows as [|r rows IHr]; intros k outs psi K0 Hk Ho B C.
  - destruct outs; [|discriminate]. cbn. split; [intros x _ H; split; auto; intros i Hi; lia|auto].
  - destruct outs as [|o outs]; [discriminate|]. cbn [length] in *. injection Ho as Ho. rewrite step_split.
    assert (Bk : forall q, In q (support r) -> q < k) by (intros q I; specialize (B r q (or_introl eq_refl) I); lia).
    destruct (zcheck n k r o psi) as (c1 & c2 & P1 & P2 & Z); [lia|intros q I; apply Bk in I; lia|apply C; lia|].
    destruct (IHr (S k) outs (sexec (check_ops false k r) [o] psi)) as [I1 I2]; [lia|lia|auto|intros r' q I; apply B; now right|intros a Ha; apply clean_next; auto; try lia; apply C; lia|].
    split.
    + intros x Hx NZ. destruct (I1 x Hx NZ) as [NZ1 Q]. specialize (Z x Hx). destruct (nth k x false) eqn:EK; [exfalso; apply NZ1; lia|]. destruct (Bool.eqb (SimProofs4.par n r x) o) eqn:EP; [|exfalso; apply NZ1; lia].
      split; [intros E0; apply NZ1; rewrite E0 in Z; lia|]. intros [|i] Hi; cbn [nth]; [now apply eqb_prop|apply Q; lia].
    + intros R e LR RA RO E. apply I2; auto; [intros a Ha; apply RA; lia|intros r' I; apply RO; now right|]. intros x Hx. assert (LX : length (vxor x R) = n) by (rewrite vxor_length; congruence). assert (Z1 := Z x Hx). assert (Z2 := Z (vxor x R) LX).
      rewrite nth_vxor in Z2 by congruence. rewrite (RA k) in Z2 by lia. rewrite xorb_false_r in Z2. rewrite par_xor in Z2 by auto. rewrite (RO r (or_introl eq_refl)), xorb_false_r in Z2. rewrite E in Z2 by auto.
      destruct (nth k x false); [|destruct (Bool.eqb _ _)]; unfold sgn in *; destruct e; nia. Qed.
Lemma xchecks n k0 rows : forall k outs psi, k0 <= k -> k + length rows <= n -> length outs = length rows -> (forall r q, In r rows -> In q (support r) -> q < k0) -> (forall a, k <= a < k + length rows -> clean n [a] psi) ->
  (forall R e, length R = n -> (forall a, k0 <= a -> nth a R false = false) -> eigen n R e psi -> eigen n R e (sexec (checks true k rows) outs psi)) /\
  (forall i, i < length rows -> eigen n (supp_vec n (support (nth i rows []))) (nth i outs false) (sexec (checks true k rows) outs psi)).
Proof. induction rows as [|r rows IHr]; intros k outs psi K0 Hk Ho B C.
  - destruct outs; [|discriminate]. cbn. split; [auto|intros i Hi; lia].
  - destruct outs as [|o outs]; [discriminate|]. cbn [length] in *. injection Ho as Ho. rewrite step_split.
    assert (Bk : forall q, In q (support r) -> q < k) by (intros q I; specialize (B r q (or_introl eq_refl) I); lia).
    destruct (xcheck n k r o psi) as (c1 & c2 & P1 & P2 & Z); [lia|intros q I; apply Bk in I; lia|apply C; lia|].
    destruct (IHr (S k) outs (sexec (check_ops true k r) [o] psi)) as [I1 I2]; [lia|lia|auto|intros r' q I; apply B; now right|intros a Ha; apply clean_next; auto; try lia; apply C; lia|].
    assert (SX : forall R x, length R = n -> length x = n -> nth k R false = false -> set_nth k false (vxor x R) = vxor (set_nth k false x) R).
    { intros R x LR Hx E. apply (vec_ext n); [rewrite set_nth_length, vxor_length; rewrite ?set_nth_length; congruence|rewrite vxor_length; rewrite ?set_nth_length; congruence|]. intros j Hj. rewrite nth_set_nth by (rewrite vxor_length; unfold vec in *; lia). rewrite !nth_vxor by (rewrite ?set_nth_length; congruence). rewrite nth_set_nth by (unfold vec in *; lia). destruct (Nat.eqb_spec j k) as [->|]; auto. now rewrite E. }
    set (Rr := supp_vec n (support r)) in *. assert (LRr : length Rr = n) by apply supp_length.
    assert (RrK : forall a, k0 <= a -> nth a Rr false = false).
    { intros a Ha. destruct (Nat.lt_ge_cases a n) as [H|H]; [|apply nth_overflow; lia]. unfold Rr. rewrite nth_supp by auto. apply memb_out. intros I. specialize (B r a (or_introl eq_refl) I). lia. }
    split.
    + intros R e LR RA E. apply I1; auto. intros x Hx. assert (LX : length (vxor x R) = n) by (rewrite vxor_length; congruence). assert (Z1 := Z x Hx). assert (Z2 := Z (vxor x R) LX). rewrite SX in Z2 by (auto; apply RA; lia).
      assert (LS : length (set_nth k false x) = n) by (now rewrite set_nth_length). rewrite <- vxor_assoc, (vxor_comm R Rr), vxor_assoc in Z2. rewrite !E in Z2 by (rewrite ?vxor_length; congruence). destruct e, o; unfold sgn in *; nia.
    + intros [|i] Hi; cbn [nth]; [|apply I2; lia]. apply I1; auto. fold Rr. intros x Hx. assert (LX : length (vxor x Rr) = n) by (rewrite vxor_length; congruence). assert (Z1 := Z x Hx). assert (Z2 := Z (vxor x Rr) LX). rewrite SX in Z2 by (auto; apply RrK; lia).
      rewrite <- vxor_assoc, (vxor_self' n Rr LRr), vxor_zero_r in Z2 by (now rewrite set_nth_length). destruct o; unfold sgn in *; nia. Qed.

(** ** data measurements *)
Lemma skipn_one (R : list bool) : forall k, skipn (S k) R = skipn 1 (skipn k R).
Proof. induction R as [|r R IHR]; intros [|k]; try reflexivity. change (skipn (S (S k)) (r :: R)) with (skipn (S k) R). rewrite IHR. reflexivity. Qed.
Lemma zdata n : forall m k d psi x, length d = m -> length x = n -> k + m <= n -> sexec (map SMR (seq k m)) d psi x <> 0%Z -> exists y, length y = n /\ psi y <> 0%Z /\ forall i, i < m -> nth (k + i) y false = nth i d false.
Proof. induction m as [|m IHm]; intros k d psi x Ld Lx Hk NZ; [exists x; split; auto; split; [exact NZ|lia]|]. destruct d as [|o d]; [discriminate|]. injection Ld as Ld. cbn [seq map sexec hd tl] in NZ.
  destruct (IHm (S k) d _ x Ld Lx ltac:(lia) NZ) as (y & Ly & NY & Q). exists (set_nth k o y). split; [now rewrite set_nth_length|]. split.
  - destruct o.
    + unfold flipq, project in NY. rewrite nth_set_nth in NY by (unfold vec in *; lia). rewrite Nat.eqb_refl in NY. destruct (nth k y false); cbn [negb Bool.eqb] in NY; [congruence|exact NY].
    + unfold project in NY. destruct (nth k y false) eqn:E; cbn [Bool.eqb] in NY; [congruence|]. rewrite <- E, set_nth_same. exact NY.
  - intros [|i] Hi; cbn [nth]; rewrite nth_set_nth by (unfold vec in *; lia); [now rewrite Nat.add_0_r, Nat.eqb_refl|]. destruct (Nat.eqb_spec (k + S i) k); [lia|]. rewrite Nat.add_succ_r. apply (Q i). lia. Qed.
Lemma xdata n : forall m k d psi R e, length d = m -> length R = n -> k + m <= n -> eigen n R e psi -> (forall a, a < k \/ k + m <= a -> nth a R false = false) ->
  forall x, length x = n -> sexec (map SMRX (seq k m)) d psi x <> 0%Z -> e = dot (firstn m (skipn k R)) d.
Proof. induction m as [|m IHm]; intros k d psi R e Ld LR Hk E RA x Lx NZ.
  - cbn. assert (R0 : R = vzero n) by (apply (vec_ext n); rewrite ?vzero_length; auto; intros j Hj; rewrite nth_vzero; apply RA; lia). specialize (E x Lx). rewrite R0, vxor_zero_r in E by auto. cbn in NZ. destruct e; auto. unfold sgn in E. lia.
  - destruct d as [|o d]; [discriminate|]. injection Ld as Ld. cbn [seq map sexec hd tl] in NZ.
    set (phi := apply_gate (if o then flipq k (project k o (apply_gate psi (GH k))) else project k o (apply_gate psi (GH k))) (GH k)) in NZ.
    assert (PH : forall y, length y = n -> phi y = (psi (set_nth k false y) + sgn o * psi (set_nth k true y))%Z).
    { intros y Hy. unfold phi. cbn [apply_gate]. assert (SS : forall b b', set_nth k b (set_nth k b' y) = set_nth k b y).
      { intros b b'. apply (vec_ext n); rewrite ?set_nth_length; auto. intros j Hj. rewrite !nth_set_nth by (rewrite ?set_nth_length; unfold vec in *; lia). now destruct (j =? k). }
      assert (NS : forall b, nth k (set_nth k b y) false = b) by (intros b; rewrite nth_set_nth by (unfold vec in *; lia); now rewrite Nat.eqb_refl).
      assert (PB : forall o b, project k o (apply_gate psi (GH k)) (set_nth k b y) = if Bool.eqb b o then (psi (set_nth k false y) + sgn b * psi (set_nth k true y))%Z else 0%Z) by (intros o' b; unfold project; cbn [apply_gate]; rewrite NS, !SS; reflexivity).
      destruct o; unfold flipq; rewrite ?NS, ?SS, !PB; cbn [negb Bool.eqb]; destruct (nth k y false); lia. }
    assert (SK : length (skipn k R) = S (n - S k)) by (rewrite skipn_length; lia). destruct (skipn k R) as [|b R'] eqn:ER; [discriminate|].
    assert (NR : nth k R false = b) by (rewrite <- (firstn_skipn k R), app_nth2, firstn_length_le, Nat.sub_diag, ER by (rewrite ?firstn_length_le; lia); reflexivity).
    set (R1 := set_nth k false R). assert (L1 : length R1 = n) by (unfold R1; now rewrite set_nth_length).
    assert (N1 : forall j, nth j R1 false = if j =? k then false else nth j R false) by (intros j; unfold R1; apply nth_set_nth; lia).
    assert (S1 : skipn (S k) R1 = R').
    { transitivity (skipn (S k) R); [|assert (X : skipn (S k) R = skipn 1 (skipn k R)) by (apply skipn_one); rewrite X, ER; reflexivity].
      unfold R1. clear. revert k. induction R as [|r R IHR]; intros [|k]; cbn; auto. apply IHR. }
    assert (EP : eigen n R1 (xorb e (b && o)) phi).
    { intros y Hy. assert (LY : length (vxor y R1) = n) by (rewrite vxor_length; congruence). rewrite !PH by auto.
      assert (SX : forall v, set_nth k v (vxor y R1) = vxor (set_nth k (xorb v b) y) R).
      { intros v. apply (vec_ext n); [rewrite set_nth_length, vxor_length; rewrite ?set_nth_length; congruence|rewrite vxor_length; rewrite ?set_nth_length; congruence|]. intros j Hj. rewrite nth_set_nth by (unfold vec in *; lia). rewrite !nth_vxor by (rewrite ?set_nth_length; congruence). rewrite N1, nth_set_nth by (unfold vec in *; lia).
        destruct (Nat.eqb_spec j k) as [->|]; auto. rewrite NR. now destruct v, b. }
      rewrite !SX. rewrite !E by (now rewrite set_nth_length). destruct b, o, e; cbn [xorb andb]; unfold sgn; lia. }
    assert (G := IHm (S k) d phi R1 (xorb e (b && o)) Ld L1 ltac:(lia) EP). rewrite S1 in G. cbn [firstn]. change (dot (b :: firstn m R') (o :: d)) with (xorb (b && o) (dot (firstn m R') d)).
    rewrite <- (G ltac:(intros a Ha; rewrite N1; destruct (Nat.eqb_spec a k); auto; apply RA; lia) x Lx NZ). now destruct e, b, o. Qed.
