(** * HexDist: no logical operator of the hexagonal color code of size m is lighter than 2m+1.

    Row-peeling argument on triangular arrays.  A level [k] stands for the rows 3k, 3k+1, 3k+2 of the triangle, cut in
    blocks of three columns; in every block two of the three points of a row are qubits:
    row 3k: columns 3t ([fa]) and 3t+2 ([fa']); row 3k+1: 3t ([fb]) and 3t+1 ([fb']); row 3k+2: 3t+1 ([fc]) and 3t+2 ([fc']). *)
From Coq Require Import Arith Lia Bool List.
Import ListNotations.

Fixpoint nsum (n : nat) (f : nat -> nat) : nat := match n with O => 0 | S k => nsum k f + f k end.
Fixpoint xsum (n : nat) (f : nat -> bool) : bool := match n with O => false | S k => xorb (xsum k f) (f k) end.
Definition pv (f : nat -> bool) (t : nat) : bool := match t with O => false | S k => f k end.
Definition bn (b : bool) : nat := if b then 1 else 0.

Lemma nsum_ext n f g : (forall t, t < n -> f t = g t) -> nsum n f = nsum n g.
Proof. induction n; cbn; auto. intros H. rewrite IHn, H; auto. Qed.
Lemma nsum_le n f g : (forall t, t < n -> f t <= g t) -> nsum n f <= nsum n g.
Proof. induction n; cbn; intros H; [lia|]. assert (A := H n ltac:(lia)). assert (B := IHn ltac:(auto)). lia. Qed.
Lemma nsum_add n f g : nsum n (fun t => f t + g t) = nsum n f + nsum n g.
Proof. induction n; cbn; auto. lia. Qed.
Lemma nsum_first n f : nsum (S n) f = f 0 + nsum n (fun t => f (S t)).
Proof. induction n; [cbn; lia|]. change (nsum (S (S n)) f) with (nsum (S n) f + f (S n)). rewrite IHn. cbn. lia. Qed.

Record tri := mkTri { fa : nat -> nat -> bool; fa' : nat -> nat -> bool; fb : nat -> nat -> bool; fb' : nat -> nat -> bool; fc : nat -> nat -> bool; fc' : nat -> nat -> bool }.
Definition wblock (f : tri) (k t : nat) : nat := bn (fa f k t) + bn (fa' f k t) + bn (fb f k t) + bn (fb' f k t) + bn (fc f k t) + bn (fc' f k t).
Definition wlevel (f : tri) (E k : nat) : nat := nsum (S E) (wblock f k).
Definition wtri (f : tri) (e : nat) : nat := nsum (S e) (fun k => wlevel f (e - k) k).

Record good (e : nat) (f : tri) : Prop := {
  z_a : forall k t, k + t > e -> fa f k t = false;
  z_a' : forall k t, k + t >= e -> fa' f k t = false;
  z_b : forall k t, k + t >= e -> fb f k t = false;
  z_b' : forall k t, k + t >= e -> fb' f k t = false;
  z_c : forall k t, k + t >= e -> fc f k t = false;
  z_c' : forall k t, k + t + 1 >= e -> fc' f k t = false;
  ck0 : forall k t, k + t < e -> xorb (xorb (fa f k t) (fa' f k t)) (xorb (fb f k t) (fb' f k t)) =
          match k with O => false | S l => xorb (fc f l t) (fc' f l t) end;
  ck1 : forall k t, k + t < e -> xorb (xorb (xorb (fb' f k t) (fb f k (S t))) (xorb (fc f k t) (fc' f k t))) (xorb (fa' f k t) (fa f k (S t))) = false;
  ck2 : forall k t, k + t < e -> xorb (xorb (xorb (pv (fc' f k) t) (fc f k t)) (xorb (pv (fa' f (S k)) t) (fa f (S k) t))) (xorb (fb f k t) (fb' f k t)) = false }.

Definition rowpar (f : tri) (n : nat) : bool := xsum n (fun t => xorb (fa f 0 t) (pv (fa' f 0) t)).

Section Step.
  Variables (e : nat) (f : tri).
  Hypothesis G : good (S e) f.
  Let x (t : nat) : bool := xorb (fa f 0 t) (fb f 0 t).
  Lemma x_other t : t < S e -> xorb (fa' f 0 t) (fb' f 0 t) = x t.
  Proof. intros H. pose proof (ck0 _ _ G 0 t H) as C. unfold x. destruct (fa f 0 t), (fa' f 0 t), (fb f 0 t), (fb' f 0 t); cbn in *; congruence. Qed.
  Lemma x_next t : t < S e -> xorb (fc f 0 t) (fc' f 0 t) = xorb (x t) (x (S t)).
  Proof. intros H. pose proof (ck1 _ _ G 0 t H) as C. rewrite <- (x_other t H). unfold x.
    destruct (fc f 0 t), (fc' f 0 t), (fa' f 0 t), (fb' f 0 t), (fb f 0 (S t)), (fa f 0 (S t)); cbn in *; congruence. Qed.

  (** the operator of the smaller triangle: the strip is replaced by a correction of its new bottom row *)
  Definition peel : tri := mkTri
    (fun k t => match k with O => xorb (fa f 1 t) (if t <=? e then x t else false) | _ => fa f (S k) t end)
    (fun k t => match k with O => xorb (fa' f 1 t) (if t <? e then x (S t) else false) | _ => fa' f (S k) t end)
    (fun k => fb f (S k)) (fun k => fb' f (S k)) (fun k => fc f (S k)) (fun k => fc' f (S k)).

  Lemma peel_good : good e peel.
  Proof. split; cbn [fa fa' fb fb' fc fc' peel].
    - intros [|k] t H; [rewrite (z_a _ _ G) by lia; replace (t <=? e) with false by (symmetry; apply Nat.leb_gt; lia); reflexivity|apply (z_a _ _ G); lia].
    - intros [|k] t H; [rewrite (z_a' _ _ G) by lia; replace (t <? e) with false by (symmetry; apply Nat.ltb_ge; lia); reflexivity|apply (z_a' _ _ G); lia].
    - intros k t H. apply (z_b _ _ G); lia.
    - intros k t H. apply (z_b' _ _ G); lia.
    - intros k t H. apply (z_c _ _ G); lia.
    - intros k t H. apply (z_c' _ _ G); lia.
    - intros [|k] t H; [|apply (ck0 _ _ G (S (S k)) t); lia].
      pose proof (ck0 _ _ G 1 t ltac:(lia)) as C. cbn in C. rewrite (x_next t) in C by lia.
      replace (t <=? e) with true by (symmetry; apply Nat.leb_le; lia). replace (t <? e) with true by (symmetry; apply Nat.ltb_lt; lia).
      destruct (fa f 1 t), (fa' f 1 t), (fb f 1 t), (fb' f 1 t), (x t), (x (S t)); cbn in *; congruence.
    - intros [|k] t H; [|apply (ck1 _ _ G (S (S k)) t); lia].
      pose proof (ck1 _ _ G 1 t ltac:(lia)) as C.
      replace (S t <=? e) with true by (symmetry; apply Nat.leb_le; lia). replace (t <? e) with true by (symmetry; apply Nat.ltb_lt; lia).
      destruct (fa' f 1 t), (fa f 1 (S t)), (x (S t)); cbn in *; rewrite ?xorb_true_r, ?xorb_false_r, ?negb_involutive in *; auto.
    - intros k t H. apply (ck2 _ _ G (S k) t); lia. Qed.

  (** parity of the bottom rows *)
  Lemma par_strip n : n <= S e ->
    xorb (xsum (S n) (fun t => xorb (fa f 0 t) (pv (fa' f 0) t))) (xsum n (fun t => xorb (fa f 1 t) (pv (fa' f 1) t))) =
    xorb (x 0) (xorb (fb f 0 n) (pv (fc' f 0) n)).
  Proof. induction n as [|n IH]; intros Hn.
    - cbn. unfold x. destruct (fa f 0 0), (fb f 0 0); reflexivity.
    - specialize (IH ltac:(lia)). 
      change (xsum (S (S n)) (fun t => xorb (fa f 0 t) (pv (fa' f 0) t))) with (xorb (xsum (S n) (fun t => xorb (fa f 0 t) (pv (fa' f 0) t))) (xorb (fa f 0 (S n)) (fa' f 0 n))).
      change (xsum (S n) (fun t => xorb (fa f 1 t) (pv (fa' f 1) t))) with (xorb (xsum n (fun t => xorb (fa f 1 t) (pv (fa' f 1) t))) (xorb (fa f 1 n) (pv (fa' f 1) n))).
      pose proof (ck1 _ _ G 0 n ltac:(lia)) as C1. pose proof (ck2 _ _ G 0 n ltac:(lia)) as C2. change (pv (fc' f 0) (S n)) with (fc' f 0 n).
      revert IH C1 C2. generalize (xsum (S n) (fun t => xorb (fa f 0 t) (pv (fa' f 0) t))) (xsum n (fun t => xorb (fa f 1 t) (pv (fa' f 1) t))) (pv (fa' f 1) n) (pv (fc' f 0) n) (x 0).
      intros p q r s u. generalize (fa f 0 (S n)) (fa' f 0 n) (fa f 1 n) (fb f 0 n) (fb f 0 (S n)) (fb' f 0 n) (fc f 0 n) (fc' f 0 n). intros.
      destruct p, q, r, s, u; destruct b, b0, b1, b2, b3, b4, b5, b6; cbn in *; congruence. Qed.
  Lemma peel_row n : n <= e -> rowpar peel (S n) = xorb (xsum (S n) (fun t => xorb (fa f 1 t) (pv (fa' f 1) t))) (x 0).
  Proof. intros H. unfold rowpar. induction n as [|n IH].
    - cbn. destruct (fa f 1 0), (x 0); reflexivity.
    - specialize (IH ltac:(lia)).
      change (xsum (S (S n)) (fun t => xorb (fa peel 0 t) (pv (fa' peel 0) t))) with (xorb (xsum (S n) (fun t => xorb (fa peel 0 t) (pv (fa' peel 0) t))) (xorb (fa peel 0 (S n)) (fa' peel 0 n))).
      change (xsum (S (S n)) (fun t => xorb (fa f 1 t) (pv (fa' f 1) t))) with (xorb (xsum (S n) (fun t => xorb (fa f 1 t) (pv (fa' f 1) t))) (xorb (fa f 1 (S n)) (fa' f 1 n))).
      rewrite IH. cbn [peel fa fa']. replace (S n <=? e) with true by (symmetry; apply Nat.leb_le; lia). replace (n <? e) with true by (symmetry; apply Nat.ltb_lt; lia).
      generalize (xsum (S n) (fun t => xorb (fa f 1 t) (pv (fa' f 1) t))). intros p. destruct p, (x 0), (fa f 1 (S n)), (x (S n)), (fa' f 1 n); reflexivity. Qed.
  Lemma peel_rowpar : rowpar peel (S e) = rowpar f (S (S e)).
  Proof. rewrite peel_row by lia. pose proof (par_strip (S e) (le_n _)) as P. rewrite (z_b _ _ G 0 (S e)) in P by lia.
    cbn [pv] in P. rewrite (z_c' _ _ G 0 e) in P by lia. unfold rowpar. revert P.
    generalize (xsum (S (S e)) (fun t => xorb (fa f 0 t) (pv (fa' f 0) t))) (xsum (S e) (fun t => xorb (fa f 1 t) (pv (fa' f 1) t))) (x 0).
    intros [] [] []; cbn; congruence. Qed.

  (** cost of the strip *)
  Let par n := xsum n (fun t => xorb (fa f 0 t) (fa' f 0 t)).
  Lemma par_rowpar n : rowpar f (S n) = xorb (par n) (fa f 0 n).
  Proof. unfold rowpar, par. induction n as [|n IH]; [cbn; destruct (fa f 0 0); reflexivity|].
    change (xsum (S (S n)) (fun t => xorb (fa f 0 t) (pv (fa' f 0) t))) with (xorb (xsum (S n) (fun t => xorb (fa f 0 t) (pv (fa' f 0) t))) (xorb (fa f 0 (S n)) (fa' f 0 n))).
    rewrite IH. cbn [xsum]. generalize (xsum n (fun t => xorb (fa f 0 t) (fa' f 0 t))). intros p. destruct p, (fa f 0 n), (fa f 0 (S n)), (fa' f 0 n); reflexivity. Qed.
  Lemma strip_cost n : n <= S e -> 2 * nsum n (fun t => bn (x t)) + (if x n then 1 else if par n then 2 else 0) <= nsum n (wblock f 0) + bn (x 0).
  Proof. induction n as [|n IH]; intros H; [cbn; destruct (x 0); cbn; lia|]. specialize (IH ltac:(lia)).
    change (par (S n)) with (xorb (par n) (xorb (fa f 0 n) (fa' f 0 n))). cbn [nsum].
    pose proof (x_other n ltac:(lia)) as X1. pose proof (x_next n ltac:(lia)) as X2. assert (X0 : x n = xorb (fa f 0 n) (fb f 0 n)) by reflexivity.
    unfold wblock at 2. revert IH X0 X1 X2. generalize (par n) (x n) (x (S n)) (bn (x 0)). intros p y z w.
    generalize (fa f 0 n) (fa' f 0 n) (fb f 0 n) (fb' f 0 n) (fc f 0 n) (fc' f 0 n). intros a a' b b' c c'.
    generalize (nsum n (fun t => bn (x t))) (nsum n (wblock f 0)). intros u v.
    destruct y, z; destruct p, a, a', b, b', c, c'; cbn; intros; try discriminate; lia. Qed.
  Lemma strip_total : rowpar f (S (S e)) = true -> 2 * nsum (S e) (fun t => bn (x t)) + 2 <= wlevel f (S e) 0 + bn (x 0).
  Proof. intros HP. rewrite par_rowpar in HP. pose proof (strip_cost (S e) (le_n _)) as C. unfold wlevel.
    change (nsum (S (S e)) (wblock f 0)) with (nsum (S e) (wblock f 0) + wblock f 0 (S e)). unfold wblock at 2.
    assert (X : x (S e) = fa f 0 (S e)) by (unfold x; rewrite (z_b _ _ G 0 (S e)) by lia; apply xorb_false_r). rewrite X in C.
    destruct (fa f 0 (S e)); [cbn [bn]; lia|]. rewrite xorb_false_r in HP. rewrite HP in C. lia. Qed.

  Lemma peel_weight : wtri peel e + wlevel f (S e) 0 <= wtri f (S e) + 2 * nsum (S e) (fun t => bn (x t)) - bn (x 0).
  Proof. unfold wtri. rewrite (nsum_first (S e)). cbn [Nat.sub]. rewrite (nsum_first e). rewrite (nsum_first e (fun t => wlevel f (e - t) (S t))).
    rewrite Nat.sub_0_r. 
    assert (L0 : wlevel peel e 0 <= wlevel f e 1 + (2 * nsum (S e) (fun t => bn (x t)) - bn (x 0))).
    { unfold wlevel. assert (GG : forall n, n <= e -> nsum (S n) (wblock peel 0) <= nsum (S n) (wblock f 1) + (2 * nsum (S n) (fun t => bn (x t)) - bn (x 0)) + (if n <? e then bn (x (S n)) else 0)).
      { induction n as [|n IH]; intros Hn.
        - cbn [nsum]. unfold wblock. cbn [peel fa fa' fb fb' fc fc']. replace (0 <=? e) with true by reflexivity.
          destruct (0 <? e); destruct (fa f 1 0), (fa' f 1 0), (x 0); try destruct (x 1); cbn [bn xorb negb]; lia.
        - specialize (IH ltac:(lia)). replace (n <? e) with true in IH by (symmetry; apply Nat.ltb_lt; lia).
          change (nsum (S (S n)) (wblock peel 0)) with (nsum (S n) (wblock peel 0) + wblock peel 0 (S n)).
          change (nsum (S (S n)) (wblock f 1)) with (nsum (S n) (wblock f 1) + wblock f 1 (S n)).
          change (nsum (S (S n)) (fun t => bn (x t))) with (nsum (S n) (fun t => bn (x t)) + bn (x (S n))).
          assert (X0 : bn (x 0) <= nsum (S n) (fun t => bn (x t))) by (rewrite nsum_first; lia).
          unfold wblock at 2 4. cbn [peel fa fa' fb fb' fc fc']. replace (S n <=? e) with true by (symmetry; apply Nat.leb_le; lia).
          destruct (S n <? e); destruct (fa f 1 (S n)), (fa' f 1 (S n)), (x (S n)); try destruct (x (S (S n))); cbn [bn xorb negb] in *; lia. }
      specialize (GG e (le_n _)). rewrite Nat.ltb_irrefl in GG. lia. }
    assert (L1 : nsum e (fun t => wlevel peel (e - S t) (S t)) = nsum e (fun t => wlevel f (e - S t) (S (S t)))) by (apply nsum_ext; intros; reflexivity).
    assert (X0 : bn (x 0) <= nsum (S e) (fun t => bn (x t))) by (rewrite nsum_first; lia). lia. Qed.
  Lemma peel_lighter : rowpar f (S (S e)) = true -> wtri peel e + 2 <= wtri f (S e).
  Proof. intros HP. pose proof (strip_total HP). pose proof peel_weight. assert (X0 : bn (x 0) <= nsum (S e) (fun t => bn (x t))) by (rewrite nsum_first; lia). lia. Qed.
End Step.

Theorem tri_distance e : forall f, good e f -> rowpar f (S e) = true -> 2 * e + 1 <= wtri f e.
Proof. induction e as [|e IH]; intros f G HP.
  - unfold rowpar in HP. cbn in HP. destruct (fa f 0 0) eqn:E; [|discriminate]. unfold wtri, wlevel, wblock. cbn. rewrite E. cbn. lia.
  - pose proof (peel_lighter e f G HP). specialize (IH (peel e f) (peel_good e f G)). rewrite (peel_rowpar e f G) in IH. specialize (IH HP). lia. Qed.
