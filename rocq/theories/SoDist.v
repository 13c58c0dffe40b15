(** * SoDist: no logical operator of the square-octagon color code of size m is lighter than 2m+1.

    Level [k] stands for the rows 3k+1 (pairs [qu], [qu'] of columns) and 3k+2 (pairs [qw], [qw']) of the triangle.
    Removing the lowest level and one corner qubit of the next leaves the mirror image of the next smaller code. *)
From Coq Require Import Arith Lia Bool List.
From Verif Require Export HexDist.

Record quad := mkQ { qu : nat -> nat -> bool; qu' : nat -> nat -> bool; qw : nat -> nat -> bool; qw' : nat -> nat -> bool }.
Definition oct (f : quad) (k s : nat) : bool :=
  xorb (xorb (xorb (pv (qu' f k) s) (qu f k s)) (xorb (pv (qw f k) s) (pv (qw' f k) s)))
    match k with O => false | S l => xorb (xorb (pv (qw' f l) s) (qw f l s)) (xorb (qu f l s) (qu' f l s)) end.
Definition sqr (f : quad) (k t : nat) : bool := xorb (xorb (qu f (S k) t) (qu' f (S k) t)) (xorb (qw f k t) (qw' f k t)).
Definition lvl (f : quad) (m k : nat) : nat :=
  nsum (S (m - k)) (fun t => bn (qu f k t) + bn (qu' f k t)) + nsum (m - k) (fun t => bn (qw f k t) + bn (qw' f k t)).
Definition wquad (f : quad) (m : nat) : nat := nsum (S m) (lvl f m).
Definition qrow (f : quad) (m : nat) : bool := xsum (S m) (fun t => xorb (qu f 0 t) (qu' f 0 t)).

Record goodL (m : nat) (f : quad) : Prop := {
  l_u : forall k t, k + t > m -> qu f k t = false;
  l_u' : forall k t, k + t > m -> qu' f k t = false;
  l_u0 : qu' f 0 m = false;
  l_w : forall k t, k + t >= m -> qw f k t = false;
  l_w' : forall k t, k + t >= m -> qw' f k t = false;
  l_sq : forall k t, k + t < m -> sqr f k t = false;
  l_o0 : forall s, 1 <= s <= m -> oct f 0 s = false;
  l_oo : forall k s, Nat.odd k = true -> k + s <= m -> oct f k s = false;
  l_oe : forall k s, Nat.odd k = false -> 1 <= k -> 1 <= s -> k + s <= m + 1 -> oct f k s = false }.
Record goodR (m : nat) (f : quad) : Prop := {
  r_u : forall k t, k + t > m -> qu f k t = false;
  r_u' : forall k t, k + t > m -> qu' f k t = false;
  r_u0 : qu f 0 0 = false;
  r_w : forall k t, k + t >= m -> qw f k t = false;
  r_w' : forall k t, k + t >= m -> qw' f k t = false;
  r_sq : forall k t, k + t < m -> sqr f k t = false;
  r_o0 : forall s, 1 <= s <= m -> oct f 0 s = false;
  r_oo : forall k s, Nat.odd k = true -> 1 <= s -> k + s <= m + 1 -> oct f k s = false;
  r_oe : forall k s, Nat.odd k = false -> 1 <= k -> k + s <= m -> oct f k s = false }.


(** *** reversal of sums *)
Lemma nsum_rev n f : nsum (S n) (fun t => f (n - t)) = nsum (S n) f.
Proof. revert f. induction n as [|n IH]; intros f; [reflexivity|]. rewrite nsum_first. cbn [Nat.sub]. 
  rewrite IH. change (nsum (S (S n)) f) with (nsum (S n) f + f (S n)). lia. Qed.
Lemma xsum_ext n f g : (forall t, t < n -> f t = g t) -> xsum n f = xsum n g.
Proof. induction n; cbn; auto. intros H. rewrite IHn, H; auto. Qed.
Lemma xsum_first n f : xsum (S n) f = xorb (f 0) (xsum n (fun t => f (S t))).
Proof. induction n; [cbn; destruct (f 0); reflexivity|]. change (xsum (S (S n)) f) with (xorb (xsum (S n) f) (f (S n))). rewrite IHn. cbn [xsum]. now rewrite xorb_assoc. Qed.
Lemma xsum_rev n f : xsum (S n) (fun t => f (n - t)) = xsum (S n) f.
Proof. revert f. induction n as [|n IH]; intros f; [reflexivity|]. rewrite xsum_first. cbn [Nat.sub].
  rewrite (IH f). change (xsum (S (S n)) f) with (xorb (xsum (S n) f) (f (S n))). apply xorb_comm. Qed.

(** *** mirror image *)
Definition mirror (m : nat) (f : quad) : quad := mkQ
  (fun k t => if k + t <=? m then qu' f k (m - k - t) else false) (fun k t => if k + t <=? m then qu f k (m - k - t) else false)
  (fun k t => if k + t <? m then qw' f k (m - 1 - k - t) else false) (fun k t => if k + t <? m then qw f k (m - 1 - k - t) else false).
Section Mirror.
  Variables (m : nat) (f : quad).
  Hypothesis G : goodR m f.
  Lemma mir_pu k s : k <= m -> s <= m - k + 1 -> pv (qu' (mirror m f) k) s = qu f k (m - k + 1 - s).
  Proof. intros Hk Hs. destruct s as [|s]; cbn [pv mirror qu'].
    - symmetry. apply (r_u _ _ G). lia.
    - replace (k + s <=? m) with true by (symmetry; apply Nat.leb_le; lia). f_equal. lia. Qed.
  Lemma mir_u k s : k <= m -> s <= m - k + 1 -> qu (mirror m f) k s = pv (qu' f k) (m - k + 1 - s).
  Proof. intros Hk Hs. cbn [mirror qu]. destruct (Nat.leb_spec (k + s) m).
    - replace (m - k + 1 - s) with (S (m - k - s)) by lia. reflexivity.
    - replace (m - k + 1 - s) with 0 by lia. reflexivity. Qed.
  Lemma mir_pw k s : k <= m -> s <= m - k + 1 -> pv (qw (mirror m f) k) s = pv (qw' f k) (m - k + 1 - s).
  Proof. intros Hk Hs. destruct s as [|s]; cbn [pv mirror qw].
    - rewrite Nat.sub_0_r, Nat.add_1_r. cbn [pv]. symmetry. apply (r_w' _ _ G). lia.
    - destruct (Nat.ltb_spec (k + s) m).
      + replace (m - k + 1 - S s) with (S (m - 1 - k - s)) by lia. reflexivity.
      + replace (m - k + 1 - S s) with 0 by lia. reflexivity. Qed.
  Lemma mir_pw' k s : k <= m -> s <= m - k + 1 -> pv (qw' (mirror m f) k) s = pv (qw f k) (m - k + 1 - s).
  Proof. intros Hk Hs. destruct s as [|s]; cbn [pv mirror qw'].
    - rewrite Nat.sub_0_r, Nat.add_1_r. cbn [pv]. symmetry. apply (r_w _ _ G). lia.
    - destruct (Nat.ltb_spec (k + s) m).
      + replace (m - k + 1 - S s) with (S (m - 1 - k - s)) by lia. reflexivity.
      + replace (m - k + 1 - S s) with 0 by lia. reflexivity. Qed.
  (** one level below, the index is counted from the same octagon *)
  Lemma mir_lw k s : S k <= m -> s <= m - k -> qw (mirror m f) k s = pv (qw' f k) (m - k - s).
  Proof. intros Hk Hs. cbn [mirror qw]. destruct (Nat.ltb_spec (k + s) m).
    - replace (m - k - s) with (S (m - 1 - k - s)) by lia. reflexivity.
    - replace (m - k - s) with 0 by lia. reflexivity. Qed.
  Lemma mir_lpw k s : S k <= m -> s <= m - k -> pv (qw' (mirror m f) k) s = qw f k (m - k - s).
  Proof. intros Hk Hs. destruct s as [|s]; cbn [pv mirror qw'].
    - symmetry. apply (r_w _ _ G). lia.
    - replace (k + s <? m) with true by (symmetry; apply Nat.ltb_lt; lia). f_equal. lia. Qed.
  Lemma mir_lu k s : S k <= m -> s <= m - k -> qu (mirror m f) k s = qu' f k (m - k - s).
  Proof. intros Hk Hs. cbn [mirror qu]. replace (k + s <=? m) with true by (symmetry; apply Nat.leb_le; lia). reflexivity. Qed.
  Lemma mir_lu' k s : S k <= m -> s <= m - k -> qu' (mirror m f) k s = qu f k (m - k - s).
  Proof. intros Hk Hs. cbn [mirror qu']. replace (k + s <=? m) with true by (symmetry; apply Nat.leb_le; lia). reflexivity. Qed.
  Lemma mir_oct k s : k <= m -> s <= m - k + 1 -> oct (mirror m f) k s = oct f k (m - k + 1 - s).
  Proof. intros Hk Hs. unfold oct. rewrite mir_pu, mir_u, mir_pw, mir_pw' by auto.
    destruct k as [|l].
    - generalize (qu f 0 (m - 0 + 1 - s)) (pv (qu' f 0) (m - 0 + 1 - s)) (pv (qw' f 0) (m - 0 + 1 - s)) (pv (qw f 0) (m - 0 + 1 - s)). intros [] [] [] []; reflexivity.
    - rewrite mir_lw, mir_lpw, mir_lu, mir_lu' by lia. replace (m - l - s) with (m - S l + 1 - s) by lia. set (r := m - S l + 1 - s).
      generalize (qu f (S l) r) (pv (qu' f (S l)) r) (pv (qw' f (S l)) r) (pv (qw f (S l)) r) (qw f l r) (pv (qw' f l) r) (qu f l r) (qu' f l r).
      intros [] [] [] [] [] [] [] []; reflexivity. Qed.
  Lemma mir_good : goodL m (mirror m f).
  Proof. split.
    - intros k t H. cbn. replace (k + t <=? m) with false by (symmetry; apply Nat.leb_gt; lia). reflexivity.
    - intros k t H. cbn. replace (k + t <=? m) with false by (symmetry; apply Nat.leb_gt; lia). reflexivity.
    - cbn. replace (m <=? m) with true by (symmetry; apply Nat.leb_le; lia). replace (m - 0 - m) with 0 by lia. apply (r_u0 _ _ G).
    - intros k t H. cbn [mirror qw]. replace (k + t <? m) with false by (symmetry; apply Nat.ltb_ge; lia). reflexivity.
    - intros k t H. cbn [mirror qw']. replace (k + t <? m) with false by (symmetry; apply Nat.ltb_ge; lia). reflexivity.
    - intros k t H. unfold sqr. cbn [mirror qu qu' qw qw']. replace (S k + t <=? m) with true by (symmetry; apply Nat.leb_le; lia). replace (k + t <? m) with true by (symmetry; apply Nat.ltb_lt; lia).
      replace (m - S k - t) with (m - 1 - k - t) by lia. pose proof (r_sq _ _ G k (m - 1 - k - t) ltac:(lia)) as Q. unfold sqr in Q. revert Q. set (r := m - 1 - k - t).
      generalize (qu f (S k) r) (qu' f (S k) r) (qw f k r) (qw' f k r). intros [] [] [] []; cbn; congruence.
    - intros s H. rewrite mir_oct by lia. apply (r_o0 _ _ G). lia.
    - intros k s O H. rewrite mir_oct by lia. apply (r_oo _ _ G); auto; lia.
    - intros k s O H1 H2 H3. rewrite mir_oct by lia. apply (r_oe _ _ G); auto; lia. Qed.
  Lemma mir_weight : wquad (mirror m f) m = wquad f m.
  Proof. unfold wquad. apply nsum_ext. intros k Hk. unfold lvl. f_equal.
    - rewrite <- (nsum_rev (m - k) (fun t => bn (qu f k t) + bn (qu' f k t))). apply nsum_ext. intros t Ht. cbn [mirror qu qu'].
      replace (k + t <=? m) with true by (symmetry; apply Nat.leb_le; lia). lia.
    - destruct (m - k) as [|n] eqn:En; [reflexivity|]. rewrite <- (nsum_rev n (fun t => bn (qw f k t) + bn (qw' f k t))). apply nsum_ext. intros t Ht. cbn [mirror qw qw'].
      replace (k + t <? m) with true by (symmetry; apply Nat.ltb_lt; lia). replace (m - 1 - k - t) with (n - t) by lia. lia. Qed.
  Lemma mir_row : qrow (mirror m f) m = qrow f m.
  Proof. unfold qrow. rewrite <- (xsum_rev m (fun t => xorb (qu f 0 t) (qu' f 0 t))). apply xsum_ext. intros t Ht. cbn [mirror qu qu'].
    replace (0 + t <=? m) with true by (symmetry; apply Nat.leb_le; lia). rewrite Nat.sub_0_r. apply xorb_comm. Qed.
End Mirror.

(** *** removing the lowest level *)
Section Step.
  Variables (e : nat) (f : quad).
  Hypothesis G : goodL (S e) f.
  Definition yv (t : nat) : bool := xorb (qu' f 0 t) (qw f 0 t).
  Lemma yv_other t : t <= e -> xorb (qu f 0 (S t)) (qw' f 0 t) = yv t.
  Proof. intros H. pose proof (l_o0 _ _ G (S t) ltac:(lia)) as C. unfold oct in C. cbn [pv] in C. unfold yv. revert C.
    generalize (qu' f 0 t) (qu f 0 (S t)) (qw f 0 t) (qw' f 0 t). intros [] [] [] []; cbn; congruence. Qed.
  Lemma yv_0 : xorb (qu f 1 0) (qu f 0 0) = yv 0.
  Proof. pose proof (l_oo _ _ G 1 0 eq_refl ltac:(lia)) as C. unfold oct in C. cbn [pv] in C. unfold yv. revert C.
    generalize (qu' f 0 0) (qu f 0 0) (qw f 0 0) (qu f 1 0). intros [] [] [] []; cbn; congruence. Qed.
  Lemma yv_out t : e < t -> yv t = false.
  Proof. intros H. unfold yv. rewrite (l_w _ _ G) by lia. destruct (Nat.eq_dec t (S e)) as [->|]; [rewrite (l_u0 _ _ G); reflexivity|]. now rewrite (l_u' _ _ G) by lia. Qed.

  Definition qpeel : quad := mkQ
    (fun k t => match k with O => match t with O => false | _ => xorb (qu f 1 t) (yv t) end | _ => qu f (S k) t end)
    (fun k t => match k with O => xorb (qu' f 1 t) (yv t) | _ => qu' f (S k) t end)
    (fun k => qw f (S k)) (fun k => qw' f (S k)).
  Lemma pv_ext g h s : (forall t, g t = h t) -> pv g s = pv h s.
  Proof. destruct s; cbn; auto. Qed.
  Lemma qpeel_good : goodR e qpeel.
  Proof. split; cbn [qpeel qu qu' qw qw'].
    - intros [|k] t H; [|apply (l_u _ _ G); lia]. destruct t as [|t]; auto. rewrite (l_u _ _ G), yv_out by lia. reflexivity.
    - intros [|k] t H; [|apply (l_u' _ _ G); lia]. rewrite (l_u' _ _ G), yv_out by lia. reflexivity.
    - reflexivity.
    - intros k t H. apply (l_w _ _ G). lia.
    - intros k t H. apply (l_w' _ _ G). lia.
    - intros k t H. pose proof (l_sq _ _ G (S k) t ltac:(lia)) as Q. exact Q.
    - intros s H. pose proof (l_oo _ _ G 1 s eq_refl ltac:(lia)) as C. destruct s as [|s]; [lia|]. unfold oct in *. cbn [pv qpeel qu qu' qw qw'] in *.
      pose proof (yv_other s ltac:(lia)) as Y1. assert (Y2 : yv (S s) = xorb (qu' f 0 (S s)) (qw f 0 (S s))) by reflexivity. revert C Y1 Y2.
      generalize (yv s) (yv (S s)) (qu' f 1 s) (qu f 1 (S s)) (qw f 1 s) (qw' f 1 s) (qw' f 0 s) (qw f 0 (S s)) (qu f 0 (S s)) (qu' f 0 (S s)).
      intros y1 y2 a b c d p q r t C <- ->. revert C. destruct a, b, c, d, p, q, r, t; cbn; congruence.
    - intros k s O H1 H2. destruct k as [|k]; [discriminate|]. pose proof (l_oe _ _ G (S (S k)) s) as C. rewrite (Nat.odd_succ (S k)), <- Nat.negb_odd, O in C. specialize (C eq_refl ltac:(lia) H1 ltac:(lia)).
      destruct k as [|k]; [|exact C]. unfold oct in *. cbn [qpeel qu qu' qw qw'] in *. destruct s as [|s]; [lia|]. cbn [pv] in *.
      revert C. generalize (yv (S s)) (qu' f 2 s) (qu f 2 (S s)) (qw f 2 s) (qw' f 2 s) (qw' f 1 s) (qw f 1 (S s)) (qu f 1 (S s)) (qu' f 1 (S s)).
      intros y a b c d p q r t. destruct a, b, c, d, p, q, r, t, y; cbn; congruence.
    - intros k s O H1 H2. destruct k as [|[|k]]; [lia|discriminate|]. pose proof (l_oo _ _ G (S (S (S k))) s) as C. rewrite (Nat.odd_succ (S (S k))), <- Nat.negb_odd, O in C. exact (C eq_refl ltac:(lia)). Qed.

  (** parity of the new bottom row *)
  Let par n := xorb (qu f 0 0) (xsum n (fun t => xorb (qu' f 0 t) (qu f 0 (S t)))).
  Lemma qrow_par n : xsum (S n) (fun t => xorb (qu f 0 t) (qu' f 0 t)) = xorb (par n) (qu' f 0 n).
  Proof. unfold par. induction n as [|n IH]; [cbn; destruct (qu f 0 0), (qu' f 0 0); reflexivity|].
    change (xsum (S (S n)) (fun t => xorb (qu f 0 t) (qu' f 0 t))) with (xorb (xsum (S n) (fun t => xorb (qu f 0 t) (qu' f 0 t))) (xorb (qu f 0 (S n)) (qu' f 0 (S n)))).
    rewrite IH. cbn [xsum]. generalize (xsum n (fun t => xorb (qu' f 0 t) (qu f 0 (S t)))). intros p. destruct p, (qu f 0 0), (qu' f 0 n), (qu f 0 (S n)), (qu' f 0 (S n)); reflexivity. Qed.
  Lemma qpeel_par n : n <= e -> xsum (S n) (fun t => xorb (qu qpeel 0 t) (qu' qpeel 0 t)) = par (S n).
  Proof. unfold par. induction n as [|n IH]; intros H.
    - cbn [xsum qpeel qu qu']. pose proof (l_sq _ _ G 0 0 ltac:(lia)) as Q. pose proof yv_0 as Y0. pose proof (yv_other 0 ltac:(lia)) as Y1. assert (Y2 : yv 0 = xorb (qu' f 0 0) (qw f 0 0)) by reflexivity.
      unfold sqr in Q. revert Q Y0 Y1 Y2. generalize (yv 0) (qu f 1 0) (qu' f 1 0) (qw f 0 0) (qw' f 0 0) (qu f 0 0) (qu' f 0 0) (qu f 0 1).
      intros y a b c d p q r Q Y0 Y1 ->. destruct a, b, c, d, p, q, r; cbn in *; congruence.
    - specialize (IH ltac:(lia)).
      change (xsum (S (S n)) (fun t => xorb (qu qpeel 0 t) (qu' qpeel 0 t))) with (xorb (xsum (S n) (fun t => xorb (qu qpeel 0 t) (qu' qpeel 0 t))) (xorb (qu qpeel 0 (S n)) (qu' qpeel 0 (S n)))).
      rewrite IH. change (xsum (S (S n)) (fun t => xorb (qu' f 0 t) (qu f 0 (S t)))) with (xorb (xsum (S n) (fun t => xorb (qu' f 0 t) (qu f 0 (S t)))) (xorb (qu' f 0 (S n)) (qu f 0 (S (S n))))).
      rewrite xorb_assoc. f_equal. f_equal. cbn [qpeel qu qu'].
      pose proof (l_sq _ _ G 0 (S n) ltac:(lia)) as Q. pose proof (yv_other (S n) ltac:(lia)) as Y1. assert (Y2 : yv (S n) = xorb (qu' f 0 (S n)) (qw f 0 (S n))) by reflexivity.
      unfold sqr in Q. revert Q Y1 Y2. generalize (yv (S n)) (qu f 1 (S n)) (qu' f 1 (S n)) (qw f 0 (S n)) (qw' f 0 (S n)) (qu' f 0 (S n)) (qu f 0 (S (S n))).
      intros y a b c d p q Q Y1 ->. destruct a, b, c, d, p, q; cbn in *; congruence. Qed.
  Lemma qpeel_row : qrow qpeel e = qrow f (S e).
  Proof. unfold qrow. rewrite qpeel_par by lia. rewrite qrow_par, (l_u0 _ _ G). now rewrite xorb_false_r. Qed.

  (** cost *)
  Lemma qcost n : n <= e -> nsum (S n) (fun t => bn (qu qpeel 0 t) + bn (qu' qpeel 0 t)) + 2 * bn (par (S n)) <=
    nsum (S n) (fun t => bn (qu f 1 t) + bn (qu' f 1 t)) + bn (qu f 0 0) + nsum (S n) (fun t => bn (qu' f 0 t) + bn (qu f 0 (S t)) + bn (qw f 0 t) + bn (qw' f 0 t)).
  Proof. induction n as [|n IH]; intros H.
    - unfold par. cbn [nsum xsum qpeel qu qu']. pose proof (l_sq _ _ G 0 0 ltac:(lia)) as Q. pose proof yv_0 as Y0. pose proof (yv_other 0 ltac:(lia)) as Y1. assert (Y2 : yv 0 = xorb (qu' f 0 0) (qw f 0 0)) by reflexivity.
      unfold sqr in Q. revert Q Y0 Y1 Y2. generalize (yv 0) (qu f 1 0) (qu' f 1 0) (qw f 0 0) (qw' f 0 0) (qu f 0 0) (qu' f 0 0) (qu f 0 1).
      intros y a b c d p q r Q Y0 Y1 ->. destruct a, b, c, d, p, q, r; cbn in *; try discriminate; lia.
    - specialize (IH ltac:(lia)). 
      change (par (S (S n))) with (xorb (qu f 0 0) (xorb (xsum (S n) (fun t => xorb (qu' f 0 t) (qu f 0 (S t)))) (xorb (qu' f 0 (S n)) (qu f 0 (S (S n)))))).
      rewrite <- xorb_assoc. change (xorb (qu f 0 0) (xsum (S n) (fun t => xorb (qu' f 0 t) (qu f 0 (S t))))) with (par (S n)).
      change (nsum (S (S n)) (fun t => bn (qu qpeel 0 t) + bn (qu' qpeel 0 t))) with (nsum (S n) (fun t => bn (qu qpeel 0 t) + bn (qu' qpeel 0 t)) + (bn (qu qpeel 0 (S n)) + bn (qu' qpeel 0 (S n)))).
      change (nsum (S (S n)) (fun t => bn (qu f 1 t) + bn (qu' f 1 t))) with (nsum (S n) (fun t => bn (qu f 1 t) + bn (qu' f 1 t)) + (bn (qu f 1 (S n)) + bn (qu' f 1 (S n)))).
      change (nsum (S (S n)) (fun t => bn (qu' f 0 t) + bn (qu f 0 (S t)) + bn (qw f 0 t) + bn (qw' f 0 t))) with (nsum (S n) (fun t => bn (qu' f 0 t) + bn (qu f 0 (S t)) + bn (qw f 0 t) + bn (qw' f 0 t)) + (bn (qu' f 0 (S n)) + bn (qu f 0 (S (S n))) + bn (qw f 0 (S n)) + bn (qw' f 0 (S n)))).
      cbn [qpeel qu qu'] in *.
      pose proof (l_sq _ _ G 0 (S n) ltac:(lia)) as Q. pose proof (yv_other (S n) ltac:(lia)) as Y1. assert (Y2 : yv (S n) = xorb (qu' f 0 (S n)) (qw f 0 (S n))) by reflexivity.
      unfold sqr in Q. match type of IH with ?A + _ <= ?B + _ + ?C => revert IH; generalize A B C end. intros A B C IH.
      revert IH Q Y1 Y2. generalize (par (S n)) (bn (qu f 0 0)) (yv (S n)) (qu f 1 (S n)) (qu' f 1 (S n)) (qw f 0 (S n)) (qw' f 0 (S n)) (qu' f 0 (S n)) (qu f 0 (S (S n))).
      intros p0 z y a b c d p q IH Q Y1 ->. destruct a, b, c, d, p, q; cbn in Q, Y1; try discriminate; destruct p0; cbn [bn xorb negb] in *; lia. Qed.
  Lemma qpeel_lighter : qrow f (S e) = true -> wquad qpeel e + 2 <= wquad f (S e).
  Proof. intros HP. pose proof (qcost e (le_n _)) as C. unfold qrow in HP. rewrite qrow_par, (l_u0 _ _ G), xorb_false_r in HP. rewrite HP in C. cbn [bn] in C.
    unfold wquad. rewrite (nsum_first (S e)), (nsum_first e (lvl qpeel e)), (nsum_first e (fun t => lvl f (S e) (S t))).
    assert (L1 : nsum e (fun t => lvl qpeel e (S t)) = nsum e (fun t => lvl f (S e) (S (S t)))) by (apply nsum_ext; intros; reflexivity). rewrite L1.
    assert (L0 : lvl qpeel e 0 + 2 <= lvl f (S e) 0 + lvl f (S e) 1); [|lia]. unfold lvl. rewrite !Nat.sub_0_r. replace (S e - 1) with e by lia.
    change (qw qpeel 0) with (qw f 1). change (qw' qpeel 0) with (qw' f 1).
    assert (R : nsum (S (S e)) (fun t => bn (qu f 0 t) + bn (qu' f 0 t)) + nsum (S e) (fun t => bn (qw f 0 t) + bn (qw' f 0 t)) =
       bn (qu f 0 0) + nsum (S e) (fun t => bn (qu' f 0 t) + bn (qu f 0 (S t)) + bn (qw f 0 t) + bn (qw' f 0 t)) + bn (qu' f 0 (S e))).
    { generalize (S e). intros n. induction n as [|n IH]; [cbn; lia|]. cbn [nsum] in *. lia. }
    rewrite (l_u0 _ _ G) in R. cbn [bn] in R. lia. Qed.
End Step.

Theorem quad_distance m : forall f, goodL m f -> qrow f m = true -> 2 * m + 1 <= wquad f m.
Proof. induction m as [|m IH]; intros f G HP.
  - unfold qrow in HP. cbn [xsum] in HP. rewrite (l_u0 _ _ G), xorb_false_r, xorb_false_l in HP. unfold wquad, lvl. cbn. rewrite HP. cbn. lia.
  - pose proof (qpeel_lighter m f G HP) as P. pose proof (qpeel_good m f G) as R.
    specialize (IH (mirror m (qpeel f)) (mir_good m _ R)). rewrite mir_row, mir_weight, (qpeel_row m f G) in IH. specialize (IH HP). lia. Qed.
