(** * EccRefute: where the codes do not do what is expected of them, and states that show that the theorems speak of something *)
From Coq Require Import NArith ZArith Ring.
From Verif Require Export EccEnc3 EccRange.
Local Open Scope amp_scope.

(** ** Circuits on |0...0> with given outcomes, by computation *)
Definition idn (j : nat) : nat := j.
Lemma idn_inj w i j : i < w -> j < w -> idn i = idn j -> i = j. Proof. auto. Qed.
Lemma ket0_Z w l : In l (allZ w) -> after (word idn l) ket0 == ket0.
Proof.
  unfold allZ. rewrite in_map_iff. intros [j [<- _]] x. cbn [word map fst snd]. unfold after, run. cbn [fold_left step st creg outs]. unfold gate. cbn [active forallb mat u2]. unfold ket0, idn.
  pose proof (upd_same x j) as Eu. destruct (bit x j) eqn:Eb; rewrite Eu.
  - destruct (N.eqb_spec x 0) as [->|Hx]; [rewrite bit_0 in Eb; discriminate|]. rewrite !amul_0_r, amul_0_l. reflexivity.
  - rewrite amul_0_l. destruct (N.eqb x 0); ring.
Qed.
Definition showsZ (w : nat) (os : list op) (rec : list bool) (words : list (list (gt * nat))) (x : N) : bool :=
  match simRW w (allZ w) os rec with
  | Some s => forallb (fun l => fixedBy w (allZ w) l s) words && negb (aeqb (den w idn ket0 (ss s) x) azero)
  | None => false
  end.
Lemma ren_id off os : off = 0%nat -> map (ren idn off) os = os.
Proof.
  intros ->. induction os as [|o os IHo]; [reflexivity|]. cbn [map]. rewrite IHo. f_equal. destruct o; cbn [ren idn]; unfold idn; try reflexivity. f_equal. rewrite <- (map_id ctl) at 2. apply map_ext. now intros [].
Qed.
Lemma showsZ_ok w os rec words x : showsZ w os rec words x = true -> forall cr,
  nz (st (run os (mkConf cr rec ket0))) /\ forall l, In l words -> after (word idn l) (st (run os (mkConf cr rec ket0))) == st (run os (mkConf cr rec ket0)).
Proof.
  unfold showsZ. intros H cr. destruct (simRW w (allZ w) os rec) as [s|] eqn:Es; [|discriminate]. apply andb_true_iff in H. destruct H as [H1 H2].
  pose proof (simRW_sound w idn (idn_inj w) 0 ket0 (allZ w) os (mkConf cr rec ket0) s Es (ket0_Z w) (fun x => eq_refl)) as R. rewrite ren_id in R by reflexivity. split.
  - exists x. destruct R as [R _]. specialize (R x). cbn [fst snd] in R. intros E. rewrite E, amul_0_r in R. rewrite <- R in H2. discriminate H2.
  - intros l Hl. rewrite forallb_forall in H1. exact (fixedBy_ok w idn (idn_inj w) 0 ket0 (allZ w) l s _ (H1 l Hl) (ket0_Z w) R).
Qed.
(** ** Words that cannot both fix a state other than 0 *)
Definition opposite (w : nat) (l1 l2 : list (gt * nat)) : bool := comboOk w [] (word idn l1) aone [(- aone, l2)].
Section Opp.
Variables (w : nat) (rho : nat -> nat).
Hypothesis inj : forall i j, i < w -> j < w -> rho i = rho j -> i = j.
Lemma opposite_ok l1 l2 f : opposite w l1 l2 = true -> after (word rho l1) f == scale (- aone) (after (word rho l2) f).
Proof.
  intros H x. pose proof (combo_sound w rho inj 0 f [] (fun l Hl => match Hl with end) _ _ _ H x) as G. rewrite ren_word in G. unfold scale in *. rewrite combo_cons in G. unfold combo in G. cbn [fold_right fst snd] in G.
  change (word (fun j => rho (idn j)) l1) with (word rho l1) in G. rewrite amul_1_l in G. rewrite G. ring.
Qed.
Lemma opp_zero f : f == scale (- aone) f -> f == zero.
Proof. intros H x. specialize (H x). unfold scale in H. unfold zero. apply cancel2. transitivity (f x + - aone * f x); [rewrite <- H; ring|]. rewrite amul_0_r. ring. Qed.
Lemma clash l1 l2 f : opposite w l1 l2 = true -> after (word rho l1) f == f -> after (word rho l2) f == f -> f == zero.
Proof. intros Ho H1 H2. apply opp_zero. intros x. rewrite <- (H1 x) at 1. rewrite (opposite_ok l1 l2 f Ho x). unfold scale. now rewrite (H2 x). Qed.
Lemma clash2 l1 l2 f : opposite w (l1 ++ l2) (l2 ++ l1) = true -> after (word rho l1) f == f -> after (word rho l2) f == f -> f == zero.
Proof.
  intros Ho H1 H2. apply (clash (l1 ++ l2) (l2 ++ l1)); auto; intros x; rewrite word_app.
  - rewrite (after_ext _ _ _ H1). apply H2.
  - rewrite (after_ext _ _ _ H2). apply H1.
Qed.
End Opp.
(** ** Not the documented phase gates *)
Lemma acts_once e stabs L g a b : acts e stabs L g (phase a) -> acts e stabs L g (phase b) -> forall n i f0 f1, i < n -> encoded n stabs f0 -> encoded n stabs f1 -> nz f0 -> nz f1 ->
  onBlock n i (LZ L) f0 == f0 -> onBlock n i (LZ L) f1 == scale (- aone) f1 -> a = b.
Proof.
  intros [c1 [k1 [Hc1 [Hk1 A1]]]] [c2 [k2 [Hc2 [Hk2 A2]]]] n i f0 f1 Hi E0 E1 N0 N1 Z0 Z1.
  assert (Q : forall f s, encoded n stabs f -> nz f -> onBlock n i (LZ L) f == scale s f -> k1 * c2 * ((aone + a) + (aone - a) * s) = k2 * c1 * ((aone + b) + (aone - b) * s)).
  { intros f s Ef [x Nf] Zf. destruct (A1 n 0%nat i f Hi Ef) as [circ [Em H1]]. destruct (A2 n 0%nat i f Hi Ef) as [circ' [Em' H2]]. rewrite Em in Em'. injection Em' as <-.
    specialize (H1 x). specialize (H2 x). specialize (Zf x). unfold scale, logical, phase in *. rewrite Zf in *. set (u := after circ f x) in *. set (v := f x) in *.
    set (p := onBlock n i (LX L) f x) in *. set (q := onBlock n i (LX L) (onBlock n i (LZ L) f) x) in *.
    assert (G : (k1 * c2 * ((aone + a) + (aone - a) * s) - k2 * c1 * ((aone + b) + (aone - b) * s)) * v = azero).
    { transitivity (c2 * (k1 * ((aone + a) * v + (azero + azero) * p + (azero - azero) * q + (aone - a) * (s * v))) - c1 * (k2 * ((aone + b) * v + (azero + azero) * p + (azero - azero) * q + (aone - b) * (s * v)))); [ring|].
      rewrite <- H1, <- H2. ring. }
    apply amul_integral in G. destruct G as [G|G]; [|contradiction].
    set (y := k1 * c2 * _) in *. set (z := k2 * c1 * _) in *. transitivity (y - z + z); [ring|]. rewrite G. ring. }
  pose proof (Q f0 aone E0 N0 ltac:(intros x; rewrite (Z0 x); unfold scale; ring)) as Q0. pose proof (Q f1 (- aone) E1 N1 Z1) as Q1.
  assert (R0 : k1 * c2 = k2 * c1).
  { apply cancel2. transitivity (k1 * c2 * (aone + a + (aone - a) * aone)); [ring|]. rewrite Q0. ring. }
  rewrite R0 in Q1. assert (R1 : k2 * c1 * (a - b) = azero).
  { apply cancel2. transitivity (k2 * c1 * (aone + a + (aone - a) * - aone) - k2 * c1 * (aone + b + (aone - b) * - aone)); [ring|]. rewrite Q1, amul_0_r. ring. }
  apply amul_integral in R1. destruct R1 as [R1|R1].
  - apply amul_integral in R1. tauto.
  - transitivity (a - b + b); [ring|]. rewrite R1. ring.
Qed.
(** ** Controlled Y *)
Lemma word_nz d l f : nz f -> nz (after (word d l) f).
Proof.
  intros Hf. destruct (run_nz (word d l)) with (cr := 0%N) (f := f) as [t Ht]; [|exact Hf|].
  - apply forallb_forall. intros o Ho. unfold word in Ho. apply in_map_iff in Ho. destruct Ho as [p [<- _]]. reflexivity.
  - destruct (Ht []) as [Hn _]. exact (nz_ext _ _ (st_word d l 0%N (t ++ []) f) Hn).
Qed.
Lemma block_comm n i b l l' f : i < n -> b < n -> b <> i -> onBlock n b l (onBlock n i l' f) == onBlock n i l' (onBlock n b l f).
Proof.
  intros Hi Hb Hn x. unfold onBlock. change (gatesOf (fun j => b + j * n)%nat) with (word (dq n b)). change (gatesOf (fun j => i + j * n)%nat) with (word (dq n i)).
  rewrite <- (W_shift (dq n b) l), <- (W_shift (dq n i) l'). apply W_comm.
  intros p q Hp Hq. apply in_map_iff in Hp, Hq. destruct Hp as [p0 [<- _]], Hq as [q0 [<- _]]. cbn [snd]. now apply dq_other.
Qed.
Lemma after_lin4 os a b c d f g h k : after os (fun x => a * f x + b * g x + c * h x + d * k x) == (fun x => a * after os f x + b * after os g x + c * after os h x + d * after os k x).
Proof.
  intros x.
  assert (L : forall a b f g x, after os (fun x => a * f x + b * g x) x = a * after os f x + b * after os g x).
  { intros a' b' f' g' y. exact (run_lin os 0%N [] a' b' f' g' y). }
  pose proof (L aone d (fun x => a * f x + b * g x + c * h x) k x) as E1. pose proof (L aone c (fun x => a * f x + b * g x) h x) as E2. pose proof (L a b f g x) as E3.
  rewrite (after_ext os _ (fun x => aone * (a * f x + b * g x + c * h x) + d * k x)) by (intros y; ring). rewrite E1.
  rewrite (after_ext os (fun x => a * f x + b * g x + c * h x) (fun x => aone * (a * f x + b * g x) + c * h x)) by (intros y; ring). rewrite E2, E3. ring.
Qed.
Lemma logical_comm n L m i b l f : i < n -> b < n -> b <> i -> onBlock n b l (logical n L m i f) == logical n L m i (onBlock n b l f).
Proof.
  intros Hi Hb Hn x. destruct m as [[[m00 m01] m10] m11]. unfold logical. unfold onBlock at 1. rewrite after_lin4. fold (onBlock n b l).
  change (after (gatesOf (fun j => b + j * n)%nat l)) with (onBlock n b l).
  rewrite (block_comm n i b l (LX L) f Hi Hb Hn x), (block_comm n i b l (LX L) _ Hi Hb Hn x), (block_comm n i b l (LZ L) f Hi Hb Hn x).
  rewrite (after_ext _ _ _ (block_comm n i b l (LZ L) f Hi Hb Hn) x : onBlock n i (LX L) _ x = _). reflexivity.
Qed.
Lemma logical_ext n L m i f g : f == g -> logical n L m i f == logical n L m i g.
Proof.
  intros E x. destruct m as [[[m00 m01] m10] m11]. unfold logical, onBlock. rewrite (E x), (after_ext _ _ _ E x). rewrite (after_ext _ _ _ (after_ext _ _ _ E) x). rewrite (after_ext (gatesOf _ (LZ L)) _ _ E x). reflexivity.
Qed.
Lemma logical_scale n L m i k f : logical n L m i (scale k f) == scale k (logical n L m i f).
Proof.
  intros x. destruct m as [[[m00 m01] m10] m11]. unfold logical, onBlock. rewrite !(after_scale _ k f x). rewrite (after_ext _ _ _ (after_scale _ k f) x), (after_scale _ k _ x). unfold scale. ring.
Qed.
Lemma actsC_once e stabs L g : goodLogicals stabs L -> actsC e stabs L g mY -> actsC e stabs L g (mat GY) -> forall n b i f0, i < n -> b < n -> b <> i -> encoded n stabs f0 -> nz f0 -> onBlock n b (LZ L) f0 == f0 -> False.
Proof.
  intros Hg [c1 [k1 [Hc1 [Hk1 A1]]]] [c2 [k2 [Hc2 [Hk2 A2]]]] n b i f0 Hi Hb Hn E0 N0 Z0.
  set (f1 := onBlock n b (LX L) f0). destruct (Hg n b f0 Hb E0) as [E1 [_ [XX [_ XZ]]]]. fold f1 in E1.
  assert (Z1 : onBlock n b (LZ L) f1 == scale (- aone) f1).
  { intros x. unfold f1. pose proof (XZ x) as G. unfold scale in G. unfold scale. transitivity (- aone * (- aone * onBlock n b (LZ L) (onBlock n b (LX L) f0) x)); [ring|]. rewrite <- G. f_equal. unfold onBlock at 1 3. apply after_ext. exact Z0. }
  assert (N1 : nz f1) by (now apply word_nz).
  assert (F0 : forall m, logicalC n L m b i f0 == scale a4 f0).
  { intros m x. unfold logicalC. rewrite (logical_comm n L m i b (LZ L) f0 Hi Hb Hn x), (logical_ext n L m i _ _ Z0 x), (Z0 x). unfold scale, a4, a2. ring. }
  assert (F1 : forall m, logicalC n L m b i f1 == scale a2 (logical n L m i f1)).
  { intros m x. unfold logicalC. rewrite (logical_comm n L m i b (LZ L) f1 Hi Hb Hn x), (logical_ext n L m i _ _ Z1 x), (logical_scale n L m i _ f1 x), (Z1 x). unfold scale, a2. ring. }
  assert (Y : logical n L mY i f1 == scale (- aone) (logical n L (mat GY) i f1)).
  { intros x. unfold scale, logical, mY, mat. ring. }
  assert (NY : nz (logical n L (mat GY) i f1)).
  { apply (nz_ext (scale (a2 * aI) (onBlock n i (LX L) (onBlock n i (LZ L) f1)))).
    - intros x. unfold scale, logical, mat, a2. transitivity ((azero + azero) * f1 x + (aopp aI + aI) * onBlock n i (LX L) f1 x + (aI - aopp aI) * onBlock n i (LX L) (onBlock n i (LZ L) f1) x + (azero - azero) * onBlock n i (LZ L) f1 x); [ring|reflexivity].
    - apply nz_scale; [discriminate|]. apply word_nz, word_nz, N1. }
  destruct (A1 n 0%nat b i f0 Hi Hb Hn E0) as [q [Em H1]]. destruct (A2 n 0%nat b i f0 Hi Hb Hn E0) as [q' [Em' H2]]. rewrite Em in Em'. injection Em' as <-.
  destruct (A1 n 0%nat b i f1 Hi Hb Hn E1) as [q' [Em' H3]]. rewrite Em in Em'. injection Em' as <-. destruct (A2 n 0%nat b i f1 Hi Hb Hn E1) as [q' [Em' H4]]. rewrite Em in Em'. injection Em' as <-.
  assert (R0 : k1 * c2 = k2 * c1).
  { destruct N0 as [x Hx]. specialize (H1 x). specialize (H2 x). unfold scale in *. rewrite (F0 mY x) in H1. rewrite (F0 (mat GY) x) in H2. unfold scale in *. set (u := after q f0 x) in *.
    assert (G : a4 * f0 x * (k1 * c2 - k2 * c1) = azero).
    { transitivity (c2 * (k1 * (a4 * f0 x)) - c1 * (k2 * (a4 * f0 x))); [ring|]. rewrite <- H1, <- H2. ring. }
    apply amul_integral in G. destruct G as [G|G]; [apply amul_integral in G; destruct G as [G|G]; [discriminate G|contradiction]|].
    transitivity (k1 * c2 - k2 * c1 + k2 * c1); [ring|]. rewrite G. ring. }
  destruct NY as [x Hx]. specialize (H3 x). specialize (H4 x). unfold scale in *. rewrite (F1 mY x) in H3. rewrite (F1 (mat GY) x) in H4. unfold scale in *. rewrite (Y x) in H3. unfold scale in H3. set (y := logical n L (mat GY) i f1 x) in *.
  assert (G : a2 * y * (k1 * c2 + k2 * c1) = azero).
  { transitivity (c1 * (k2 * (a2 * y)) - c2 * (k1 * (a2 * (- aone * y)))); [ring|]. rewrite <- H3, <- H4. ring. }
  rewrite <- R0 in G. apply amul_integral in G. destruct G as [G|G]; [apply amul_integral in G; destruct G as [G|G]; [discriminate G|contradiction]|].
  assert (G2 : k1 * c2 = azero) by (apply cancel2; rewrite amul_0_r, <- G; ring). apply amul_integral in G2. tauto.
Qed.
