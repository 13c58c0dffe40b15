(** * EccCorrect: the rounds of all the codes correct the errors *)
From Coq Require Import NArith ZArith Ring.
From Verif Require Export EccSpec EccCodes.
Local Open Scope amp_scope.

(** ** From Pauli errors to operators *)
Definition pact1 (g : option gt) (q : nat) (f : state) : state := match g with Some g => gate g [] q f | None => f end.
Definition updP (P : nat -> perr) (i : nat) (e : perr) : nat -> perr := fun i' => if i' =? i then e else P i'.
Lemma errW_ext n P P' L : (forall i, In i L -> P i = P' i) -> errW n P L = errW n P' L.
Proof. intros H. unfold errW. induction L as [|i L IHL]; [reflexivity|]. cbn [flat_map]. rewrite (H i) by now left. f_equal. apply IHL. intros j Hj. apply H. now right. Qed.
Lemma W_one g q f : after (W [(g, q)]) f == gate g [] q f. Proof. intros x. reflexivity. Qed.
Lemma errW_upd n P i g j : i < n -> P i = None -> forall L, In i L -> NoDup L -> (forall i', In i' L -> i' < n) ->
  forall f, after (W (errW n (updP P i (Some (g, j))) L)) f == after (W (errW n P L)) (gate g [] (dq n i j) f).
Proof.
  intros Hi HP. induction L as [|h L IHL]; intros Hin Hnd Hlt f x; [destruct Hin|]. inversion Hnd as [|h0 L0 Hh HndL]; subst h0 L0.
  change (errW n (updP P i (Some (g, j))) (h :: L)) with (shiftW (dq n h) (eword (updP P i (Some (g, j)) h)) ++ errW n (updP P i (Some (g, j))) L).
  change (errW n P (h :: L)) with (shiftW (dq n h) (eword (P h)) ++ errW n P L). rewrite !after_W_app. unfold updP at 2. destruct (Nat.eqb_spec h i) as [->|Hn].
  - rewrite (errW_ext n (updP P i (Some (g, j))) P L).
    + rewrite HP. apply after_ext. intros y. cbn [eword shiftW map fst snd]. rewrite W_one. reflexivity.
    + intros i' Hi'. unfold updP. destruct (Nat.eqb_spec i' i); [subst; contradiction|reflexivity].
  - destruct Hin as [Hin|Hin]; [congruence|]. rewrite (IHL Hin HndL (fun i' Hi' => Hlt i' (or_intror Hi'))). apply after_ext. intros y.
    rewrite <- (W_one g (dq n i j) (after _ f) y). rewrite W_comm; [apply after_ext; apply W_one|].
    intros p q [<-|[]] Hq. apply in_map_iff in Hq. destruct Hq as [q0 [<- _]]. cbn [snd]. intros Eq. apply dq_inj in Eq; [destruct Eq; congruence|exact Hi|apply Hlt; now left].
Qed.
Lemma errW_none n L f : after (W (errW n (fun _ => None) L)) f == f.
Proof. unfold errW. induction L as [|i L IHL]; [intros x; reflexivity|]. cbn [flat_map eword shiftW map app]. exact IHL. Qed.
Definition expands (gts : list gt) (m : matrix) : Prop :=
  exists l : list (amp * option gt), (forall c g, In (c, Some g) l -> In g gts) /\
    forall q f x, (aone + aone) * u2 m q f x = fold_right (fun p acc => fst p * pact1 (snd p) q f x + acc) azero l.
Lemma u2_zop q f : Zop q f == gate GZ [] q f.
Proof. intros x. unfold gate, Zop. cbn [active forallb mat u2]. pose proof (upd_same x q) as E. destruct (bit x q); cbn [sg]; rewrite E, amul_0_l, ?amul_1_l; ring. Qed.
Lemma u2_xzop q f : Xop q (Zop q f) == scale (- aI) (gate GY [] q f).
Proof.
  intros x. unfold gate, Xop, Zop, scale. cbn [active forallb mat u2]. rewrite bit_flipb, Nat.eqb_refl. pose proof (upd_flip x q) as E. destruct (bit x q); cbn [sg negb xorb] in *; rewrite E, amul_0_l.
  - transitivity ((- aI * aI) * f (flipb x q)); [|ring]. reflexivity.
  - transitivity ((- aI * - aI) * f (flipb x q)); [|ring]. reflexivity.
Qed.
Lemma expands_all m : expands [GX; GY; GZ] m.
Proof.
  destruct m as [[[m00 m01] m10] m11]. exists [(m00 + m11, None); (m01 + m10, Some GX); ((m10 - m01) * (- aI), Some GY); (m00 - m11, Some GZ)]. split.
  - intros c g H. cbn [In] in *. repeat destruct H as [H|H]; try injection H as _ <-; try tauto; discriminate.
  - intros q f x. rewrite u2_form. cbn [fold_right fst snd pact1]. rewrite (u2_xzop q f x), (u2_zop q f x), <- (gX q f x). unfold scale. ring.
Qed.
Lemma expands_X m : xKind m -> expands [GX] m.
Proof.
  destruct m as [[[m00 m01] m10] m11]. intros [-> ->]. exists [(m11 + m11, None); (m10 + m10, Some GX)]. split.
  - intros c g H. cbn [In] in *. repeat destruct H as [H|H]; try injection H as _ <-; try tauto; discriminate.
  - intros q f x. rewrite u2_form. cbn [fold_right fst snd pact1]. rewrite <- (gX q f x). replace (m10 - m10) with azero by ring. replace (m11 - m11) with azero by ring. rewrite !amul_0_l. ring.
Qed.
Definition noiseL (n : nat) (E : nat -> option (matrix * nat)) (L : list nat) (f : state) : state :=
  fold_right (fun i g => match E i with Some (m, j) => u2 m (i + j * n)%nat g | None => g end) f L.
Section Span.
Variables (n nd : nat) (gts : list gt) (os : list op) (cr : N) (rec : list bool) (f base : state).
Definition valid (P : nat -> perr) : Prop := forall i g j, P i = Some (g, j) -> In g gts /\ j < nd.
Hypothesis Hyp : forall P, valid P -> exists k, st (run os (mkConf cr rec (after (W (errW n P (seq 0 n))) f))) == scale k base.
Variable E : nat -> option (matrix * nat).
Hypothesis HE : forall i m j, E i = Some (m, j) -> expands gts m /\ j < nd.
Lemma span L : NoDup L -> (forall i, In i L -> i < n) -> forall P, valid P -> (forall i, In i L -> P i = None) ->
  exists k, scale (two (length L)) (st (run os (mkConf cr rec (after (W (errW n P (seq 0 n))) (noiseL n E L f))))) == scale k base.
Proof.
  induction L as [|i L IHL]; intros Hnd Hlt P HP HPL.
  - destruct (Hyp P HP) as [k Hk]. exists k. intros x. cbn [length noiseL fold_right]. unfold scale at 1. rewrite two_0, amul_1_l. apply Hk.
  - inversion Hnd as [|i0 L0 Hi HndL]; subst i0 L0. assert (Hin : i < n) by (apply Hlt; now left). assert (HPi : P i = None) by (apply HPL; now left).
    assert (IH' : forall P', valid P' -> (forall i', In i' L -> P' i' = None) -> exists k, scale (two (length L)) (st (run os (mkConf cr rec (after (W (errW n P' (seq 0 n))) (noiseL n E L f))))) == scale k base).
    { intros P' H1 H2. apply IHL; auto. intros i' Hi'. apply Hlt. now right. }
    clear IHL. set (g := noiseL n E L f) in *. cbn [noiseL fold_right length]. change (fold_right _ f L) with g. destruct (E i) as [[m j]|] eqn:Ei.
    2:{ destruct (IH' P HP) as [k Hk]; [intros i' Hi'; apply HPL; now right|]. exists ((aone + aone) * k). intros x. specialize (Hk x). unfold scale in *. rewrite two_S.
        transitivity ((aone + aone) * (two (length L) * st (run os (mkConf cr rec (after (W (errW n P (seq 0 n))) g))) x)); [ring|]. rewrite Hk. ring. }
    destruct (HE i m j Ei) as [[l [Hl Hx]] Hj]. fold (dq n i j).
    set (T := fun h => st (run os (mkConf cr rec (after (W (errW n P (seq 0 n))) h)))).
    assert (Tlin : forall a b h1 h2, T (plus (scale a h1) (scale b h2)) == plus (scale a (T h1)) (scale b (T h2))).
    { intros a b h1 h2 x. unfold T. rewrite <- run_lin. apply run_ext. intros y. unfold after. apply run_lin. }
    assert (Text : forall h1 h2, h1 == h2 -> T h1 == T h2) by (intros h1 h2 H; unfold T; apply run_ext, after_ext, H).
    assert (Tsc : forall a h, T (scale a h) == scale a (T h)).
    { intros a h x. unfold T. rewrite <- run_scale. apply run_ext. intros y. apply after_scale. }
    assert (Sum : forall l', (forall p, In p l' -> In p l) -> exists k, scale (two (length L)) (T (fun x => fold_right (fun p acc => fst p * pact1 (snd p) (dq n i j) g x + acc) azero l')) == scale k base).
    { induction l' as [|[c o] l' IHl]; intros Hsub.
      - exists azero. intros x. unfold scale at 1 2. rewrite amul_0_l. cbn [fold_right]. replace (T (fun _ => azero) x) with azero; [apply amul_0_r|]. symmetry.
        unfold T. transitivity (zero x); [|reflexivity]. apply run_zero. intros y. unfold after. apply run_zero. intros z. reflexivity.
      - destruct IHl as [k Hk]; [intros p Hp; apply Hsub; now right|].
        assert (Hone : exists k1, scale (two (length L)) (T (pact1 o (dq n i j) g)) == scale k1 base).
        { destruct o as [g0|].
          - destruct (IH' (updP P i (Some (g0, j)))) as [k1 Hk1].
            + intros i' g' j' Eq. unfold updP in Eq. destruct (Nat.eqb_spec i' i); [injection Eq as <- <-; split; [apply (Hl c), Hsub; now left|exact Hj]|now apply (HP i')].
            + intros i' Hi'. unfold updP. destruct (Nat.eqb_spec i' i); [subst; contradiction|]. apply HPL. now right.
            + exists k1. intros x. rewrite <- Hk1. unfold scale, T. f_equal. apply run_ext. intros y. symmetry. cbn [pact1]. apply errW_upd; auto; [apply in_seq; lia|apply seq_NoDup|]. intros i' Hi'. apply in_seq in Hi'. lia.
          - destruct (IH' P HP) as [k1 Hk1]; [intros i' Hi'; apply HPL; now right|]. exists k1. exact Hk1. }
        destruct Hone as [k1 Hk1]. exists (c * k1 + k). intros x. unfold scale.
        rewrite (Text _ (plus (scale c (pact1 o (dq n i j) g)) (scale aone (fun x => fold_right (fun p acc => fst p * pact1 (snd p) (dq n i j) g x + acc) azero l')))).
        2:{ intros y. unfold plus, scale. cbn [fold_right fst snd]. ring. }
        rewrite Tlin. unfold plus, scale. specialize (Hk x). specialize (Hk1 x). unfold scale in Hk, Hk1.
        match goal with |- two _ * (c * ?A + aone * ?B) = _ => transitivity (c * (two (length L) * A) + two (length L) * B); [ring|] end. rewrite Hk, Hk1. ring. }
    destruct (Sum l (fun p Hp => Hp)) as [k Hk]. exists k. intros x. rewrite <- Hk. unfold scale at 1 2. rewrite two_S. fold (T (u2 m (dq n i j) g)).
    transitivity (two (length L) * ((aone + aone) * T (u2 m (dq n i j) g) x)); [ring|]. f_equal. change ((aone + aone) * T (u2 m (dq n i j) g) x) with (scale (aone + aone) (T (u2 m (dq n i j) g)) x).
    rewrite <- Tsc. apply Text. intros y. unfold scale. apply Hx.
Qed.
Lemma span_all : exists k, scale (two n) (st (run os (mkConf cr rec (noise n E f)))) == scale k base.
Proof.
  destruct (span (seq 0 n) (seq_NoDup n 0) (fun i Hi => proj2 (proj1 (in_seq n 0 i) Hi)) (fun _ => None)) as [k Hk]; [intros i g j Ei; discriminate|auto|].
  exists k. intros x. rewrite <- Hk, seq_length. unfold scale. f_equal. apply run_ext. intros y. symmetry. apply errW_none.
Qed.
End Span.
Lemma two_nz k : two k <> azero.
Proof. unfold two, azero. intros H. assert (H1 := f_equal (fun z => let '(Am a _ _ _) := z in a) H). cbv beta iota in H1. pose proof (Z.pow_pos_nonneg 2 (Z.of_nat k)). lia. Qed.
