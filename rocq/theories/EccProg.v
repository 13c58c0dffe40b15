(** * EccProg: whole programs (C58) *)
From Coq Require Import NArith ZArith Ring.
From Verif Require Export EccComp.
Local Open Scope amp_scope.

(** ** Specification *)
(** what a gate or measurement of the input circuit does to its own qubits: the circuit before the transformation *)
Definition original (gates : list iop) : list op := flat_map copyGate gates.
(** the gates for which the transformation is claimed to work: gates of [S1] without control, gates of [S2] with one (positive) control, measurements *)
Definition supported (S1 S2 : list gt) (n ncb : nat) (g : iop) : Prop :=
  match g with
  | INone => True
  | IGate t [] ts => In t S1 /\ Forall (fun i => i < n) ts
  | IGate t [(b, true)] ts => In t S2 /\ b < n /\ Forall (fun i => i < n /\ b <> i) ts
  | IMeas qs cs => Forall (fun q => q < n) qs /\ Forall (fun c => c < ncb) cs
  | _ => False
  end.
Definition circOf (e : ecc) (n ncb : nat) (p : piece) : list op := match pieceOf e n ncb p with Ok c => c | Err _ => [] end.
(** the mapped circuit, piece by piece; errors strike before each round of error correction: the i-th element of [errs] before the i-th round.  An
    error is an operator on at most one qubit of each block *)
Definition blockErr := nat -> option (matrix * nat).
Definition noErr : blockErr := fun _ => None.
Fixpoint exec (e : ecc) (n ncb : nat) (ps : list piece) (errs : list blockErr) (c : conf) : conf :=
  match ps with
  | [] => c
  | PRound :: ps' => exec e n ncb ps' (tl errs) (run (roundOf e n ncb) (mkConf (creg c) (outs c) (noise n (hd noErr errs) (st c))))
  | p :: ps' => exec e n ncb ps' errs (run (circOf e n ncb p) c)
  end.
(** the whole mapped circuit: what [apply] returns, with errors *)
Definition execAll (e : ecc) (freq n ncb : nat) (gates : list iop) (errs : list blockErr) (c : conf) : conf :=
  exec e n ncb (schedule freq 0 false gates) errs (run (encodeOf e n ncb (mkFl true false)) c).
(** the record of all outcomes, woven from the outcomes [a] of the resets and measurements of the code and the outcomes [u] of the measurements of the input circuit *)
Definition isUser (p : piece) : bool := match p with PGate g => isMeas g | _ => false end.
Fixpoint weave (e : ecc) (n ncb : nat) (ps : list piece) (a u : list bool) : list bool :=
  match ps with
  | [] => []
  | p :: ps' => let c := circOf e n ncb p in
      if isUser p then taken c u ++ weave e n ncb ps' a (skipn (nrand c) u) else taken c a ++ weave e n ncb ps' (skipn (nrand c) a) u
  end.
(** the errors: of the given kind; or given by gates *)
Definition errsOfKind (nd : nat) (kind : matrix -> Prop) (errs : list blockErr) : Prop :=
  Forall (fun E => forall i m j, E i = Some (m, j) -> kind m /\ j < nd) errs.
Definition gateKind (gts : list gt) (m : matrix) : Prop := exists g, In g gts /\ m = mat g.
(** the two classical registers agree on the bits of the input circuit *)
Definition agree (ncb : nat) (a b : N) : Prop := forall i, i < ncb -> bit a i = bit b i.
(** c times [g] is k times [f], the ancillas being [m] instead of 0 *)
Definition isUpTo (anc : list nat) (c k : amp) (m : list bool) (g f : state) : Prop :=
  forall x, c * g x = if reads anc m x then k * f (setTo anc (repeat false (length anc)) x) else azero.
(** The claim.  The circuit is mapped, and for every record [a] of outcomes of the code's own resets and measurements there are a factor [K a] and a reading
    [M a] of the ancillas such that, from every initial state and with every outcomes [u] of the measurements of the input circuit, the mapped circuit with
    errors ends in K a times the state in which the input circuit ends with the outcomes [u], and with the same classical bits.  As the factor does not
    depend on [u], the outcomes of the mapped circuit have the probabilities they have in the input circuit. *)
Definition faithful (e : ecc) (start : nat -> state -> Prop) (S1 S2 : list gt) (kind : matrix -> Prop) (live : Prop) : Prop :=
  forall n ncb freq gates errs, 0 < n -> Forall (supported S1 S2 n ncb) gates -> errsOfKind (e_red e) kind errs ->
  (exists circ, apply e freq n ncb gates = Ok circ /\ forall c, run circ c = execAll e freq n ncb gates [] c) /\
  exists C K M, C <> azero /\ (live -> exists a, K a <> azero) /\ forall a u cr f, start n f ->
    let real := execAll e freq n ncb gates errs (mkConf cr (weave e n ncb (schedule freq 0 false gates) a u) f) in
    let ideal := run (original gates) (mkConf cr u f) in
    isUpTo (ancillas e n) C (K a) (M a) (st real) (st ideal) /\ agree ncb (creg real) (creg ideal).

(** ** Proofs *)
(** *** Records *)
Lemma step_tail o cr rec rest f : run [o] (mkConf cr (taken [o] rec ++ rest) f) = mkConf (creg (run [o] (mkConf cr rec f))) rest (st (run [o] (mkConf cr rec f))).
Proof. destruct o; reflexivity. Qed.
Lemma run_taken os : forall cr rec rest f, run os (mkConf cr (taken os rec ++ rest) f) = mkConf (creg (run os (mkConf cr rec f))) rest (st (run os (mkConf cr rec f))).
Proof.
  unfold run. induction os as [|o os IHo]; intros cr rec rest f; [reflexivity|]. cbn [fold_left taken]. destruct (isRand o) eqn:Er.
  - destruct o; try discriminate; cbn [app step hd tl creg outs st]; apply IHo.
  - destruct o; try discriminate; cbn [step creg outs st]; apply IHo.
Qed.
Lemma taken_full os t : length t = nrand os -> taken os t = t.
Proof. intros H. rewrite <- (app_nil_r t) at 1. now apply taken_app. Qed.
Lemma run_rec os cr t rest f : length t = nrand os -> run os (mkConf cr (t ++ rest) f) = mkConf (creg (run os (mkConf cr t f))) rest (st (run os (mkConf cr t f))).
Proof. intros H. rewrite <- (taken_full os t H) at 1. apply run_taken. Qed.
Lemma nrand_gates os : forallb isGate os = true -> nrand os = 0%nat.
Proof. unfold nrand. induction os as [|o os IHo]; [reflexivity|]. cbn [forallb filter]. rewrite andb_true_iff. intros [H1 H2]. destruct o; try discriminate. now apply IHo. Qed.
Lemma run_gates os cr rec f : forallb isGate os = true -> creg (run os (mkConf cr rec f)) = cr /\ outs (run os (mkConf cr rec f)) = rec /\ st (run os (mkConf cr rec f)) == after os f.
Proof.
  intros H. split; [|split].
  - unfold run. revert cr rec f. induction os as [|o os IHo]; intros; [reflexivity|]. cbn [forallb] in H. apply andb_true_iff in H. destruct H as [H1 H2]. destruct o; try discriminate. cbn [fold_left step creg outs st]. now apply IHo.
  - rewrite run_outs, (nrand_gates os H). reflexivity.
  - apply pure_after. rewrite forallb_forall in *. intros o Ho. specialize (H o Ho). now destruct o.
Qed.
(** *** Ancillas *)
Definition plain (o : op) : bool := match o with Gate _ _ _ | Meas _ _ => true | _ => false end.
Lemma active_set anc r ctl x : (forall q, In q anc -> forallb (fun p => negb (fst p =? q)) ctl = true) -> active ctl (setTo anc r x) = active ctl x.
Proof.
  intros H. unfold active. induction ctl as [|p ctl IHc]; [reflexivity|]. cbn [forallb]. rewrite IHc.
  - rewrite bit_setTo; [reflexivity|]. intros Hi. specialize (H _ Hi). cbn [forallb] in H. rewrite Nat.eqb_refl in H. discriminate.
  - intros q Hq. specialize (H q Hq). cbn [forallb] in H. now apply andb_true_iff in H.
Qed.
Lemma restored_step anc k r m o cr rec f : plain o = true -> (forall q, In q anc -> avoids q o = true) ->
  st (step (mkConf cr rec (restored anc k r m f)) o) == restored anc k r m (st (step (mkConf cr rec f) o)).
Proof.
  intros Hp Ha x. destruct o as [g ctl t| | |q b|]; try discriminate; cbn [step st creg outs].
  - assert (Ht : ~ In t anc) by (intros Hi; specialize (Ha t Hi); cbn [avoids] in Ha; rewrite Nat.eqb_refl in Ha; discriminate).
    assert (Hc : forall q, In q anc -> forallb (fun p : nat * bool => negb (fst p =? q)) ctl = true) by (intros q Hq; specialize (Ha q Hq); cbn [avoids] in Ha; now apply andb_true_iff in Ha).
    unfold gate. pose proof (restored_u2 anc k r m f (mat g) t Ht x) as G. unfold restored in *. rewrite (active_set anc r ctl x Hc). destruct (active ctl x); [exact G|]. destruct (reads anc m x); [ring|apply amul_0_r].
  - assert (Hq : ~ In q anc) by (intros Hi; specialize (Ha q Hi); cbn [avoids] in Ha; rewrite Nat.eqb_refl in Ha; discriminate).
    unfold project, restored. rewrite bit_setTo by exact Hq. destruct (reads anc m x), (Bool.eqb (bit x q) (hd false rec)); auto. rewrite amul_0_r. reflexivity.
Qed.
Lemma restored_run anc k r m os : forallb plain os = true -> (forall q, In q anc -> forallb (avoids q) os = true) -> forall cr rec f,
  st (run os (mkConf cr rec (restored anc k r m f))) == restored anc k r m (st (run os (mkConf cr rec f))).
Proof.
  induction os as [|o os IHo]; intros Hp Ha cr rec f x; [reflexivity|]. cbn [forallb] in Hp. apply andb_true_iff in Hp. destruct Hp as [H1 H2].
  assert (A1 : forall q, In q anc -> avoids q o = true) by (intros q Hq; specialize (Ha q Hq); cbn [forallb] in Ha; now apply andb_true_iff in Ha).
  assert (A2 : forall q, In q anc -> forallb (avoids q) os = true) by (intros q Hq; specialize (Ha q Hq); cbn [forallb] in Ha; now apply andb_true_iff in Ha).
  pose proof (restored_step anc k r m o cr rec f H1 A1) as E. specialize (IHo H2 A2). unfold run in *. cbn [fold_left]. set (c1 := step (mkConf cr rec (restored anc k r m f)) o) in *. set (c2 := step (mkConf cr rec f) o) in *.
  assert (Ec : creg c1 = creg c2) by (unfold c1, c2; destruct o; reflexivity). assert (Eo : outs c1 = outs c2) by (unfold c1, c2; destruct o; reflexivity).
  destruct c1 as [cr1 rec1 g1], c2 as [cr2 rec2 g2]. cbn [creg outs st] in *. subst. transitivity (st (fold_left step os (mkConf cr2 rec2 (restored anc k r m g2))) x); [now apply (run_ext os)|]. apply IHo.
Qed.
Lemma stays_Z q os cr rec f : forallb (avoids q) os = true -> gate GZ [] q f == f -> gate GZ [] q (st (run os (mkConf cr rec f))) == st (run os (mkConf cr rec f)).
Proof.
  intros Ha Hf x. pose proof (run_comm os (mat GZ) q Ha (mkConf cr rec f) x) as G. rewrite gate1. rewrite <- G. unfold sapp. cbn [creg outs st]. apply run_ext. intros y. rewrite <- (gate1 GZ q f y). apply Hf.
Qed.
Lemma opIn_avoids N o q : opIn N o -> N <= q -> avoids q o = true.
Proof.
  destruct o; cbn [opIn avoids]; intros H Hq.
  - destruct H as [Ht Hc]. rewrite (proj2 (Nat.eqb_neq t q)) by lia. cbn [negb andb]. apply forallb_forall. rewrite Forall_forall in Hc. intros p Hp. specialize (Hc p Hp). apply negb_true_iff, Nat.eqb_neq. lia.
  - rewrite (proj2 (Nat.eqb_neq a q)), (proj2 (Nat.eqb_neq b q)) by lia. reflexivity.
  - apply negb_true_iff, Nat.eqb_neq. lia.
  - apply negb_true_iff, Nat.eqb_neq. lia.
  - apply negb_true_iff, Nat.eqb_neq. lia.
Qed.
Lemma opsIn_avoids N os q : Forall (opIn N) os -> N <= q -> forallb (avoids q) os = true.
Proof. intros H Hq. apply forallb_forall. rewrite Forall_forall in H. intros o Ho. apply (opIn_avoids N); auto. Qed.
(** *** Classical bits *)
Definition bitsFrom (ncb : nat) (o : op) : bool := match o with Meas _ c => ncb <=? c | _ => true end.
Lemma bits_keep ncb os : forallb (bitsFrom ncb) os = true -> forall c, agree ncb (creg c) (creg (run os c)).
Proof.
  unfold run. induction os as [|o os IHo]; intros H c i Hi; [reflexivity|]. cbn [forallb] in H. apply andb_true_iff in H. destruct H as [H1 H2]. cbn [fold_left]. rewrite <- (IHo H2 (step c o) i Hi).
  destruct o; cbn [step creg]; try reflexivity. cbn [bitsFrom] in H1. apply Nat.leb_le in H1. rewrite bit_upd, (proj2 (Nat.eqb_neq c0 i)) by lia. reflexivity.
Qed.
Lemma meas_agree ncb qs cs : forall cr cr' rec f g, agree ncb cr cr' -> agree ncb (creg (run (measAll qs cs) (mkConf cr rec f))) (creg (run (measAll qs cs) (mkConf cr' rec g))).
Proof.
  unfold run, measAll. induction (combine qs cs) as [|[q c] l IHl]; intros cr cr' rec f g H; [exact H|]. cbn [map fold_left step creg outs st fst snd]. apply IHl. intros i Hi. rewrite !bit_upd. destruct (c =? i); [reflexivity|]. now apply H.
Qed.
(** *** Gates on encoded states *)
Lemma after_lin4' os a b c d f g h k x : a * after os f x + b * after os g x + c * after os h x + d * after os k x = after os (fun x => a * f x + b * g x + c * h x + d * k x) x.
Proof. symmetry. apply (after_lin4 os a b c d f g h k x). Qed.
Lemma phys (m : matrix) i f x : (let '(m00, m01, m10, m11) := m in (m00 + m11) * f x + (m01 + m10) * gate GX [] i f x + (m10 - m01) * gate GX [] i (gate GZ [] i f) x + (m00 - m11) * gate GZ [] i f x) = scale a2 (u2 m i f) x.
Proof.
  destruct m as [[[m00 m01] m10] m11]. unfold scale, gate. cbn [active forallb mat u2]. rewrite !bit_upd, !Nat.eqb_refl, !upd_upd. pose proof (upd_same x i) as Ex. unfold a2. destruct (bit x i); rewrite Ex.
  - set (u := f (upd x i false)). set (v := f x). rewrite ?amul_0_l. transitivity ((m00 + m11) * v + (m01 + m10) * u + (m10 - m01) * u + (m00 - m11) * (- v)); [ring|]. ring.
  - set (u := f (upd x i true)). set (v := f x). rewrite ?amul_0_l. transitivity ((m00 + m11) * v + (m01 + m10) * u + (m10 - m01) * (- u) + (m00 - m11) * v); [ring|]. ring.
Qed.

(** *** Noise, with factors that do not depend on the state *)
Section SpanU.
Variables (n nd : nat) (gts : list gt) (os : list op) (ok : state -> Prop) (base : list bool -> state -> state).
Hypothesis Hyp : forall P, valid nd gts P -> exists K : list bool -> amp, forall cr rec f, ok f -> st (run os (mkConf cr rec (after (W (errW n P (seq 0 n))) f))) == scale (K rec) (base rec f).
Variable E : blockErr.
Hypothesis HE : forall i m j, E i = Some (m, j) -> expands gts m /\ j < nd.
Lemma spanU L : NoDup L -> (forall i, In i L -> i < n) -> forall P, valid nd gts P -> (forall i, In i L -> P i = None) ->
  exists K : list bool -> amp, forall cr rec f, ok f -> scale (two (length L)) (st (run os (mkConf cr rec (after (W (errW n P (seq 0 n))) (noiseL n E L f))))) == scale (K rec) (base rec f).
Proof.
  induction L as [|i L IHL]; intros Hnd Hlt P HP HPL.
  - destruct (Hyp P HP) as [k Hk]. exists k. intros cr rec f Hf x. cbn [length noiseL fold_right]. unfold scale at 1. rewrite two_0, amul_1_l. now apply Hk.
  - inversion Hnd as [|i0 L0 Hi HndL]; subst i0 L0. assert (Hin : i < n) by (apply Hlt; now left). assert (HPi : P i = None) by (apply HPL; now left).
    assert (IH' : forall P', valid nd gts P' -> (forall i', In i' L -> P' i' = None) -> exists K : list bool -> amp, forall cr rec f, ok f -> scale (two (length L)) (st (run os (mkConf cr rec (after (W (errW n P' (seq 0 n))) (noiseL n E L f))))) == scale (K rec) (base rec f)).
    { intros P' H1 H2. apply IHL; auto. intros i' Hi'. apply Hlt. now right. }
    clear IHL. cbn [noiseL fold_right length]. destruct (E i) as [[m j]|] eqn:Ei.
    2:{ destruct (IH' P HP) as [k Hk]; [intros i' Hi'; apply HPL; now right|]. exists (fun rec => (aone + aone) * k rec). intros cr rec f Hf x. specialize (Hk cr rec f Hf x). change (fold_right _ f L) with (noiseL n E L f). unfold scale in *. rewrite two_S.
        transitivity ((aone + aone) * (two (length L) * st (run os (mkConf cr rec (after (W (errW n P (seq 0 n))) (noiseL n E L f)))) x)); [ring|]. rewrite Hk. ring. }
    destruct (HE i m j Ei) as [[l [Hl Hx]] Hj]. fold (dq n i j).
    set (T := fun cr rec h => st (run os (mkConf cr rec (after (W (errW n P (seq 0 n))) h)))).
    assert (Tlin : forall cr rec a b h1 h2, T cr rec (plus (scale a h1) (scale b h2)) == plus (scale a (T cr rec h1)) (scale b (T cr rec h2))).
    { intros cr rec a b h1 h2 x. unfold T. rewrite <- run_lin. apply run_ext. intros y. unfold after. apply run_lin. }
    assert (Text : forall cr rec h1 h2, h1 == h2 -> T cr rec h1 == T cr rec h2) by (intros cr rec h1 h2 H; unfold T; apply run_ext, after_ext, H).
    assert (Tsc : forall cr rec a h, T cr rec (scale a h) == scale a (T cr rec h)).
    { intros cr rec a h x. unfold T. rewrite <- run_scale. apply run_ext. intros y. apply after_scale. }
    assert (Sum : forall l', (forall p, In p l' -> In p l) -> exists K : list bool -> amp, forall cr rec f, ok f -> scale (two (length L)) (T cr rec (fun x => fold_right (fun p acc => fst p * pact1 (snd p) (dq n i j) (noiseL n E L f) x + acc) azero l')) == scale (K rec) (base rec f)).
    { induction l' as [|[c o] l' IHl]; intros Hsub.
      - exists (fun _ => azero). intros cr rec f Hf x. unfold scale at 1 2. rewrite amul_0_l. cbn [fold_right]. replace (T cr rec (fun _ => azero) x) with azero; [apply amul_0_r|]. symmetry.
        unfold T. transitivity (zero x); [|reflexivity]. apply run_zero. intros y. unfold after. apply run_zero. intros z. reflexivity.
      - destruct IHl as [k Hk]; [intros p Hp; apply Hsub; now right|].
        assert (Hone : exists K1 : list bool -> amp, forall cr rec f, ok f -> scale (two (length L)) (T cr rec (pact1 o (dq n i j) (noiseL n E L f))) == scale (K1 rec) (base rec f)).
        { destruct o as [g0|].
          - destruct (IH' (updP P i (Some (g0, j)))) as [k1 Hk1].
            + intros i' g' j' Eq. unfold updP in Eq. destruct (Nat.eqb_spec i' i); [injection Eq as <- <-; split; [apply (Hl c), Hsub; now left|exact Hj]|now apply (HP i')].
            + intros i' Hi'. unfold updP. destruct (Nat.eqb_spec i' i); [subst; contradiction|]. apply HPL. now right.
            + exists k1. intros cr rec f Hf x. rewrite <- (Hk1 cr rec f Hf x). unfold scale, T. f_equal. apply run_ext. intros y. symmetry. cbn [pact1]. apply errW_upd; auto; [apply in_seq; lia|apply seq_NoDup|]. intros i' Hi'. apply in_seq in Hi'. lia.
          - destruct (IH' P HP) as [k1 Hk1]; [intros i' Hi'; apply HPL; now right|]. exists k1. exact Hk1. }
        destruct Hone as [k1 Hk1]. exists (fun rec => c * k1 rec + k rec). intros cr rec f Hf x. unfold scale.
        rewrite (Text cr rec _ (plus (scale c (pact1 o (dq n i j) (noiseL n E L f))) (scale aone (fun x => fold_right (fun p acc => fst p * pact1 (snd p) (dq n i j) (noiseL n E L f) x + acc) azero l')))).
        2:{ intros y. unfold plus, scale. cbn [fold_right fst snd]. ring. }
        rewrite Tlin. unfold plus, scale. specialize (Hk cr rec f Hf x). specialize (Hk1 cr rec f Hf x). unfold scale in Hk, Hk1.
        match goal with |- two _ * (c * ?A + aone * ?B) = _ => transitivity (c * (two (length L) * A) + two (length L) * B); [ring|] end. rewrite Hk, Hk1. ring. }
    destruct (Sum l (fun p Hp => Hp)) as [k Hk]. exists k. intros cr rec f Hf x. rewrite <- (Hk cr rec f Hf x). change (fold_right _ f L) with (noiseL n E L f). set (g := noiseL n E L f). unfold scale at 1 2. rewrite two_S. fold (T cr rec (u2 m (dq n i j) g)).
    transitivity (two (length L) * ((aone + aone) * T cr rec (u2 m (dq n i j) g) x)); [ring|]. f_equal. change ((aone + aone) * T cr rec (u2 m (dq n i j) g) x) with (scale (aone + aone) (T cr rec (u2 m (dq n i j) g)) x).
    rewrite <- Tsc. apply Text. intros y. unfold scale. apply Hx.
Qed.
Lemma spanU_all : exists K : list bool -> amp, forall cr rec f, ok f -> scale (two n) (st (run os (mkConf cr rec (noise n E f)))) == scale (K rec) (base rec f).
Proof.
  destruct (spanU (seq 0 n) (seq_NoDup n 0) (fun i Hi => proj2 (proj1 (in_seq n 0 i) Hi)) (fun _ => None)) as [k Hk]; [intros i g j Ei; discriminate|auto|].
  exists k. intros cr rec f Hf x. rewrite <- (Hk cr rec f Hf x), seq_length. unfold scale. f_equal. apply run_ext. intros y. symmetry. apply errW_none.
Qed.
End SpanU.
