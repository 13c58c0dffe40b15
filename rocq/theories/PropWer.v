(** * PropWer: properties C61 (word error rates) and C62 (runtimes): the drivers of DecodingSimulator.cpp *)
From Coq Require Import List Arith Bool String Ascii QArith Qround Lia Permutation.
From Verif Require Import Lin2 UtilsProofs CodeProofs UfProofs3 UfhProofs4 WerModel PropUf PropUfh.
Import ListNotations.
Local Open Scope nat_scope.

(** ** Specification *)
(** the i-th physical error rate *)
Fixpoint rateAt (minPer step : Q) (i : nat) : Q := match i with O => minPer | S i' => rateAt (minPer + step)%Q step i' end.
(** N rates are visited *)
Definition visits (minPer maxPer step : Q) (N : nat) : Prop :=
  (forall i, i < N -> (rateAt minPer step i < maxPer)%Q) /\ (maxPer <= rateAt minPer step N)%Q.
Lemma rateAt_lin step : forall i p, (rateAt p step i == p + inject_Z (Z.of_nat i) * step)%Q.
Proof. induction i as [|i IH]; intros p; cbn [rateAt]; [cbn; ring|]. rewrite IH. rewrite Nat2Z.inj_succ, <- Z.add_1_r, inject_Z_plus. ring. Qed.
Definition countFailed (fail : nat -> bool) (runs : nat) : nat := length (filter fail (seq 0 runs)).

(** ** C61 *)
Section Wer.
  Variables (n : nat) (hx hz : mat).
  Hypothesis C2 : code2 n hx hz.
  Lemma C2s : code2 n hz hx.
  Proof. destruct C2 as (A & B & C & D & E). repeat split; auto. Qed.
  Variable dump : info -> string.

  Lemma werRun_ok dec error idx est : length error = n -> length est = n -> dec (codeXZ hz hx) (mulMV hx error) = Finished (idx, est) ->
    exists b, werRun dec (codeXZ hx hz) error = Finished (mkInfo 0%Q 0 [] [] b (idx, est)) /\ (b = true <-> ~ span n hz (vxor error est)).
  Proof. intros Le Ls Ed. unfold werRun. change (decoderSetCode (codeXZ hx hz)) with (codeXZ hz hx).
    rewrite (xsyn_ok n hz hx error C2s Le), Ed. destruct (residual_prop n error est Le Ls) as [-> _]. cbn [bind].
    destruct (xstab_ok n hz hx (vxor error est) C2s) as (b & -> & Hb); [rewrite vxor_length; unfold vec in *; lia|].
    exists (negb b). split; auto. rewrite <- Hb. destruct b; cbn; intuition congruence. Qed.

  Lemma werRuns_ok dec errs nruns : forall todo j,
    (forall j', j <= j' < j + todo -> length (errs j') = n /\ exists idx est, dec j' (codeXZ hz hx) (mulMV hx (errs j')) = Finished (idx, est) /\ length est = n) ->
    exists fail txt, werRuns dump dec errs (codeXZ hx hz) nruns j todo = Finished (length (filter fail (seq j todo)), txt) /\
      forall j', j <= j' < j + todo -> (fail j' = true <-> forall idx est, dec j' (codeXZ hz hx) (mulMV hx (errs j')) = Finished (idx, est) -> ~ span n hz (vxor (errs j') est)).
  Proof. induction todo as [|todo IH]; intros j H; cbn [werRuns seq].
    - exists (fun _ => false), EmptyString. split; [reflexivity|lia].
    - destruct (H j ltac:(lia)) as (Le & idx & est & Ed & Ls). destruct (werRun_ok (dec j) (errs j) idx est Le Ls Ed) as (b & -> & Hb).
      destruct (IH (S j)) as (fail & txt & -> & HF); [intros; apply H; lia|]. cbn [i_failed].
      exists (fun x => if x =? j then b else fail x). eexists. split.
      + f_equal. f_equal. cbn [filter]. rewrite Nat.eqb_refl. rewrite (filter_ext_in (fun x => if x =? j then b else fail x) fail (seq (S j) todo)).
        * destruct b; reflexivity.
        * intros x Hx. apply in_seq in Hx. destruct (Nat.eqb_spec x j); [lia|reflexivity].
      + intros j' Hj. destruct (Nat.eqb_spec j' j) as [->|].
        * rewrite Hb. split; [|eauto]. intros K i e Ei. rewrite Ed in Ei. injection Ei as <- <-. exact K.
        * apply HF. lia. Qed.
End Wer.

Lemma lookup_try {V} key (v : V) m key' : lookup key' (tryEmplace key v m) = match lookup key' m with Some w => Some w | None => if String.eqb key' key then Some v else None end.
Proof. unfold tryEmplace. destruct (existsb (fun p => String.eqb key (fst p)) m) eqn:E.
  - destruct (lookup key' m) eqn:L; auto. destruct (String.eqb_spec key' key) as [->|]; auto. exfalso. revert E L. induction m as [|[a w] m IH]; cbn; [discriminate|].
    destruct (String.eqb_spec key a); cbn; auto. discriminate.
  - clear E. induction m as [|[a w] m IH]; cbn; auto. destruct (String.eqb key' a); auto. Qed.
Lemma keys_try {V} key (v : V) m k : In k (map fst (tryEmplace key v m)) <-> k = key \/ In k (map fst m).
Proof. unfold tryEmplace. destruct (existsb (fun p => String.eqb key (fst p)) m) eqn:E.
  - apply existsb_exists in E. destruct E as (p & Hp & Ep). apply String.eqb_eq in Ep. split; [tauto|]. intros [->|]; auto. rewrite Ep. now apply in_map.
  - rewrite map_app, in_app_iff. cbn. intuition. Qed.

Lemma Qle_bool_lt a b : negb (Qle_bool b a) = true <-> (a < b)%Q.
Proof. rewrite negb_true_iff. split; intros H.
  - apply Qnot_le_lt. intros K. apply Qle_bool_iff in K. congruence.
  - apply not_true_iff_false. rewrite Qle_bool_iff. now apply Qlt_not_le. Qed.

Lemma find_seq_least f : forall N a x i, find f (seq a N) = Some x -> i < x -> a <= i -> f i = false.
Proof. induction N as [|N IH]; intros a x i E L La; cbn [seq find] in E; [discriminate|]. destruct (f a) eqn:Ea.
  - injection E as <-. lia.
  - destruct (Nat.eq_dec i a) as [->|]; auto. apply (IH (S a) x i E L). lia. Qed.

(** what a decoder has to do: answer, with an estimate on n qubits, on the syndrome of every sampled error *)
Definition answers (n : nat) (dec : nat -> nat -> code -> vec -> run (list nat * vec)) (errs : nat -> nat -> vec) (hx hz : mat) (N runs : nat) : Prop :=
  forall i j, i < N -> j < runs -> length (errs i j) = n /\
    exists idx est, dec i j (codeXZ hz hx) (mulMV hx (errs i j)) = Finished (idx, est) /\ length est = n.

Lemma werLoop_ok n hx hz show dump dec errs maxPer step runs k : code2 n hx hz ->
  exists fail : nat -> nat -> bool, forall N i p m txt fuel, N <= fuel ->
  (forall x, x < N -> (rateAt p step x < maxPer)%Q) -> (maxPer <= rateAt p step N)%Q ->
  (forall x j, i <= x < i + N -> j < runs -> length (errs x j) = n /\ exists idx est, dec x j (codeXZ hz hx) (mulMV hx (errs x j)) = Finished (idx, est) /\ length est = n) ->
  exists m' txt', werLoop fuel show dump dec errs maxPer step runs (codeXZ hx hz) k i p m txt = Finished (m', txt') /\
    (forall key, In key (map fst m') <-> In key (map fst m) \/ exists x, x < N /\ key = show (rateAt p step x)) /\
    (forall key, lookup key m' = match lookup key m with Some w => Some w | None =>
       match find (fun x => String.eqb key (show (rateAt p step x))) (seq 0 N) with
       | Some x => Some (wordErrRate (countFailed (fail (i + x)) runs) runs k) | None => None end end) /\
    (forall x j, i <= x < i + N -> j < runs -> (fail x j = true <-> forall idx est, dec x j (codeXZ hz hx) (mulMV hx (errs x j)) = Finished (idx, est) -> ~ span n hz (vxor (errs x j) est))).
Proof. intros C2.
  pose (fail := fun (x j : nat) => match dec x j (codeXZ hz hx) (mulMV hx (errs x j)) with Finished (idx, est) => negb (in_spanb n hz (vxor (errs x j) est)) | _ => true end).
  exists fail.
  induction N as [|N IH]; intros i p m txt fuel Hf Hlt Hge HA.
  - exists m, txt. split; [|split; [|split]].
    + destruct fuel; cbn [werLoop]; replace (Qle_bool maxPer p) with true by (symmetry; apply Qle_bool_iff; exact Hge); reflexivity.
    + intros key. split; [tauto|]. intros [?|(x & ? & _)]; [auto|lia].
    + intros key. cbn. destruct (lookup key m); reflexivity.
    + lia.
  - destruct fuel as [|fuel]; [lia|]. cbn [werLoop]. rewrite (proj2 (Qle_bool_lt p maxPer)) by (apply (Hlt 0); lia).
    destruct (werRuns_ok n hx hz C2 dump (dec i) (errs i) runs runs 0) as (fl & t & ER & HF); [intros j Hj; apply HA; lia|]. rewrite ER.
    assert (FS : forall x j, i <= x < i + S N -> j < runs -> (fail x j = true <-> forall idx est, dec x j (codeXZ hz hx) (mulMV hx (errs x j)) = Finished (idx, est) -> ~ span n hz (vxor (errs x j) est))).
    { intros x j Hx Hj. destruct (HA x j Hx Hj) as (Le & idx & est & Ed & Ls). unfold fail. rewrite Ed.
      assert (W : wf n hz) by (destruct C2 as (_ & ? & _); auto).
      pose proof (in_spanb_spec n hz (vxor (errs x j) est) W ltac:(rewrite vxor_length; unfold vec in *; lia)) as IS.
      rewrite negb_true_iff. split.
      - intros E i' e' E'. injection E' as <- <-. rewrite <- IS. congruence.
      - intros K. apply not_true_iff_false. rewrite IS. eauto. }
    destruct (IH (S i) (p + step)%Q (tryEmplace (show p) (wordErrRate (length (filter fl (seq 0 runs))) runs k) m) (txt ++ t)%string fuel) as (m' & txt' & EL & K1 & K2 & K3); [lia|..].
    { intros x Hx. apply (Hlt (S x)). lia. }
    { exact Hge. }
    { intros x j Hx Hj. apply HA; lia. }
    exists m', txt'. split; [exact EL|]. split; [|split; [|exact FS]].
    + intros key. rewrite K1, keys_try. split.
      * intros [[->|?]|(x & Hx & ->)]; [right; exists 0; split; [lia|reflexivity]|tauto|]. right. exists (S x). split; [lia|reflexivity].
      * intros [?|([|x] & Hx & ->)]; [tauto| |]; cbn [rateAt]; [tauto|]. right. exists x. split; [lia|reflexivity].
    + intros key. rewrite K2, lookup_try. destruct (lookup key m); auto. cbn [seq find rateAt].
      assert (EC : countFailed (fail i) runs = length (filter fl (seq 0 runs))).
      { unfold countFailed. f_equal. apply filter_ext_in. intros j Hj. apply in_seq in Hj. apply eq_true_iff_eq. rewrite HF, FS by lia. reflexivity. }
      destruct (String.eqb key (show p)).
      * rewrite Nat.add_0_r, EC. reflexivity.
      * rewrite <- seq_shift. clear - fail. induction (seq 0 N) as [|a l IHl]; cbn [find map]; auto. cbn [rateAt].
        destruct (String.eqb key (show (rateAt (p + step) step a))); [rewrite Nat.add_succ_r; reflexivity|exact IHl]. Qed.

(** The raw-data file has one entry for the printed form of every visited rate, and no other; the entry of the first rate with
    this printed form is failures / runs / k, where a run has failed exactly if the sampled error and the decoder's answer
    to its syndrome differ by more than a product of checks. *)
Theorem C61_word_error_rates : forall n hx hz show showH dump dec errs minPer maxPer step runs k fuel N,
  code2 n hx hz -> visits minPer maxPer step N -> N <= fuel -> answers n dec errs hx hz N runs ->
  exists tbl txt (failed : nat -> nat -> bool),
    simulateWER fuel show showH dump dec errs minPer maxPer runs (codeXZ hx hz) k step = Finished (tbl, txt) /\
    (forall key, In key (map fst tbl) <-> exists i, i < N /\ key = show (rateAt minPer step i)) /\
    (forall i, i < N -> (forall i', i' < i -> show (rateAt minPer step i') <> show (rateAt minPer step i)) ->
       lookup (show (rateAt minPer step i)) tbl = Some (wordErrRate (countFailed (failed i) runs) runs k)) /\
    (forall i j idx est, i < N -> j < runs -> dec i j (codeXZ hz hx) (mulMV hx (errs i j)) = Finished (idx, est) ->
       (failed i j = true <-> ~ span n hz (vxor (errs i j) est))).
Proof. intros n hx hz show showH dump dec errs minPer maxPer step runs k fuel N C2 [Hlt Hge] Hf HA.
  destruct (werLoop_ok n hx hz show dump dec errs maxPer step runs k C2) as (fail & HW).
  destruct (HW N 0 minPer [] (statsHeader showH minPer) fuel Hf Hlt Hge) as (m' & txt' & EL & K1 & K2 & K3); [intros x j Hx Hj; apply HA; lia|].
  exists m', (txt' ++ "}")%string, fail. unfold simulateWER. rewrite EL. split; [reflexivity|]. split; [|split].
  - intros key. rewrite K1. cbn. intuition.
  - intros i Hi Hnew. rewrite K2. cbn [lookup]. destruct (find _ (seq 0 N)) as [x|] eqn:EF.
    + destruct (find_some _ _ EF) as [Hx Ex]. apply in_seq in Hx. apply String.eqb_eq in Ex.
      assert (x = i); [|now subst]. destruct (lt_eq_lt_dec x i) as [[L|]|L]; auto; [elim (Hnew x L); auto|].
      exfalso. apply (find_seq_least _ _ _ _ i EF) in L; [|lia]. cbn in L. now rewrite String.eqb_refl in L.
    + exfalso. pose proof (find_none _ _ EF i ltac:(apply in_seq; lia)) as K. cbn in K. now rewrite String.eqb_refl in K.
  - intros i j idx est Hi Hj Ed. rewrite K3 by lia. split; [eauto|]. intros K i' e' E'. rewrite Ed in E'. injection E' as <- <-. exact K. Qed.
Print Assumptions C61_word_error_rates.
(** failures / runs / k in numbers: with a positive k the entry is the quotient *)
Theorem C61_rate_value : forall failed runs k, 0 < runs -> 0 < k ->
  exists q, wordErrRate failed runs k = RFin q /\ (q * inject_Z (Z.of_nat (runs * k)) == inject_Z (Z.of_nat failed))%Q.
Proof. intros failed runs k Hr Hk. unfold wordErrRate. destruct (Nat.eqb_spec runs 0); [lia|]. destruct (Nat.eqb_spec k 0); [lia|]. eexists. split; [reflexivity|].
  rewrite Nat2Z.inj_mul, inject_Z_mult. field. split; intros E; unfold Qeq in E; cbn in E; lia. Qed.
Print Assumptions C61_rate_value.
(** a run that counts as a success has the right syndrome *)
Theorem C61_success_syndrome : forall n hx hz error est, code2 n hx hz -> orthogonal hx hz -> length error = n -> length est = n ->
  span n hz (vxor error est) -> mulMV hx est = mulMV hx error.
Proof. intros n hx hz error est C2 O Le Ls S. pose proof C2 as (W1 & W2 & _).
  assert (K : mulMV hx (vxor error est) = vzero (length hx)).
  { apply in_kernel_mulMV with (n := n); [now apply vxor_length'|]. split; [now apply vxor_length'|]. intros r Hr. apply (dot_span_zero n hz r W2); auto. }
  rewrite (mulMV_vxor hx n) in K by auto. symmetry. apply (vxor_eq_zero (length hx)); auto; unfold mulMV; now rewrite map_length. Qed.
Print Assumptions C61_success_syndrome.

(** *** the two decoders the driver can be started with *)
Lemma supp_len n l : length (supp_vec n l) = n.
Proof. unfold supp_vec. now rewrite map_length, seq_length. Qed.
Lemma mulMV_len (H : mat) (e : vec) : length (mulMV H e) = length H.
Proof. unfold mulMV. now rewrite map_length. Qed.
Lemma dot_true_row : forall r v : vec, dot r v = true -> exists i, nth i r false = true.
Proof. induction r as [|a r IH]; intros [|b v] E; cbn in E; try discriminate. destruct a; [exists 0; auto|]. cbn in E. destruct (IH v) as (i & Hi); [destruct (dot r v); auto|]. exists (S i). auto. Qed.
Lemma flagged_row (H : mat) (e : vec) c : nth c (mulMV H e) false = true -> exists i, nth i (nth c H []) false = true.
Proof. unfold mulMV. intros E. destruct (Nat.lt_ge_cases c (length H)) as [L|L].
  - rewrite (nth_indep _ false ((fun r => dot r e) [])) in E by (rewrite map_length; auto). rewrite (map_nth (fun r => dot r e)) in E. eapply dot_true_row; eauto.
  - rewrite nth_overflow in E by (rewrite map_length; auto). discriminate. Qed.
Definition permuting (ch : choices) : Prop :=
  (forall k l, Permutation l (ch_C ch k l)) /\ (forall k l, Permutation l (ch_B ch k l)) /\ (forall l, Permutation l (ch_E ch l)).
Lemma decodeWith_ok t n hx hz fuel r error : code2 n hx hz -> length error = n -> n + length hx <= fuel ->
  match t with UfDecoder => connected n hx | UfHeuristic => permuting (d_c1 r) end ->
  exists idx est, decodeWith t fuel r (codeXZ hz hx) (mulMV hx error) = Finished (idx, est) /\ length est = n.
Proof. intros C2 Le Hf Ht. pose proof C2 as (W1 & W2 & N1 & N2 & Hn).
  assert (En : c_n (codeXZ hz hx) = n) by (apply (codeXZ_n n hz hx); apply C2s; auto).
  assert (ELT : (length (c_hZ (codeXZ hz hx)) <? length (mulMV hx error)) = false) by (rewrite mulMV_len; apply Nat.ltb_irrefl).
  destruct t; cbn [decodeWith]; [unfold ufhDecode|unfold ufDecode]; rewrite ELT, En; cbn [codeXZ c_hZ].
  - destruct Ht as (P1 & P2 & P3). destruct (C32_decode_returns n hx AllComponents (d_c1 r) fuel (mulMV hx error) W1 N1 Hn P1 P2 P3) as (f & l & -> & _); [discriminate|apply mulMV_len|auto|apply flagged_row|].
    exists l, (supp_vec n l). split; [reflexivity|apply supp_len].
  - destruct (decode_connected n hx W1 N1 Hn (mulMV hx error) error Le eq_refl (d_r1 r) fuel Ht Hf) as (l & -> & _). exists l, (supp_vec n l). split; [reflexivity|apply supp_len]. Qed.

(** started with either decoder on a two-sided code, the simulation completes (whatever is drawn): UFHeuristic always, UFDecoder
    if the Tanner graph of the simulated side is connected; and every counted success restores the syndrome *)
Theorem C61_decoders_complete : forall t n hx hz show showH dump draw errs minPer maxPer step runs k fuel fuel' N,
  code2 n hx hz -> orthogonal hx hz -> visits minPer maxPer step N -> N <= fuel -> n + length hx <= fuel' ->
  (forall i j, i < N -> j < runs -> length (errs i j) = n) ->
  match t with UfDecoder => connected n hx | UfHeuristic => forall i j, permuting (d_c1 (draw i j)) end ->
  exists tbl txt (failed : nat -> nat -> bool),
    simulateWER fuel show showH dump (fun i j => decodeWith t fuel' (draw i j)) errs minPer maxPer runs (codeXZ hx hz) k step = Finished (tbl, txt) /\
    (forall key, In key (map fst tbl) <-> exists i, i < N /\ key = show (rateAt minPer step i)) /\
    (forall i, i < N -> (forall i', i' < i -> show (rateAt minPer step i') <> show (rateAt minPer step i)) ->
       lookup (show (rateAt minPer step i)) tbl = Some (wordErrRate (countFailed (failed i) runs) runs k)) /\
    (forall i j, i < N -> j < runs -> exists idx est, decodeWith t fuel' (draw i j) (codeXZ hz hx) (mulMV hx (errs i j)) = Finished (idx, est) /\
       (failed i j = true <-> ~ span n hz (vxor (errs i j) est)) /\ (failed i j = false -> mulMV hx est = mulMV hx (errs i j))).
Proof. intros t n hx hz show showH dump draw errs minPer maxPer step runs k fuel fuel' N C2 O V Hf Hf' HL Ht.
  assert (HA : forall i j, i < N -> j < runs -> exists idx est, decodeWith t fuel' (draw i j) (codeXZ hz hx) (mulMV hx (errs i j)) = Finished (idx, est) /\ length est = n).
  { intros i j Hi Hj. apply decodeWith_ok; auto. destruct t; auto. }
  destruct (C61_word_error_rates n hx hz show showH dump (fun i j => decodeWith t fuel' (draw i j)) errs minPer maxPer step runs k fuel N C2 V Hf) as (tbl & txt & failed & E & K1 & K2 & K3).
  { intros i j Hi Hj. split; [apply HL; auto|]. apply HA; auto. }
  exists tbl, txt, failed. split; [exact E|]. split; [exact K1|]. split; [exact K2|]. intros i j Hi Hj. destruct (HA i j Hi Hj) as (idx & est & Ed & Ls). exists idx, est. split; [exact Ed|].
  pose proof (K3 i j idx est Hi Hj Ed) as K. split; [exact K|]. intros F. apply (C61_success_syndrome n hx hz); auto. apply (in_spanb_spec n hz); [destruct C2 as (_ & ? & _); auto|apply vxor_length'; auto|].
  destruct (in_spanb n hz (vxor (errs i j) est)) eqn:EB; auto. exfalso. assert (failed i j = true); [|congruence]. apply K. rewrite <- (in_spanb_spec n hz); [congruence|destruct C2 as (_ & ? & _); auto|apply vxor_length'; auto]. Qed.
Print Assumptions C61_decoders_complete.

(** *** what the driver does not deliver *)
(** no constructor of Code sets k, so for every code as constructed no entry is a number *)
Lemma werLoop_vals show dump dec errs maxPer step nruns c : forall fuel i p m txt m' txt', (forall kv, In kv m -> forall q, snd kv <> RFin q) ->
  werLoop fuel show dump dec errs maxPer step nruns c 0 i p m txt = Finished (m', txt') -> forall kv, In kv m' -> forall q, snd kv <> RFin q.
Proof. induction fuel as [|fuel IH]; intros i p m txt m' txt' Hm E; cbn [werLoop] in E.
  - destruct (negb _); [discriminate|]. injection E as <- <-. exact Hm.
  - destruct (negb _); [|injection E as <- <-; exact Hm]. destruct (werRuns _ _ _ _ _ _ _) as [[f t]| |]; try discriminate. eapply IH; [|exact E].
    unfold tryEmplace. destruct (existsb _ m); auto. intros kv Hk. apply in_app_or in Hk as [|[<-|[]]]; auto. intros q. cbn [snd]. unfold wordErrRate. destruct (nruns =? 0); [discriminate|]. cbn. destruct (f =? 0); discriminate. Qed.
Theorem C61_default_k_refuted : forall fuel show showH dump dec errs minPer maxPer nruns c step tbl txt,
  simulateWER fuel show showH dump dec errs minPer maxPer nruns c constructedK step = Finished (tbl, txt) -> forall key v, In (key, v) tbl -> v = RInf \/ v = RNaN.
Proof. intros fuel show showH dump dec errs minPer maxPer nruns c step tbl txt E key v Hv. unfold simulateWER in E. destruct (werLoop _ _ _ _ _ _ _ _ _ _ _ _ _ _) as [[m t]| |] eqn:EL; try discriminate. injection E as <- <-.
  assert (K : forall q, snd (key, v) <> RFin q) by (eapply werLoop_vals; [|exact EL|exact Hv]; intros ? []). cbn [snd] in K. destruct v as [q| |]; auto. now elim (K q). Qed.
Print Assumptions C61_default_k_refuted.

(** a one-sided code never gets a table: the first run that is decoded ends in an exception *)
Theorem C61_one_sided_raises : forall n hz show showH dump dec errs minPer maxPer runs k step fuel idx est, wf n hz -> hz <> [] -> 0 < n ->
  (minPer < maxPer)%Q -> 0 < runs -> 0 < fuel -> length (errs 0 0) = n ->
  (dec 0 0 (codeZ hz) (mulMV hz (errs 0 0)) = Finished (idx, est) -> length est = n ->
   simulateWER fuel show showH dump dec errs minPer maxPer runs (codeZ hz) k step = Threw QeccException) /\
  forall r, simulateWER fuel show showH dump dec errs minPer maxPer runs (codeZ hz) k step <> Finished r.
Proof. intros n hz show showH dump dec errs minPer maxPer runs k step fuel idx est W Ne Hn Hlt Hr Hf Le.
  unfold simulateWER. destruct fuel as [|fuel]; [lia|]. cbn [werLoop]. rewrite (proj2 (Qle_bool_lt minPer maxPer)) by auto. destruct runs as [|runs]; [lia|]. cbn [werRuns]. unfold werRun.
  change (decoderSetCode (codeZ hz)) with (codeZ hz). assert (EN : c_n (codeZ hz) = n) by (cbn; now apply wf_hd).
  assert (ES : getXSyndrome (codeZ hz) (errs 0 0) = Ok (mulMV hz (errs 0 0))).
  { unfold getXSyndrome. rewrite EN. replace (vectorPresent (errs 0 0)) with true by (destruct (errs 0 0); cbn in *; auto; lia). cbn [negb].
    rewrite Le, Nat.ltb_irrefl. cbn [codeZ c_hZ]. now apply (syndromeOf_ok n). }
  rewrite ES. split.
  - intros Ed Ls. rewrite Ed. destruct (residual_prop n (errs 0 0) est Le Ls) as [-> _]. reflexivity.
  - intros r. destruct (dec 0 0 (codeZ hz) (mulMV hz (errs 0 0))) as [[i e]|x|]; try discriminate. destruct (computeResidualErr (errs 0 0) e) as [v|x]; cbn; discriminate. Qed.
Print Assumptions C61_one_sided_raises.

(** the rates are keys of the table by their first six decimals: rates that agree there share one entry, that of the first *)
Definition six (p : Q) : Z := Qfloor (p * inject_Z 1000000 + (1 # 2)).
Theorem C61_labels_refuted : forall show showH dump dec errs k, (forall p q, six p = six q -> show p = show q) ->
  (forall i j, exists idx est, dec i j (codeXZ [bb [1;1]] [bb [1;1]]) (mulMV [bb [1;1]] (errs i j)) = Finished (idx, est) /\ length est = 2 /\ length (errs i j) = 2) ->
  visits 0 (2 # 10000000) (1 # 10000000) 2 /\
  exists r txt, simulateWER 2 show showH dump dec errs 0 (2 # 10000000) 1 (codeXZ [bb [1;1]] [bb [1;1]]) k (1 # 10000000) = Finished ([(show 0%Q, r)], txt).
Proof. intros show showH dump dec errs k Hs HA.
  assert (V : visits 0 (2 # 10000000) (1 # 10000000) 2). { split; [|vm_compute; discriminate]. intros [|[|]] H; [vm_compute; reflexivity..|lia]. }
  split; [exact V|]. assert (C2 : code2 2 [bb [1;1]] [bb [1;1]]) by (repeat split; [repeat constructor..|discriminate|discriminate|lia]).
  assert (R : forall i, exists f t, werRuns dump (dec i) (errs i) (codeXZ [bb [1;1]] [bb [1;1]]) 1 0 1 = Finished (f, t)).
  { intros i. destruct (werRuns_ok 2 _ _ C2 dump (dec i) (errs i) 1 1 0) as (f & t & E & _); [|eauto]. intros j _. destruct (HA i j) as (idx & est & ? & ? & ?). split; eauto. }
  destruct (R 0) as (f0 & t0 & E0). destruct (R 1) as (f1 & t1 & E1).
  unfold simulateWER. cbn [werLoop]. rewrite E0, E1. replace (show (0 + (1 # 10000000))%Q) with (show 0%Q) by (apply Hs; vm_compute; reflexivity).
  unfold tryEmplace at 2. cbn [existsb app]. unfold tryEmplace. cbn [existsb fst]. rewrite String.eqb_refl. cbn [orb]. change (negb (Qle_bool (2 # 10000000) 0)) with true.
  change (negb (Qle_bool (2 # 10000000) (0 + (1 # 10000000)))) with true. change (negb (Qle_bool (2 # 10000000) (0 + (1 # 10000000) + (1 # 10000000)))) with false. eauto. Qed.
Print Assumptions C61_labels_refuted.

(** the statistics file is never a JSON document: four brackets stay open *)
Fixpoint count (f : ascii -> bool) (s : string) : nat := match s with EmptyString => 0 | String a s' => (if f a then 1 else 0) + count f s' end.
Definition opening (a : ascii) : bool := Ascii.eqb a "{" || Ascii.eqb a "[".
Definition closing (a : ascii) : bool := Ascii.eqb a "}" || Ascii.eqb a "]".
Lemma count_app f a b : count f (a ++ b)%string = count f a + count f b.
Proof. induction a; cbn; auto. rewrite IHa. lia. Qed.
Section Stats.
  Variables (show showH : Q -> string) (dump : info -> string).
  Hypothesis HS : forall p, count opening (showH p) = count closing (showH p).
  Hypothesis HD : forall i, count opening (dump i) = count closing (dump i).
  Lemma werRuns_txt dec errs c nruns : forall todo j f t, werRuns dump dec errs c nruns j todo = Finished (f, t) -> count opening t = count closing t.
  Proof. induction todo as [|todo IH]; intros j f t E; cbn [werRuns] in E; [injection E as <- <-; reflexivity|].
    destruct (werRun _ _ _) as [inf| |]; try discriminate. destruct (werRuns dump dec errs c nruns (S j) todo) as [[f' t']| |] eqn:E'; try discriminate. injection E as <- <-. apply IH in E'.
    rewrite !count_app, HD, E'. destruct (j =? nruns - 1); reflexivity. Qed.
  Lemma werLoop_txt dec errs maxPer step nruns c k d : forall fuel i p m txt m' txt', count opening txt = d + count closing txt ->
    werLoop fuel show dump dec errs maxPer step nruns c k i p m txt = Finished (m', txt') -> count opening txt' = d + count closing txt'.
  Proof. induction fuel as [|fuel IH]; intros i p m txt m' txt' H E; cbn [werLoop] in E; (destruct (negb _); [|injection E as <- <-; exact H]); [discriminate|].
    destruct (werRuns _ _ _ _ _ _ _) as [[f t]| |] eqn:ER; try discriminate. eapply IH; [|exact E]. apply werRuns_txt in ER. rewrite !count_app, ER. lia. Qed.
  Theorem C61_stats_brackets_refuted : forall fuel dec errs minPer maxPer nruns c k step tbl txt,
    simulateWER fuel show showH dump dec errs minPer maxPer nruns c k step = Finished (tbl, txt) -> count opening txt = 4 + count closing txt.
  Proof. intros fuel dec errs minPer maxPer nruns c k step tbl txt E. unfold simulateWER in E. destruct (werLoop _ _ _ _ _ _ _ _ _ _ _ _ _ _) as [[m t]| |] eqn:EL; try discriminate. injection E as <- <-.
    apply (werLoop_txt _ _ _ _ _ _ _ 5) in EL; [rewrite count_app, EL, count_app; cbn; lia|]. unfold statsHeader. rewrite !count_app, HS. cbn. lia. Qed.
End Stats.
Print Assumptions C61_stats_brackets_refuted.

(** *** a concrete simulation: the Steane code, two rates, three runs each, both decoders *)
Definition ones (l : list nat) : vec := supp_vec 7 l.
Definition demoErrs (i j : nat) : vec := nth (3 * i + j) [ones []; ones [2]; ones [4]; ones [0;1]; ones [3]; ones [0;1;2;3;4;5;6]] (ones []).
Definition demoShow (p : Q) : string := if Qeq_bool p (1 # 10) then "0.100000" else "0.200000".
Example C61_nonvacuous : code2 7 hamming7 hamming7 /\ orthogonal hamming7 hamming7 /\ visits (1 # 10) (3 # 10) (1 # 10) 2 /\ permuting idch /\
  exists txt, simulateWER 2 demoShow demoShow (fun _ => EmptyString) (fun i j => decodeWith UfHeuristic 10 (mkDraws zr zr idch idch)) demoErrs (1 # 10) (3 # 10) 3 (codeXZ hamming7 hamming7) 1 (1 # 10)
  = Finished ([("0.100000"%string, wordErrRate 2 3 1); ("0.200000"%string, wordErrRate 1 3 1)], txt).
Proof. split; [repeat split; try (repeat constructor; fail); try discriminate; try lia|]. split; [|split; [|split]].
  - intros a b Ha Hb. unfold hamming7 in *. cbn [In] in Ha, Hb. intuition subst; reflexivity.
  - split; [|vm_compute; discriminate]. intros [|[|]] H; [vm_compute; reflexivity..|lia].
  - repeat split; intros; apply Permutation_refl.
  - eexists. vm_compute. reflexivity. Qed.

(** ** C62 *)
(** what the decodings of one run take together *)
Definition total (time : nat -> nat) (nsamples : nat) : nat := list_sum (map time (seq 0 nsamples)).
Definition total_runs (time : nat -> nat -> nat) (nsamples j : nat) : nat := list_sum (map (fun j' => total (time j') nsamples) (seq 0 j)).
(** every sample of code p is decoded *)
Definition decoded (dec : nat -> nat -> code -> vec -> run (list nat * vec)) (errs : nat -> nat -> vec) (hz : mat) (nruns nsamples : nat) : Prop :=
  exists n, wf n hz /\ hz <> [] /\ 0 < n /\ forall j i, j < nruns -> i < nsamples -> length (errs j i) = n /\ exists r, dec j i (codeZ hz) (mulMV hz (errs j i)) = Finished r.

Lemma xsyn_codeZ n hz e : wf n hz -> hz <> [] -> 0 < n -> length e = n -> getXSyndrome (codeZ hz) e = Ok (mulMV hz e).
Proof. intros W Ne Hn Le. unfold getXSyndrome. replace (c_n (codeZ hz)) with n by (symmetry; cbn; now apply wf_hd).
  replace (vectorPresent e) with true by (destruct e; cbn in *; auto; lia). cbn [negb]. rewrite Le, Nat.ltb_irrefl. cbn [codeZ c_hZ]. now apply (syndromeOf_ok n). Qed.
Lemma avgSamples_ok n hz dec errs time : wf n hz -> hz <> [] -> 0 < n -> forall todo i acc,
  (forall x, i <= x < i + todo -> length (errs x) = n /\ exists r, dec x (codeZ hz) (mulMV hz (errs x)) = Finished r) ->
  avgSamples dec errs time (codeZ hz) i todo acc = Finished (acc + list_sum (map time (seq i todo))).
Proof. intros W Ne Hn. induction todo as [|todo IH]; intros i acc H; cbn [avgSamples seq map list_sum fold_right]; [now rewrite Nat.add_0_r|].
  unfold avgSample. destruct (H i ltac:(lia)) as (Le & r & Ed). rewrite (xsyn_codeZ n) by auto. change (decoderSetCode (codeZ hz)) with (codeZ hz). rewrite Ed.
  rewrite IH by (intros; apply H; lia). f_equal. fold (list_sum (map time (seq (S i) todo))). unfold list_sum. lia. Qed.
Lemma total_runs_S time ns j : total_runs time ns (S j) = total_runs time ns j + total (time j) ns.
Proof. unfold total_runs. rewrite seq_S, map_app, list_sum_app. cbn. lia. Qed.
Lemma avgRuns_ok hz dec errs time ns : 0 < ns -> forall todo j tbl, decoded dec errs hz (j + todo) ns ->
  avgRuns dec errs time (codeZ hz) ns j todo (total_runs time ns j) tbl = Some (Finished (tbl ++ map (fun x => (x, total_runs time ns (S x) / ns)) (seq j todo))).
Proof. intros Hns. induction todo as [|todo IH]; intros j tbl (n & W & Ne & Hn & H); cbn [avgRuns seq map]; [now rewrite app_nil_r|].
  rewrite (avgSamples_ok n hz (dec j) (errs j) (time j) W Ne Hn) by (intros x Hx; apply H; lia). destruct (Nat.eqb_spec ns 0); [lia|].
  fold (total (time j) ns). rewrite <- total_runs_S, IH; [now rewrite <- app_assoc|]. exists n. repeat split; auto; intros; apply H; lia. Qed.

(** what the raw-data file contains: for every code, under the number of every run, the time of all runs up to this one divided
    by the samples of one run *)
Lemma avgCodes_ok dec errs time nruns ns : 0 < ns \/ nruns = 0 -> forall pre p post tbl, NoDup (map fst tbl ++ map fst pre) ->
  (forall q path hz, nth_error pre q = Some (path, hz) -> decoded (dec (p + q)) (errs (p + q)) hz nruns ns) ->
  avgCodes dec errs time nruns ns p (map (fun f => (fst f, Ok (codeZ (snd f)))) pre ++ post) tbl =
  avgCodes dec errs time nruns ns (p + length pre) post (tbl ++ map (fun qf => (fst (snd qf), map (fun x => (x, total_runs (time (fst qf)) ns (S x) / ns)) (seq 0 nruns))) (combine (seq p (length pre)) pre)).
Proof. intros Hns. induction pre as [|[path hz] pre IH]; intros p post tbl ND H; cbn [map app length combine seq]; [now rewrite app_nil_r, Nat.add_0_r|].
  cbn [avgCodes fst snd]. assert (ER : avgRuns (dec p) (errs p) (time p) (codeZ hz) ns 0 nruns 0 [] = Some (Finished (map (fun x => (x, total_runs (time p) ns (S x) / ns)) (seq 0 nruns)))).
  { destruct Hns as [Hns| ->]; [|reflexivity]. apply (avgRuns_ok hz (dec p) (errs p) (time p) ns Hns nruns 0 []). specialize (H 0 path hz eq_refl). now rewrite Nat.add_0_r in H. }
  rewrite ER. assert (EX : existsb (fun kv => String.eqb path (fst kv)) tbl = false).
  { apply not_true_iff_false. intros K. apply existsb_exists in K as (kv & Hk & Ek). apply String.eqb_eq in Ek. subst path. cbn [map fst] in ND. apply NoDup_remove_2 in ND. apply ND, in_or_app. left. now apply in_map. }
  unfold tryEmplace. rewrite EX. rewrite IH.
  - rewrite <- app_assoc. cbn [app]. f_equal. lia.
  - rewrite map_app. cbn [map fst]. rewrite <- app_assoc. exact ND.
  - intros q path' hz' Hq. rewrite Nat.add_succ_comm. apply (H (S q) path' hz' Hq). Qed.
Theorem C62_runtime_table : forall dec errs time nruns ns files, 0 < ns -> NoDup (map fst files) ->
  (forall p path hz, nth_error files p = Some (path, hz) -> decoded (dec p) (errs p) hz nruns ns) ->
  exists tbl, simulateAverageRuntime dec errs time nruns ns (map (fun f => (fst f, Ok (codeZ (snd f)))) files) = Written tbl /\ map fst tbl = map fst files /\
    forall p path hz, nth_error files p = Some (path, hz) -> nth_error tbl p = Some (path, map (fun j => (j, total_runs (time p) ns (S j) / ns)) (seq 0 nruns)).
Proof. intros dec errs time nruns ns files Hns ND H. unfold simulateAverageRuntime. eexists. split; [|split].
  - rewrite <- (app_nil_r (map _ files)). rewrite (avgCodes_ok dec errs time nruns ns (or_introl Hns) files 0 [] []); [reflexivity|exact ND|exact H].
  - cbn [app]. rewrite map_map. cbn [fst]. generalize 0. clear. induction files as [|f files IH]; intros a; cbn [length seq combine map]; auto. f_equal. apply IH.
  - intros p path hz Hp. cbn [app]. rewrite nth_error_map. assert (E : nth_error (combine (seq 0 (length files)) files) p = Some (p, (path, hz))); [|now rewrite E].
    clear - Hp. change (p, (path, hz)) with (0 + p, (path, hz)). revert p Hp. generalize 0. induction files as [|f files IH]; intros a [|p] Hp; cbn [length seq combine nth_error] in *; try discriminate.
    + injection Hp as ->. now rewrite Nat.add_0_r. + rewrite <- Nat.add_succ_comm. apply IH; auto. Qed.
Print Assumptions C62_runtime_table.
(** with one run the entry is the average, rounded down *)
Theorem C62_single_run : forall dec errs time ns path hz, 0 < ns -> decoded (dec 0) (errs 0) hz 1 ns ->
  simulateAverageRuntime dec errs time 1 ns [(path, Ok (codeZ hz))] = Written [(path, [(0, total (time 0 0) ns / ns)])].
Proof. intros dec errs time ns path hz Hns H. destruct (C62_runtime_table dec errs time 1 ns [(path, hz)] Hns) as (tbl & E & L & K); [repeat constructor; intros []| |].
  - intros [|[|]] path' hz' Hp; cbn in Hp; try discriminate. now injection Hp as <- <-.
  - cbn [map fst snd] in E. rewrite E. specialize (K 0 path hz eq_refl).
    destruct tbl as [|e [|e' tbl]]; [discriminate| |discriminate]. cbn [nth_error] in K. injection K as ->. cbn [seq map]. rewrite total_runs_S. reflexivity. Qed.
Print Assumptions C62_single_run.
(** with several runs it is not: the time of the earlier runs is counted again, run j of decodings that all take T reports (j + 1) T *)
Theorem C62_average_refuted : forall dec errs T nruns ns path hz j, 0 < ns -> decoded (dec 0) (errs 0) hz nruns ns -> j < nruns ->
  exists t, simulateAverageRuntime dec errs (fun _ _ _ => T) nruns ns [(path, Ok (codeZ hz))] = Written [(path, t)] /\ nth_error t j = Some (j, (j + 1) * T).
Proof. intros dec errs T nruns ns path hz j Hns H Hj. destruct (C62_runtime_table dec errs (fun _ _ _ => T) nruns ns [(path, hz)] Hns) as (tbl & E & L & K); [repeat constructor; intros []| |].
  - intros [|[|]] path' hz' Hp; cbn in Hp; try discriminate. now injection Hp as <- <-.
  - cbn [map fst snd] in E. rewrite E. specialize (K 0 path hz eq_refl). destruct tbl as [|e [|e' tbl]]; [discriminate| |discriminate]. cbn [nth_error] in K. injection K as ->.
    eexists. split; [reflexivity|]. rewrite nth_error_map. replace (nth_error (seq 0 nruns) j) with (Some j).
    + cbn [option_map]. do 2 f_equal. assert (TT : total (fun _ => T) ns = ns * T). { unfold total. rewrite <- (seq_length ns 0) at 2. induction (seq 0 ns) as [|a l IH]; cbn; auto. }
      assert (TR : forall x, total_runs (fun _ _ => T) ns x = x * (ns * T)). { induction x as [|x IH]; [reflexivity|]. rewrite total_runs_S, IH, TT. lia. }
      rewrite TR. replace (S j * (ns * T)) with ((j + 1) * T * ns) by lia. apply Nat.div_mul. lia.
    + symmetry. rewrite (nth_error_nth' _ 0) by (now rewrite seq_length). now rewrite seq_nth. Qed.
Print Assumptions C62_average_refuted.
(** a file that is no code, or a decoding that throws, ends the work: the codes before it are in the file, the ones after it are not *)
Theorem C62_failure_truncates : forall dec errs time nruns ns pre path bad post, 0 < ns -> NoDup (map fst pre) ->
  (forall p path hz, nth_error pre p = Some (path, hz) -> decoded (dec p) (errs p) hz nruns ns) ->
  (forall c, bad = Ok c -> exists e, 0 < nruns /\ avgSample (dec (length pre) 0 0) c (errs (length pre) 0 0) = Threw e) ->
  simulateAverageRuntime dec errs time nruns ns (map (fun f => (fst f, Ok (codeZ (snd f)))) pre ++ (path, bad) :: post) =
  simulateAverageRuntime dec errs time nruns ns (map (fun f => (fst f, Ok (codeZ (snd f)))) pre).
Proof. intros dec errs time nruns ns pre path bad post Hns ND H HB. unfold simulateAverageRuntime.
  rewrite (avgCodes_ok dec errs time nruns ns (or_introl Hns) pre 0 ((path, bad) :: post) []) by auto.
  pose proof (avgCodes_ok dec errs time nruns ns (or_introl Hns) pre 0 [] [] ND H) as E0. rewrite app_nil_r in E0. rewrite E0.
  cbn [avgCodes]. destruct bad as [c|e]; [|reflexivity]. destruct (HB c eq_refl) as (e & Hr & E). destruct nruns as [|nruns]; [lia|]. destruct ns as [|ns]; [lia|]. cbn [avgRuns avgSamples]. rewrite Nat.add_0_l, E. reflexivity. Qed.
Print Assumptions C62_failure_truncates.
(** no samples: the first division kills the program *)
Theorem C62_no_samples_refuted : forall dec errs time nruns path c post, 0 < nruns -> simulateAverageRuntime dec errs time nruns 0 ((path, Ok c) :: post) = Killed.
Proof. intros dec errs time nruns path c post H. destruct nruns; [lia|]. reflexivity. Qed.
Print Assumptions C62_no_samples_refuted.
(** the decoders that can be chosen decode every sample of a one-sided code *)
Theorem C62_decoders_complete : forall t n hz draw errs fuel nruns ns, wf n hz -> hz <> [] -> 0 < n -> n + length hz <= fuel ->
  (forall j i, j < nruns -> i < ns -> length (errs j i) = n) ->
  match t with UfDecoder => connected n hz | UfHeuristic => forall j i, permuting (d_c1 (draw j i)) end ->
  decoded (fun j i => decodeWith t fuel (draw j i)) errs hz nruns ns.
Proof. intros t n hz draw errs fuel nruns ns W Ne Hn Hf HL Ht. exists n. split; [exact W|]. split; [exact Ne|]. split; [exact Hn|]. intros j i Hj Hi. split; [now apply HL|].
  assert (C2 : code2 n hz hz) by (repeat split; auto).
  destruct (decodeWith_ok t n hz hz fuel (draw j i) (errs j i) C2 (HL j i Hj Hi) Hf) as (idx & est & E & _); [destruct t; auto|].
  exists (idx, est). rewrite <- E. assert (En : c_n (codeZ hz) = c_n (codeXZ hz hz)) by reflexivity.
  assert (ELT : (length (c_hZ (codeZ hz)) <? length (mulMV hz (errs j i))) = false) by (rewrite mulMV_len; apply Nat.ltb_irrefl).
  destruct t; cbn [decodeWith]; [unfold ufhDecode|unfold ufDecode]; rewrite ELT; [|]; change (c_hZ (codeXZ hz hz)) with (c_hZ (codeZ hz)); rewrite ELT; reflexivity. Qed.
Print Assumptions C62_decoders_complete.
Example C62_nonvacuous : decoded (fun j i => decodeWith UfHeuristic 10 (mkDraws zr zr idch idch)) demoErrs hamming7 2 3 /\
  simulateAverageRuntime (fun _ j i => decodeWith UfHeuristic 10 (mkDraws zr zr idch idch)) (fun _ => demoErrs) (fun _ j i => 10 + j + i) 2 3 [("a"%string, Ok (codeZ hamming7)); ("b"%string, Err QeccException)]
  = Written [("a"%string, [(0, 11); (1, 23)])].
Proof. split; [|vm_compute; reflexivity]. apply (C62_decoders_complete UfHeuristic 7); [repeat constructor|discriminate|lia|cbn; lia| |].
  - intros j i Hj Hi. unfold demoErrs. destruct j as [|[|]]; [| |lia]; (destruct i as [|[|[|]]]; [reflexivity..|lia]).
  - repeat split; intros; apply Permutation_refl. Qed.
