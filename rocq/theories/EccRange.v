(** * EccRange: the mapped circuit stays in its register (C47) *)
From Verif Require Export EccStruct.
Local Open Scope nat_scope.

(** ** Specification *)
(** all qubits of the operation are below [N] and pairwise distinct *)
Definition opIn (N : nat) (o : op) : Prop :=
  match o with
  | Gate _ ctl t => t < N /\ Forall (fun p => fst p < N /\ fst p <> t) ctl
  | Swap a b => a < N /\ b < N /\ a <> b
  | Reset q | Meas q _ => q < N
  | If _ t _ _ _ => t < N
  end.
(** the operation of the input circuit uses qubits below [n] and no qubit as control and target *)
Definition iopIn (n : nat) (g : iop) : Prop :=
  match g with
  | IGate _ ctl ts => Forall (fun t => t < n /\ Forall (fun p => fst p < n /\ fst p <> t) ctl) ts
  | IMeas qs _ => Forall (fun q => q < n) qs
  | _ => True
  end.
(** also the bits that are measured into have numbers below [n] *)
Definition bitsIn (n : nat) (g : iop) : Prop := match g with IMeas _ cs => Forall (fun c => c < n) cs | _ => True end.

(** ** Proofs *)
Section Blocks.
Variables (N : nat) (d a : nat -> nat) (nd na : nat).
Hypothesis Hd : forall j, j < nd -> d j < N.
Hypothesis Ha : forall j, j < na -> a j < N.
Hypothesis Di : forall j j', j < nd -> j' < nd -> j <> j' -> d j <> d j'.
Hypothesis Da : forall j j', j < nd -> j' < na -> d j <> a j'.
Ltac one := cbn [opIn fst snd cx cz h_ x_ z_ mcx]; repeat split; repeat (apply Forall_cons; [split|]); try apply Forall_nil; cbn [fst snd];
  try (apply Hd; lia); try (apply Ha; lia); try (apply Di; lia); try (apply Da; lia); try (apply not_eq_sym; apply Da; lia).
Ltac blk := repeat (apply Forall_cons; [one|]); try apply Forall_nil.
Lemma in_q3enc : nd = 3 -> Forall (opIn N) (q3encBlock d). Proof. intros ->. unfold q3encBlock. blk. Qed.
Lemma in_q3 cl : nd = 3 -> na = 2 -> Forall (opIn N) (q3Block d a cl). Proof. intros -> ->. unfold q3Block. blk. Qed.
Lemma in_q3dec : nd = 3 -> Forall (opIn N) (q3decBlock d). Proof. intros ->. unfold q3decBlock. blk. Qed.
Lemma in_s9enc : nd = 9 -> Forall (opIn N) (s9encBlock d). Proof. intros ->. unfold s9encBlock. cbn [flat_map app Nat.mul Nat.add]. blk. Qed.
Lemma in_s9 cl : nd = 9 -> na = 8 -> Forall (opIn N) (s9Block d a cl). Proof. intros -> ->. unfold s9Block, s9prep. cbn [flat_map map app seq Nat.mul Nat.add]. blk. Qed.
Lemma in_s9dec : nd = 9 -> Forall (opIn N) (s9decBlock d). Proof. intros ->. unfold s9decBlock. cbn [flat_map app Nat.mul Nat.add]. blk. Qed.
Lemma in_l5 cl : nd = 5 -> na = 4 -> Forall (opIn N) (l5Block d a cl). Proof. intros -> ->. unfold l5Block, l5prep, l5at, l5stab. cbn [flat_map map app seq nth]. blk. Qed.
Lemma in_l5enc c cl : nd = 5 -> 0 < na -> c = a 0 -> Forall (opIn N) (l5encBlock d c cl). Proof. intros -> H ->. unfold l5encBlock. cbn [map app seq]. blk. Qed.
Lemma in_l5dec cl : nd = 5 -> Forall (opIn N) (l5decBlock d cl). Proof. intros ->. unfold l5decBlock. cbn [map app seq]. blk. Qed.
Lemma in_s7 x r cl : nd = 7 -> na = 3 -> Forall (opIn N) (s7Block x r d a cl).
Proof. intros -> ->. unfold s7Block, s7prep. change s7checks with [(0, 0); (0, 2); (0, 4); (0, 6); (1, 1); (1, 2); (1, 5); (1, 6); (2, 3); (2, 4); (2, 5); (2, 6)]. destruct x, r; cbn [flat_map map app seq fst snd]; blk. Qed.
Lemma in_s7dec cl : nd = 7 -> Forall (opIn N) (s7decBlock d cl). Proof. intros ->. unfold s7decBlock. cbn [map app]. blk. Qed.
Lemma in_s7T g : nd = 7 -> Forall (opIn N) (s7T g d). Proof. intros ->. unfold s7T. blk. Qed.
Lemma in_f9 r cl : nd = 9 -> na = 8 -> Forall (opIn N) (f9Block r d a cl).
Proof. intros -> ->. unfold f9Block, f9prep. destruct r; cbn [flat_map map app seq fst snd pairs f9X f9Z f9Xanc f9Zanc nth length filter existsb Nat.eqb negb orb]; blk. Qed.
Lemma in_f9dec i : nd = 9 -> Forall (opIn N) (f9decBlock d i). Proof. intros ->. unfold f9decBlock. blk. Qed.
Lemma in_g18 r cl : nd = 36 -> Forall (opIn N) (g18Block r d cl).
Proof. intros ->. unfold g18Block. destruct r; cbn [flat_map map app seq fst snd g18pairs g18X g18anc g18checks nth]; blk. Qed.
Lemma in_g18dec i : nd = 36 -> Forall (opIn N) (g18decBlock d i). Proof. intros ->. unfold g18decBlock. cbn [map app]. blk. Qed.
Lemma in_f9gate g : nd = 9 -> Forall (opIn N) (surfGate (seq 0 9) f9LX f9LZ f9swaps g d). Proof. intros ->. destruct g; cbn [surfGate map app seq f9LX f9LZ f9swaps fst snd]; blk. Qed.
Lemma in_g18gate g : nd = 36 -> Forall (opIn N) (surfGate g18data g18LX g18LZ g18swaps g d). Proof. intros ->. destruct g; cbn [surfGate map app g18data g18LX g18LZ g18swaps fst snd]; blk. Qed.
End Blocks.
Lemma pos_inj n i i' j j' : i < n -> i' < n -> i + j * n = i' + j' * n -> i = i' /\ j = j'.
Proof.
  intros Hi Hi' E. assert (Ej : j = j').
  { replace j with ((i + j * n) / n) by (rewrite Nat.div_add by lia; rewrite Nat.div_small; lia). rewrite E. rewrite Nat.div_add by lia. rewrite Nat.div_small; lia. }
  subst. split; lia.
Qed.
Lemma pos_lt n nd i j : i < n -> j < nd -> i + j * n < n * nd.
Proof. intros Hi Hj. assert (j * n <= (nd - 1) * n) by (apply Nat.mul_le_mono_r; lia). nia. Qed.
Section Range.
Variables (n nd na : nat).
Notation N := (n * nd + na).
Lemma d_lt i j : i < n -> j < nd -> i + j * n < N. Proof. intros Hi Hj. pose proof (pos_lt n nd i j Hi Hj). lia. Qed.
Lemma a_lt j : j < na -> n * nd + j < N. Proof. lia. Qed.
Lemma d_ne i j j' : i < n -> j <> j' -> i + j * n <> i + j' * n. Proof. intros Hi Hn E. apply pos_inj in E; auto. tauto. Qed.
Lemma da_ne i j j' : i < n -> j < nd -> i + j * n <> n * nd + j'. Proof. intros Hi Hj. pose proof (pos_lt n nd i j Hi Hj). lia. Qed.
Lemma loop_in (f : nat -> list op) : (forall i, i < n -> Forall (opIn N) (f i)) -> Forall (opIn N) (loop n f).
Proof. intros H. unfold loop. apply Forall_flat_map. apply Forall_forall. intros i Hi. apply in_seq in Hi. apply H. lia. Qed.
Lemma meas_in qs cs : Forall (fun q => q < n) qs -> 0 < nd -> Forall (opIn N) (measAll qs cs).
Proof.
  intros H Hnd. unfold measAll. apply Forall_map. apply Forall_forall. intros [q c] Hq. apply in_combine_l in Hq. rewrite Forall_forall in H. specialize (H q Hq). cbn [opIn fst]. nia.
Qed.
Lemma ctl_in j t ctl : j < nd -> t < n -> Forall (fun p => fst p < n /\ fst p <> t) ctl -> Forall (fun p => fst p < N /\ fst p <> t + j * n) (shift n j ctl).
Proof.
  intros Hj Ht. unfold shift. rewrite Forall_map. intros H. refine (Forall_impl _ _ H). intros [c b] [H1 H2]. cbn [fst] in *. split; [now apply d_lt|]. intros E. apply pos_inj in E; tauto.
Qed.
Lemma trans_in k g ctl ts : k <= nd -> Forall (fun t => t < n /\ Forall (fun p => fst p < n /\ fst p <> t) ctl) ts -> Forall (opIn N) (transversal k n g ctl ts).
Proof.
  intros Hk H. unfold transversal. apply Forall_flat_map. refine (Forall_impl _ _ H). intros t [Ht Hc]. apply Forall_map. apply Forall_forall. intros j Hj. apply in_seq in Hj. cbn [opIn].
  split; [apply d_lt; lia|]. apply ctl_in; auto; lia.
Qed.
Lemma noctl (ctl : list (nat * bool)) ts : Forall (fun t => t < n /\ Forall (fun p => fst p < n /\ fst p <> t) ctl) ts -> Forall (fun t => t < n /\ Forall (fun p : nat * bool => fst p < n /\ fst p <> t) []) ts.
Proof. apply Forall_impl. intros t [Ht _]. split; [exact Ht|constructor]. Qed.
End Range.
Lemma app_in N a b : Forall (opIn N) a -> Forall (opIn N) b -> Forall (opIn N) (a ++ b). Proof. intros. apply Forall_app. now split. Qed.
Section Code.
Variables (e : ecc) (n ncb : nat).
Notation N := (getNOutputQubits e n).
Definition pieceIn (p : piece) : Prop := match pieceOf e n ncb p with Ok c => Forall (opIn N) c | _ => True end.
Lemma pieces_in ps c : (forall p, In p ps -> pieceIn p) -> piecesOf e n ncb ps = Ok c -> Forall (opIn N) c.
Proof.
  revert c. induction ps as [|p ps IHp]; intros c H E; [injection E as <-; constructor|]. cbn [piecesOf] in E. pose proof (H p (or_introl eq_refl)) as Hp. unfold pieceIn in Hp. destruct (pieceOf e n ncb p) as [c1|]; [|discriminate].
  cbn [bind] in E. destruct (piecesOf e n ncb ps) as [c2|]; [|discriminate]. injection E as <-. apply app_in; [exact Hp|]. apply IHp; [|reflexivity]. intros q Hq. apply H. now right.
Qed.
Lemma sched_gates freq gates : forall k d g, In (PGate g) (schedule freq k d gates) -> In g gates.
Proof.
  induction gates as [|h gates IHg]; intros k d g Hg; cbn [schedule] in Hg; [destruct d; cbn in Hg; intuition discriminate|].
  apply in_app_iff in Hg. destruct Hg as [Hg|Hg]; [destruct (isMeas h), d; cbn in Hg; intuition discriminate|]. apply in_app_iff in Hg. destruct Hg as [[Hg|[]]|Hg]; [injection Hg as <-; now left|].
  apply in_app_iff in Hg. destruct Hg as [Hg|Hg]; [destruct (_ && _); cbn in Hg; intuition discriminate|]. right. exact (IHg _ _ _ Hg).
Qed.
Theorem apply_in freq gates circ : regular e n ncb -> apply e freq n ncb gates = Ok circ ->
  Forall (opIn N) (encodeOf e n ncb (mkFl true false)) -> pieceIn PEnc -> pieceIn PRound -> pieceIn PDec -> (forall g, In g gates -> pieceIn (PGate g)) -> Forall (opIn N) circ.
Proof.
  intros R E H0 H1 H2 H3 H4. rewrite (apply_ok e n ncb freq R) in E. destruct (piecesOf e n ncb (schedule freq 0 false gates)) as [c|] eqn:Ep; [|discriminate]. injection E as <-.
  apply app_in; [exact H0|]. refine (pieces_in _ _ _ Ep). intros [| | |g] Hp; auto. apply H4. exact (sched_gates _ _ _ _ _ Hp).
Qed.
End Code.
(** ** The codes *)
Definition codeIn (e : ecc) (n ncb : nat) : Prop :=
  Forall (opIn (getNOutputQubits e n)) (encodeOf e n ncb (mkFl true false)) /\ pieceIn e n ncb PEnc /\ pieceIn e n ncb PRound /\ pieceIn e n ncb PDec.
Ltac side := intros; first [apply d_lt; auto | apply a_lt; auto | apply d_ne; auto | apply da_ne; auto].
Lemma q3_in n ncb : codeIn q3Shor n ncb.
Proof.
  unfold codeIn, pieceIn, getNOutputQubits. cbn [pieceOf encodeOf roundOf decodeOf e_enc e_mc e_dec e_red e_cor q3Shor q3enc q3mc q3dec isDecoded gatesWritten negb orb snd]. unfold encodeOf, roundOf, decodeOf.
  cbn [e_enc e_mc e_dec e_red e_cor q3Shor q3enc q3mc q3dec isDecoded gatesWritten negb orb snd].
  split; [constructor|]. split; [|split]; apply loop_in; intros i Hi.
  - apply (in_q3enc _ _ (fun j => n * 3 + j) 3 2); auto; side.
  - apply (in_q3 _ _ _ 3 2); auto; side.
  - apply (in_q3dec _ _ (fun j => n * 3 + j) 3 2); auto; side.
Qed.
Lemma s9_in n ncb : codeIn q9Shor n ncb.
Proof.
  unfold codeIn, pieceIn, getNOutputQubits. cbn [pieceOf]. unfold encodeOf, roundOf, decodeOf. cbn [e_enc e_mc e_dec e_red e_cor q9Shor s9enc s9mc s9dec isDecoded gatesWritten snd].
  split; [|split; [|split]]; apply loop_in; intros i Hi.
  - apply (in_s9enc _ _ (fun j => n * 9 + j) 9 8); auto; side.
  - apply (in_s9enc _ _ (fun j => n * 9 + j) 9 8); auto; side.
  - rewrite (Nat.mul_comm 9 n). apply (in_s9 _ _ _ 9 8); auto; side.
  - apply (in_s9dec _ _ (fun j => n * 9 + j) 9 8); auto; side.
Qed.
Lemma l5_in n ncb : codeIn q5Laflamme n ncb.
Proof.
  unfold codeIn, pieceIn, getNOutputQubits. cbn [pieceOf]. unfold encodeOf, roundOf, decodeOf. cbn [e_enc e_mc e_dec e_red e_cor q5Laflamme l5enc l5mc l5dec isDecoded gatesWritten snd].
  assert (Hr : Forall (opIn (n * 5 + 4)) (loop n (fun i => l5Block (fun j => i + j * n) (fun j => n * 5 + j) ncb))) by (apply loop_in; intros i Hi; apply (in_l5 _ _ _ 5 4); auto; side).
  assert (He : Forall (opIn (n * 5 + 4)) (loop n (fun i => l5encBlock (fun j => i + j * n) (n * 5) (ncb + 4)))).
  { apply loop_in; intros i Hi. apply (in_l5enc _ _ (fun j => n * 5 + j) 5 4); auto; try side; lia. }
  assert (Hz : Forall (opIn (n * 5 + 4)) (loop n (fun _ => [Reset (n * 5)]))) by (apply loop_in; intros i Hi; repeat constructor; cbn [opIn]; lia).
  split; [|split; [|split]].
  - apply app_in; [exact Hr|]. apply app_in; assumption.
  - apply app_in; [exact Hr|]. apply app_in; assumption.
  - exact Hr.
  - apply loop_in; intros i Hi. apply (in_l5dec _ _ (fun j => n * 5 + j) 5 4); auto; side.
Qed.
Lemma s7_in n ncb : codeIn q7Steane n ncb.
Proof.
  unfold codeIn, pieceIn, getNOutputQubits. cbn [pieceOf]. unfold encodeOf, roundOf, decodeOf. cbn [e_enc e_mc e_dec e_red e_cor q7Steane s7enc s7mc s7dec isDecoded gatesWritten snd app].
  assert (Hs : forall x wr, Forall (opIn (n * 7 + 3)) (s7single x n ncb wr)) by (intros; apply loop_in; intros i Hi; apply (in_s7 _ _ _ 7 3); auto; side).
  split; [apply Hs|]. split; [|split].
  - apply app_in; [|apply Hs]. apply loop_in. intros i Hi. apply Forall_map. apply Forall_forall. intros j Hj. apply in_seq in Hj. cbn [opIn]. apply d_lt; lia.
  - apply app_in; apply Hs.
  - apply loop_in; intros i Hi. apply (in_s7dec _ _ (fun j => n * 7 + j) 7 3); auto; side.
Qed.
Lemma f9_in n ncb : codeIn q9Surface n ncb.
Proof.
  unfold codeIn, pieceIn, getNOutputQubits. cbn [pieceOf]. unfold encodeOf, roundOf, decodeOf. unfold q9Surface. cbn [e_enc e_mc e_dec e_red e_cor]. unfold f9enc, defaultEnc, f9mc, f9dec. cbn [isDecoded gatesWritten snd].
  split; [|split; [|split]]; apply loop_in; intros i Hi.
  - apply (in_f9 _ _ _ 9 8); auto; side.
  - apply (in_f9 _ _ _ 9 8); auto; side.
  - apply (in_f9 _ _ _ 9 8); auto; side.
  - apply (in_f9dec _ _ (fun j => n * 9 + j) 9 8); auto; side.
Qed.
Lemma g18_in n ncb : codeIn q18Surface n ncb.
Proof.
  unfold codeIn, pieceIn, getNOutputQubits. cbn [pieceOf]. unfold encodeOf, roundOf, decodeOf. unfold q18Surface. cbn [e_enc e_mc e_dec e_red e_cor]. unfold g18enc, defaultEnc, g18mc, g18dec. cbn [isDecoded gatesWritten snd].
  split; [|split; [|split]]; apply loop_in; intros i Hi.
  - apply (in_g18 _ _ (fun j => n * 36 + j) 36 0); auto; side.
  - apply (in_g18 _ _ (fun j => n * 36 + j) 36 0); auto; side.
  - apply (in_g18 _ _ (fun j => n * 36 + j) 36 0); auto; side.
  - apply (in_g18dec _ _ (fun j => n * 36 + j) 36 0); auto; side.
Qed.
Definition gateIn (e : ecc) (n ncb : nat) (g : iop) : Prop := pieceIn e n ncb (PGate g).
Ltac gat := unfold pieceIn, getNOutputQubits; cbn [pieceOf]; unfold gateOf.
Lemma mapMeas_in mc dc fl n nd na qs cs : isDecoded fl = true -> Forall (fun q => q < n) qs -> 0 < nd ->
  match (let* (_, c) := mapMeas mc dc fl qs cs in Ok c) with Ok c => Forall (opIn (n * nd + na)) c | Err _ => True end.
Proof. intros E H Hn. unfold mapMeas. rewrite E. cbn [bind app]. now apply meas_in. Qed.
Lemma q3_gate n ncb g : iopIn n g -> pieceIn q3Shor n ncb (PGate g).
Proof.
  intros Hg. gat. destruct g as [t ctl ts|qs cs| |]; cbn [isMeas]; try exact I; [|apply (mapMeas_in (q3mc n ncb) (q3dec n ncb)); auto; cbn; lia|constructor].
  destruct t; cbn; try exact I; apply (trans_in n 3 2 3); auto.
Qed.
Lemma s9gate_in na n g ctl ts : Forall (fun t => t < n /\ Forall (fun p => fst p < n /\ fst p <> t) ctl) ts -> Forall (opIn (n * 9 + na)) (s9gate n g ctl ts).
Proof.
  intros H. unfold s9gate. apply Forall_flat_map. refine (Forall_impl _ _ H). intros t [Ht Hc]. destruct ctl as [|c0 ctl].
  - apply Forall_map. apply Forall_forall. intros j Hj. apply in_seq in Hj. cbn [opIn]. split; [apply d_lt; lia|constructor].
  - apply Forall_flat_map. apply Forall_forall. intros j Hj. apply in_seq in Hj. assert (Hc' := ctl_in n 9 na j t (c0 :: ctl) ltac:(lia) Ht Hc).
    assert (Hh : Forall (opIn (n * 9 + na)) (map (fun p => h_ (fst p)) (shift n j (c0 :: ctl)))).
    { apply Forall_map. refine (Forall_impl _ _ Hc'). intros p [Hp _]. cbn [h_ opIn]. split; [exact Hp|constructor]. }
    apply app_in; [exact Hh|]. apply app_in; [|exact Hh]. constructor; [|constructor]. cbn [opIn]. split; [apply d_lt; lia|exact Hc'].
Qed.
Lemma s9_gate n ncb g : iopIn n g -> pieceIn q9Shor n ncb (PGate g).
Proof.
  intros Hg. gat. destruct g as [t ctl ts|qs cs| |]; cbn [isMeas]; try exact I; [|apply (mapMeas_in (s9mc n ncb) (s9dec n ncb)); auto; cbn; lia|constructor].
  destruct t; try exact I; cbn [e_map q9Shor s9map isDecoded andb bind app]; now apply (s9gate_in 8).
Qed.
Lemma l5_gate n ncb g : iopIn n g -> bitsIn n g -> pieceIn q5Laflamme n ncb (PGate g).
Proof.
  intros Hg Hb. gat. destruct g as [t ctl ts|qs cs| |]; cbn [isMeas]; try exact I; [|apply (mapMeas_in (l5mc n ncb) (l5dec n ncb)); auto; cbn; lia|constructor].
  assert (Ht : forall t', Forall (opIn (n * 5 + 4)) (transversal 5 n t' [] ts)) by (intros t'; apply trans_in; auto; exact (noctl n ctl ts Hg)).
  destruct t; try exact I; cbn [e_map q5Laflamme l5map isDecoded andb bind app e_red e_cor]; destruct ctl; try (destruct ts; try exact I); cbn [bind]; try apply Ht.
Qed.
Lemma s7S_in n g ctl ts : Forall (fun t => t < n /\ Forall (fun p => fst p < n /\ fst p <> t) ctl) ts -> Forall (opIn (n * 7 + 3)) (s7S n g ctl ts).
Proof.
  intros H. unfold s7S. apply Forall_flat_map. refine (Forall_impl _ _ H). intros t [Ht Hc]. apply Forall_flat_map. apply Forall_forall. intros j Hj. apply in_seq in Hj. apply Forall_forall. intros o Ho. apply repeat_spec in Ho. subst o.
  cbn [opIn]. split; [apply d_lt; lia|]. apply ctl_in; auto; lia.
Qed.
Lemma s7_gate n ncb g : iopIn n g -> bitsIn n g -> pieceIn q7Steane n ncb (PGate g).
Proof.
  intros Hg Hb. gat. destruct g as [t ctl ts|qs cs| |]; cbn [isMeas]; try exact I; [|apply (mapMeas_in (s7mc n ncb) (s7dec n ncb)); auto; cbn; lia|constructor].
  assert (HT : forall t', Forall (opIn (n * 7 + 3)) (flat_map (fun i => s7T t' (fun j => i + j * n)) ts)).
  { intros t'. apply Forall_flat_map. refine (Forall_impl _ _ Hg). intros i [Hi _]. apply (in_s7T _ _ (fun j => n * 7 + j) 7 3); auto; side. }
  destruct t; cbn [e_map q7Steane s7map isDecoded andb bind app e_red e_cor]; try (apply (trans_in n 7 3 7); auto; exact Hg); try (apply s7S_in; exact Hg);
    (destruct ctl; [|destruct ts; try exact I]; cbn [bind]; apply HT).
Qed.
Lemma surf_gate nd na enc mc dc data LX LZ swaps n ncb g : 0 < nd -> (forall i t, i < n -> Forall (opIn (n * nd + na)) (surfGate data LX LZ swaps t (fun j => i + j * n))) -> iopIn n g ->
  pieceIn (mkEcc nd na enc mc dc (surfMap enc mc dc data LX LZ swaps)) n ncb (PGate g).
Proof.
  intros Hn Hs Hg. gat. destruct g as [t ctl ts|qs cs| |]; cbn [isMeas]; try exact I; [|apply (mapMeas_in (mc n ncb) (dc n ncb)); auto|constructor].
  cbn [e_map surfMap isDecoded andb bind app e_red e_cor]. destruct ctl; [|destruct t; exact I].
  assert (H : forall t', Forall (opIn (n * nd + na)) (flat_map (fun i => surfGate data LX LZ swaps t' (fun j => i + j * n)) ts)).
  { intros t'. apply Forall_flat_map. refine (Forall_impl _ _ Hg). intros i [Hi _]. now apply Hs. }
  destruct t; try exact I; cbn [bind]; apply H.
Qed.
Lemma f9_gate n ncb g : iopIn n g -> pieceIn q9Surface n ncb (PGate g).
Proof. apply surf_gate; [lia|]. intros i t Hi. apply (in_f9gate _ _ (fun j => n * 9 + j) 9 8); auto; side. Qed.
Lemma g18_gate n ncb g : iopIn n g -> pieceIn q18Surface n ncb (PGate g).
Proof. apply surf_gate; [lia|]. intros i t Hi. apply (in_g18gate _ _ (fun j => n * 36 + j) 36 0); auto; side. Qed.
Definition usesBits (e : ecc) : Prop := e = q5Laflamme \/ e = q7Steane.
Theorem range_all e n ncb freq gates circ : In e properCodes -> 0 < n -> Forall (iopIn n) gates -> (usesBits e -> Forall (bitsIn n) gates) -> apply e freq n ncb gates = Ok circ -> Forall (opIn (getNOutputQubits e n)) circ.
Proof.
  intros He Hn Hg Hb Ea. rewrite Forall_forall in Hg. pose proof (reg_all e n ncb He Hn) as R.
  assert (G : codeIn e n ncb -> (forall g, In g gates -> pieceIn e n ncb (PGate g)) -> Forall (opIn (getNOutputQubits e n)) circ).
  { intros [C0 [C1 [C2 C3]]] CG. exact (apply_in e n ncb freq gates circ R Ea C0 C1 C2 C3 CG). }
  cbn [properCodes In] in He. destruct He as [<-|[<-|[<-|[<-|[<-|[<-|[]]]]]]].
  - apply G; [apply q3_in|]. intros g Hg'. apply q3_gate; auto.
  - apply G; [apply s9_in|]. intros g Hg'. apply s9_gate; auto.
  - apply G; [apply l5_in|]. intros g Hg'. specialize (Hb (or_introl eq_refl)). rewrite Forall_forall in Hb. apply l5_gate; auto.
  - apply G; [apply s7_in|]. intros g Hg'. specialize (Hb (or_intror eq_refl)). rewrite Forall_forall in Hb. apply s7_gate; auto.
  - apply G; [apply f9_in|]. intros g Hg'. apply f9_gate; auto.
  - apply G; [apply g18_in|]. intros g Hg'. apply g18_gate; auto.
Qed.
