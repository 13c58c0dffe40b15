(** * EccBits: which classical bits the mapped circuit uses (C47) *)
From Verif Require Export EccRange.
Local Open Scope nat_scope.

(** ** Specification *)
(** all classical bits the operation reads or writes have numbers from [lo] to below [hi] *)
Definition bitsOp (lo hi : nat) (o : op) : Prop :=
  match o with Meas _ c => lo <= c < hi | If _ _ l w _ => lo <= l /\ l + w <= hi | _ => True end.

(** ** Proofs *)
Ltac bit1 := cbn [bitsOp cx cz h_ x_ z_ mcx]; try exact I; try (split; lia); try lia.
Ltac bits := repeat (apply Forall_cons; [bit1|]); try apply Forall_nil.
Lemma loop_bits lo hi n f : (forall i, i < n -> Forall (bitsOp lo hi) (f i)) -> Forall (bitsOp lo hi) (loop n f).
Proof. intros H. apply Forall_forall. intros o Ho. unfold loop in Ho. apply in_flat_map in Ho. destruct Ho as [i [Hi Ho]]. apply in_seq in Hi. specialize (H i ltac:(lia)). rewrite Forall_forall in H. now apply H. Qed.
Lemma quiet lo hi os : forallb (fun o => match o with Gate _ _ _ | Swap _ _ | Reset _ => true | _ => false end) os = true -> Forall (bitsOp lo hi) os.
Proof. rewrite forallb_forall. intros H. apply Forall_forall. intros o Ho. specialize (H o Ho). now destruct o. Qed.
Lemma map_quiet {A} lo hi (f : A -> op) l : (forall a, bitsOp lo hi (f a)) -> Forall (bitsOp lo hi) (map f l).
Proof. intros H. apply Forall_forall. intros o Ho. apply in_map_iff in Ho. destruct Ho as [a [<- _]]. apply H. Qed.
Lemma flat_quiet {A} lo hi (f : A -> list op) l : (forall a, In a l -> Forall (bitsOp lo hi) (f a)) -> Forall (bitsOp lo hi) (flat_map f l).
Proof. intros H. apply Forall_forall. intros o Ho. apply in_flat_map in Ho. destruct Ho as [a [Ha Ho]]. specialize (H a Ha). rewrite Forall_forall in H. now apply H. Qed.
Lemma app_bits lo hi a b : Forall (bitsOp lo hi) a -> Forall (bitsOp lo hi) b -> Forall (bitsOp lo hi) (a ++ b). Proof. intros. apply Forall_app. now split. Qed.
Definition codeBits (e : ecc) (nb : nat) : Prop := forall n ncb,
  Forall (bitsOp ncb (ncb + nb)) (encodeOf e n ncb (mkFl true true)) /\ Forall (bitsOp ncb (ncb + nb)) (encodeOf e n ncb (mkFl true false)) /\
  Forall (bitsOp ncb (ncb + nb)) (roundOf e n ncb).
Definition decBits (e : ecc) (nb : nat) : Prop := forall n ncb, Forall (bitsOp ncb (ncb + nb)) (decodeOf e n ncb).
(** the circuits of gates other than measurements have no classical bits *)
Definition gateBits (e : ecc) : Prop := forall n ncb lo hi g c, isMeas g = false -> gateOf e n ncb g = Ok c -> Forall (bitsOp lo hi) c.
Lemma l5_mc_bits n ncb : Forall (bitsOp ncb (ncb + 5)) (snd (l5mc n ncb (mkFl false true))).
Proof. unfold l5mc. cbn [isDecoded snd]. apply loop_bits. intros i Hi. unfold l5Block, l5prep, l5at, l5stab. cbn [flat_map map app seq nth]. bits. Qed.
Lemma q3_bits : codeBits q3Shor 2 /\ decBits q3Shor 2.
Proof.
  split; [intros n ncb; split; [|split]|intros n ncb]; unfold encodeOf, roundOf, decodeOf; cbn; try apply Forall_nil; apply loop_bits; intros i Hi; unfold q3encBlock, q3Block, q3decBlock; bits.
Qed.
Lemma s9_bits : codeBits q9Shor 8 /\ decBits q9Shor 8.
Proof.
  split; [intros n ncb; split; [|split]|intros n ncb]; unfold encodeOf, roundOf, decodeOf; cbn [q9Shor e_enc e_mc e_dec s9enc s9mc s9dec isDecoded snd]; apply loop_bits; intros i Hi; unfold s9encBlock, s9Block, s9prep, s9decBlock; cbn [flat_map map app seq]; bits.
Qed.
Lemma l5_bits : codeBits q5Laflamme 5 /\ decBits q5Laflamme 5.
Proof.
  assert (He : forall n ncb, Forall (bitsOp ncb (ncb + 5)) (loop n (fun _ => [Reset (n * 5)]) ++ loop n (fun i => l5encBlock (fun j => i + j * n) (n * 5) (ncb + 4)))).
  { intros n ncb. apply app_bits; apply loop_bits; intros i Hi; [bits|]. unfold l5encBlock. cbn [map app seq]. bits. }
  split; [intros n ncb; split; [|split]|intros n ncb]; unfold encodeOf, roundOf, decodeOf.
  - cbn [q5Laflamme e_enc]. unfold l5enc. cbn [isDecoded gatesWritten]. pose proof (l5_mc_bits n ncb) as G. destruct (l5mc n ncb (mkFl false true)) as [fl c]. cbn [snd] in *. apply app_bits; auto.
  - cbn [q5Laflamme e_enc]. unfold l5enc. cbn [isDecoded gatesWritten]. pose proof (l5_mc_bits n ncb) as G. change (l5mc n ncb (mkFl false false)) with (mkFl false false, snd (l5mc n ncb (mkFl false true))). cbn [snd] in *. apply app_bits; auto.
  - apply l5_mc_bits.
  - cbn [q5Laflamme e_dec l5dec isDecoded snd]. apply loop_bits. intros i Hi. unfold l5decBlock. cbn [map app seq]. bits.
Qed.
Lemma s7_single_bits x n ncb wr : Forall (bitsOp ncb (ncb + 3)) (s7single x n ncb wr).
Proof. apply loop_bits. intros i Hi. unfold s7Block, s7prep. change s7checks with [(0, 0); (0, 2); (0, 4); (0, 6); (1, 1); (1, 2); (1, 5); (1, 6); (2, 3); (2, 4); (2, 5); (2, 6)]. destruct x, (wr || (0 <? i)); cbn [flat_map map app seq fst snd]; bits. Qed.
Lemma s7_bits : codeBits q7Steane 3 /\ decBits q7Steane 3.
Proof.
  split; [intros n ncb; split; [|split]|intros n ncb]; unfold encodeOf, roundOf, decodeOf; cbn [q7Steane e_enc e_mc e_dec s7enc s7mc s7dec isDecoded gatesWritten snd].
  - apply app_bits; [|apply s7_single_bits]. apply loop_bits. intros i Hi. cbn [map seq]. bits.
  - apply app_bits; [apply Forall_nil|apply s7_single_bits].
  - apply app_bits; apply s7_single_bits.
  - apply loop_bits. intros i Hi. unfold s7decBlock. cbn [map app]. bits.
Qed.
Lemma f9_mc_bits n ncb wr : Forall (bitsOp ncb (ncb + 8)) (snd (f9mc n ncb (mkFl false wr))).
Proof. unfold f9mc. cbn [isDecoded gatesWritten snd]. apply loop_bits. intros i Hi. unfold f9Block, f9prep. destruct (wr || (0 <? i)); cbn [flat_map map app seq fst snd pairs f9X f9Z f9Xanc f9Zanc nth length filter existsb Nat.eqb negb orb]; bits. Qed.
Lemma f9_bits : codeBits q9Surface 8.
Proof. intros n ncb. split; [|split]; apply f9_mc_bits. Qed.
Lemma g18_mc_bits n ncb wr : Forall (bitsOp ncb (ncb + 8)) (snd (g18mc n ncb (mkFl false wr))).
Proof. unfold g18mc. cbn [isDecoded gatesWritten snd]. apply loop_bits. intros i Hi. unfold g18Block. destruct (wr || (0 <? i)); cbn [flat_map map app seq fst snd g18pairs g18X g18anc g18checks nth]; bits. Qed.
Lemma g18_bits : codeBits q18Surface 8.
Proof. intros n ncb. split; [|split]; apply g18_mc_bits. Qed.
Lemma trans_bits lo hi k n g ctl ts : Forall (bitsOp lo hi) (transversal k n g ctl ts).
Proof. apply flat_quiet. intros t _. apply map_quiet. intros j. exact I. Qed.
Lemma surf_bits lo hi data LX LZ swaps g d : Forall (bitsOp lo hi) (surfGate data LX LZ swaps g d).
Proof. destruct g; cbn [surfGate]; try apply Forall_nil; repeat apply app_bits; apply map_quiet; intros j; exact I. Qed.
Ltac gb := intros n ncb lo hi g c Hm; destruct g as [t ctl ts|qs cs| |]; try discriminate Hm; unfold gateOf; cbn [isMeas]; [|intros E; injection E as <-; apply Forall_nil|discriminate].
Lemma q3_gb : gateBits q3Shor.
Proof. gb. destruct t; cbn; try discriminate; intros E; injection E as <-; apply trans_bits. Qed.
Lemma s9_gb : gateBits q9Shor.
Proof.
  assert (G : forall lo hi n g ctl ts, Forall (bitsOp lo hi) (s9gate n g ctl ts)).
  { intros. unfold s9gate. apply flat_quiet. intros t _. destruct ctl as [|p ctl]; [apply map_quiet; intros j; exact I|]. apply flat_quiet. intros j _. apply app_bits; [apply map_quiet; intros; exact I|]. apply app_bits; [bits|apply map_quiet; intros; exact I]. }
  gb. destruct t; cbn -[s9gate]; try discriminate; intros E; injection E as <-; apply G.
Qed.
Lemma l5_gb : gateBits q5Laflamme.
Proof. gb. destruct t; try discriminate; (destruct ctl; [|destruct ts; try discriminate]); intros E; injection E as <-; first [apply (trans_bits lo hi 5 n)|apply Forall_nil]. Qed.
Lemma s7_gb : gateBits q7Steane.
Proof.
  gb. assert (GS_ : forall g, Forall (bitsOp lo hi) (s7S n g ctl ts)) by (intros g; apply flat_quiet; intros a _; apply flat_quiet; intros b _; cbn [repeat]; bits).
  assert (GT_ : forall g, Forall (bitsOp lo hi) (flat_map (fun i => s7T g (fun j => i + j * n)) ts)) by (intros g; apply flat_quiet; intros a _; unfold s7T; bits).
  destruct t; try (intros E; injection E as <-; first [apply (trans_bits lo hi 7 n)|apply GS_]); (destruct ctl; [|destruct ts; try discriminate]); intros E; injection E as <-; first [apply (GT_ GT)|apply (GT_ GTdg)|apply Forall_nil].
Qed.
Lemma surf_gb enc mc dc data LX LZ swaps n ncb lo hi g c : isMeas g = false -> (let* (_, c) := surfMap enc mc dc data LX LZ swaps n ncb (mkFl false true) g in Ok c) = Ok c -> Forall (bitsOp lo hi) c.
Proof.
  intros Hm. destruct g as [t ctl ts|qs cs| |]; try discriminate Hm; cbn [surfMap isDecoded negb andb bind unavailable].
  - assert (G : forall t, Forall (bitsOp lo hi) (flat_map (fun i => surfGate data LX LZ swaps t (fun j => i + j * n)) ts)) by (intros; apply flat_quiet; intros a _; apply surf_bits).
    destruct t, ctl; cbn [bind unavailable app]; try discriminate; intros E; injection E as <-; [apply (G GX)|apply (G GY)|apply (G GZ)|apply (G GH)].
  - intros E; injection E as <-; apply Forall_nil.
  - discriminate.
Qed.
Lemma f9_gb : gateBits q9Surface.
Proof. intros n ncb lo hi g c Hm. unfold gateOf. rewrite Hm. now apply surf_gb. Qed.
Lemma g18_gb : gateBits q18Surface.
Proof. intros n ncb lo hi g c Hm. unfold gateOf. rewrite Hm. now apply surf_gb. Qed.

(** ** Whole circuits *)
(** every operation of the mapped circuit uses bits of the code, except the measurements of the input circuit *)
Definition bitsAll (e : ecc) (n ncb nb : nat) (ps : list piece) : Prop :=
  Forall (fun p => match p with PGate (IMeas _ _) => True | _ => forall c, pieceOf e n ncb p = Ok c -> Forall (bitsOp ncb (ncb + nb)) c end) ps.
Lemma bits_pieces e nb n ncb ps : codeBits e nb -> decBits e nb -> gateBits e -> bitsAll e n ncb nb ps.
Proof.
  intros Hc Hd Hg. apply Forall_forall. intros p _. destruct (Hc n ncb) as [H1 [H2 H3]]. destruct p as [| | |g]; try (intros c E; injection E as <-; auto).
  destruct g; try exact I; intros c; apply Hg; reflexivity.
Qed.
Lemma bits_nomeas e nb n ncb ps c : bitsAll e n ncb nb ps -> forallb (fun p => match p with PGate g => negb (isMeas g) | _ => true end) ps = true -> piecesOf e n ncb ps = Ok c -> Forall (bitsOp ncb (ncb + nb)) c.
Proof.
  intros H. revert c. induction H as [|p ps Hp Hps IH]; intros c Hm E; [injection E as <-; apply Forall_nil|]. cbn [forallb] in Hm. apply andb_true_iff in Hm. destruct Hm as [M1 M2]. cbn [piecesOf] in E.
  destruct (pieceOf e n ncb p) as [c1|er] eqn:Ep; [|discriminate]. cbn [bind] in E. destruct (piecesOf e n ncb ps) as [c2|er]; [|discriminate]. injection E as <-. apply app_bits; [|now apply IH].
  destruct p as [| | |[]]; try discriminate M1; now apply Hp.
Qed.
