(** * EccComp: decoding what was encoded (C49) *)
From Coq Require Import NArith ZArith Ring.
From Verif Require Export EccRefute2.
Local Open Scope amp_scope.

(** ** Circuits of gates on different qubits commute *)
Definition isGate (o : op) : bool := match o with Gate _ _ _ => true | _ => false end.
Definition apartOp (o o' : op) : bool := match o, o' with Gate _ c t, Gate _ c' t' => apart t t' c c' | _, _ => false end.
Lemma after_cons o os f : isGate o = true -> after (o :: os) f == after os (after [o] f).
Proof. destruct o; try discriminate. intros _ x. reflexivity. Qed.
Lemma after_app a b f : forallb isGate a = true -> after (a ++ b) f == after b (after a f).
Proof.
  revert f. induction a as [|o a IHa]; intros f Ha x; [reflexivity|]. cbn [forallb] in Ha. apply andb_true_iff in Ha. destruct Ha as [H1 H2]. cbn [app].
  rewrite (after_cons o (a ++ b) f H1 x), (IHa _ H2 x). apply after_ext. intros y. symmetry. now apply after_cons.
Qed.
Lemma op_comm o b f : forallb (apartOp o) b = true -> isGate o = true -> after b (after [o] f) == after [o] (after b f).
Proof.
  revert f. induction b as [|o' b IHb]; intros f Hb Ho x; [reflexivity|]. cbn [forallb] in Hb. apply andb_true_iff in Hb. destruct Hb as [H1 H2].
  assert (Ho' : isGate o' = true) by (destruct o, o'; try discriminate; reflexivity).
  rewrite (after_cons o' b (after [o] f) Ho' x). transitivity (after b (after [o] (after [o'] f)) x).
  - apply after_ext. intros y. destruct o; try discriminate Ho; destruct o'; try discriminate Ho'. cbn [apartOp] in H1. symmetry. unfold after, run. cbn [fold_left step st creg outs]. now apply gate_comm.
  - rewrite (IHb (after [o'] f) H2 Ho x). apply after_ext. intros y. symmetry. now apply after_cons.
Qed.
Lemma circ_comm a b f : forallb isGate a = true -> forallb (fun o => forallb (apartOp o) b) a = true -> after b (after a f) == after a (after b f).
Proof.
  revert f. induction a as [|o a IHa]; intros f Ha Hb x; [reflexivity|]. cbn [forallb] in Ha, Hb. apply andb_true_iff in Ha, Hb. destruct Ha as [H1 H2], Hb as [H3 H4].
  rewrite (after_cons o a (after b f) H1 x). rewrite <- (after_ext a _ _ (op_comm o b f H3 H1) x). rewrite <- (IHa _ H2 H4 x). apply after_ext. intros y. now apply after_cons.
Qed.
(** ** Blocks *)
Section Comp.
Variables (n nd : nat) (et dt : list op) (k : amp).
Hypothesis Hge : forallb isGate et = true.
Hypothesis Hgd : forallb isGate dt = true.
Hypothesis Hie : forallb (inT nd) et = true.
Hypothesis Hid : forallb (inT nd) dt = true.
Hypothesis Hok : comboOk nd (redW nd) (et ++ dt) aone [(k, [])] = true.
Notation B := (fun i => map (ren (dq n i) 0) et).
Notation D := (fun i => map (ren (dq n i) 0) dt).
Lemma isGate_map rho t : forallb isGate t = true -> forallb isGate (map (ren rho 0) t) = true.
Proof. intros H. apply forallb_forall. intros o Ho. apply in_map_iff in Ho. destruct Ho as [o' [<- Ho]]. rewrite forallb_forall in H. specialize (H o' Ho). now destruct o'. Qed.
Lemma isGate_flat t L : forallb isGate t = true -> forallb isGate (flat_map (fun i => map (ren (dq n i) 0) t) L) = true.
Proof. intros H. apply forallb_forall. intros o Ho. apply in_flat_map in Ho. destruct Ho as [i [_ Ho]]. pose proof (isGate_map (dq n i) t H) as G. rewrite forallb_forall in G. now apply G. Qed.
Lemma blocks_apart i i' o o' : i < n -> i' < n -> i <> i' -> isGate o = true -> isGate o' = true -> apartOp (ren (dq n i) 0 o) (ren (dq n i') 0 o') = true.
Proof.
  intros Hi Hi' Hn. destruct o as [g c t| | | |], o' as [g' c' t'| | | |]; try discriminate. intros _ _. cbn [ren apartOp]. unfold apart. rewrite !andb_true_iff, !forallb_forall. repeat split.
  - apply negb_true_iff, Nat.eqb_neq. now apply dq_other.
  - intros p Hp. apply in_map_iff in Hp. destruct Hp as [p' [<- _]]. cbn [fst]. apply negb_true_iff, Nat.eqb_neq. now apply dq_other.
  - intros p Hp. apply in_map_iff in Hp. destruct Hp as [p' [<- _]]. cbn [fst]. apply negb_true_iff, Nat.eqb_neq. apply dq_other; auto.
Qed.
Lemma pass L i f : (forall j, In j L -> j < n) -> i < n -> ~ In i L -> after (D i) (after (flat_map B L) f) == after (flat_map B L) (after (D i) f).
Proof.
  intros HL Hi Hni. apply circ_comm; [now apply isGate_flat|]. apply forallb_forall. intros o Ho. apply in_flat_map in Ho. destruct Ho as [j [Hj Ho]]. apply in_map_iff in Ho. destruct Ho as [o1 [<- Ho]].
  apply forallb_forall. intros o2 Ho2. apply in_map_iff in Ho2. destruct Ho2 as [o3 [<- Ho3]]. rewrite forallb_forall in Hge, Hgd. apply blocks_apart; auto. intros ->. contradiction.
Qed.
Fixpoint pow (k : amp) (m : nat) : amp := match m with 0 => aone | S m' => k * pow k m' end.
Lemma comp_L L : NoDup L -> (forall i, In i L -> i < n) -> forall f, (forall i, In i L -> fixesB n i (redW nd) f) ->
  after (flat_map D L) (after (flat_map B L) f) == scale (pow k (length L)) f.
Proof.
  induction 1 as [|i L Hni HL IHL]; intros Hlt f Hf x; [unfold scale; cbn [length pow]; rewrite amul_1_l; reflexivity|].
  assert (Hi : i < n) by (apply Hlt; now left). cbn [flat_map].
  assert (E1 : after (D i) (after (B i) f) == scale k f).
  { intros y. rewrite <- (after_app (B i) (D i) f (isGate_map _ _ Hge) y). rewrite <- map_app.
    pose proof (combo_sound nd (dq n i) (dq_inj1 n i nd Hi) 0 f (redW nd) (Hf i (or_introl eq_refl)) _ _ _ Hok y) as G. unfold scale in G. rewrite amul_1_l in G. rewrite G. rewrite combo_cons. unfold combo, scale. cbn [fold_right fst snd].
    change (after (word (dq n i) []) f y) with (f y). ring. }
  rewrite (after_app (D i) (flat_map D L) _ (isGate_map _ _ Hgd) x).
  transitivity (after (flat_map D L) (after (flat_map B L) (scale k f)) x).
  - apply after_ext. intros y. rewrite (after_ext (D i) _ _ (after_app (B i) (flat_map B L) f (isGate_map _ _ Hge)) y).
    rewrite (pass L i _ (fun j Hj => Hlt j (or_intror Hj)) Hi Hni y). now apply after_ext.
  - rewrite (IHL (fun j Hj => Hlt j (or_intror Hj)) (scale k f)).
    + unfold scale. cbn [length pow]. ring.
    + intros j Hj l Hl y. rewrite after_scale. unfold scale. f_equal. apply Hf; [now right|exact Hl].
Qed.
Lemma comp_all f : zeros n 1 nd f -> after (flat_map D (seq 0 n)) (after (flat_map B (seq 0 n)) f) == scale (pow k n) f.
Proof.
  intros Hz. intros x. rewrite (comp_L (seq 0 n) (seq_NoDup n 0)); [now rewrite seq_length| |].
  - intros i Hi. now apply in_all.
  - intros i Hi. apply (proj1 (zeros_redW n nd f) Hz). now apply in_all.
Qed.
End Comp.
Lemma pow_nz k m : k <> azero -> pow k m <> azero.
Proof. intros Hk. induction m as [|m IHm]; cbn [pow]; [discriminate|]. intros H. apply amul_integral in H. tauto. Qed.
(** encoding and decoding: the state itself, but for a factor (the code writes Hadamard gates without the factor 1/sqrt 2) *)
Definition decodesEncoded (e : ecc) : Prop :=
  forall n, exists k, k <> azero /\ forall ncb f, zeros n 1 (e_red e) f -> after (decodeOf e n ncb) (after (encodeOf e n ncb (mkFl true true)) f) == scale k f.
Lemma q3_comp : decodesEncoded q3Shor.
Proof.
  intros n. exists (pow aone n). split; [apply pow_nz; discriminate|]. intros ncb f Hz.
  exact (comp_all n 3 (q3encBlock idq) (q3decBlock idq) aone eq_refl eq_refl ltac:(vm_compute; reflexivity) f Hz).
Qed.
Lemma s9_comp : decodesEncoded q9Shor.
Proof.
  intros n. exists (pow (Am 8 0 0 0) n). split; [apply pow_nz; discriminate|]. intros ncb f Hz.
  exact (comp_all n 9 (s9encBlock idq) (s9decBlock idq) (Am 8 0 0 0) eq_refl eq_refl ltac:(vm_compute; reflexivity) f Hz).
Qed.
