(** * PropEccProg: transformed programs compute what the programs compute, with errors before the rounds (C58) *)
From Coq Require Import NArith ZArith Ring.
From Verif Require Export EccProg4.
Local Open Scope amp_scope.

(** Q3Shor, from qubits that are all 0: X, Y, Z, controlled X and Z, measurements; errors that are combinations of identity and X *)
Theorem C58_q3shor : faithful q3Shor (allZero q3Shor) [GX; GY; GZ] [GX; GZ] xKind False.
Proof. apply q3_whole. intros E HE. apply (roundP_noise q3Shor q3stabs [GX] E q3_roundP). intros i m j Ei. destruct (HE i m j Ei). split; [now apply expands_X|assumption]. Qed.
(** with X errors there are outcomes for which the factor is not 0 *)
Theorem C58_q3shor_X : faithful q3Shor (allZero q3Shor) [GX; GY; GZ] [GX; GZ] (gateKind [GX]) True.
Proof. apply q3_whole. intros E HE. exact (roundOK_gates q3Shor q3stabs [GX] E q3_roundP HE). Qed.
(** Q9Shor, from any state of the input qubits: X, Y, Z, controlled X, measurements; arbitrary errors *)
Theorem C58_q9shor : faithful q9Shor (anyInput q9Shor) [GX; GY; GZ] [GX] (fun _ => True) False.
Proof. apply s9_whole. intros E HE. apply (roundP_noise q9Shor s9stabs [GX; GY; GZ] E s9_roundP). intros i m j Ei. destruct (HE i m j Ei). split; [apply expands_all|assumption]. Qed.
Theorem C58_q9shor_gates : faithful q9Shor (anyInput q9Shor) [GX; GY; GZ] [GX] (gateKind [GX; GY; GZ]) True.
Proof. apply s9_whole. intros E HE. exact (roundOK_gates q9Shor s9stabs [GX; GY; GZ] E s9_roundP HE). Qed.
Print Assumptions C58_q3shor.
Print Assumptions C58_q3shor_X.
Print Assumptions C58_q9shor.
Print Assumptions C58_q9shor_gates.

(** ** The hypotheses are met *)
(** a program on two qubits with a measurement in the middle *)
Definition prog58 : list iop := [IGate GX [] [0]; IGate GX [(0, true)] [1]; IMeas [0] [0]; IGate GY [] [1]; INone; IMeas [1] [1]].
Example C58_prog : Forall (supported [GX; GY; GZ] [GX; GZ] 2 2) prog58 /\ Forall (supported [GX; GY; GZ] [GX] 2 2) prog58.
Proof. split; repeat constructor; cbn; auto; lia. Qed.
(** errors: an X on the third qubit of each block; any operator on the last qubit of each block *)
Example C58_errsX : errsOfKind 3 (gateKind [GX]) [noErr; fun i => Some (mat GX, 2)] /\ errsOfKind 3 xKind [noErr; fun i => Some (mat GX, 2)].
Proof.
  split; (constructor; [intros i m j Ei; discriminate|constructor; [|constructor]]); intros i m j Ei; injection Ei as <- <-; (split; [|lia]).
  - exists GX. split; [now left|reflexivity].
  - cbn. auto.
Qed.
Example C58_errsAll : errsOfKind 9 (fun _ => True) [fun i => Some ((aone, aI, azero, Am 3 0 1 0), 8); noErr].
Proof. constructor; [|constructor; [intros i m j Ei; discriminate|constructor]]. intros i m j Ei. injection Ei as <- <-. split; [exact I|lia]. Qed.
(** the initial states: all qubits 0, and for Q9Shor a superposition of the first input qubit *)
Lemma ket0_Z q : gate GZ [] q ket0 == ket0.
Proof.
  intros x. unfold gate. cbn [active forallb mat u2]. pose proof (upd_same x q) as Ex. destruct (bit x q) eqn:Eb; rewrite Ex; [|ring]. assert (E0 : ket0 x = azero). { unfold ket0. destruct (N.eqb_spec x 0); [subst; unfold bit in Eb; rewrite N.bits_0 in Eb; discriminate|reflexivity]. } rewrite E0. ring.
Qed.
Example C58_start0 : forall e n, allZero e n ket0 /\ anyInput e n ket0.
Proof. intros e n. split; split; intros; try (intros ? ?; intros); try apply ket0_Z; intros q Hq; apply ket0_Z. Qed.
Example C58_startH : anyInput q9Shor 2 (gate GH [] 0 ket0).
Proof.
  assert (G : forall q, q <> 0%nat -> gate GZ [] q (gate GH [] 0 ket0) == gate GH [] 0 ket0).
  { intros q Hq x. rewrite (gate_comm GZ [] q GH [] 0 ket0); [apply gate_ext, ket0_Z|]. unfold apart. cbn [forallb]. rewrite !andb_true_r. now apply negb_true_iff, Nat.eqb_neq. }
  split; [intros i j Hi Hj Hj'; apply G; lia|]. intros q Hq. apply G. unfold ancillas in Hq. apply in_map_iff in Hq. destruct Hq as [j [<- _]]. cbn. lia.
Qed.
(** the program itself: with the outcomes 1, 0 it ends in a state that is not 0 and with the first bit set *)
Example C58_ideal : let c := run (original prog58) (mkConf 0 [true; false] ket0) in (st c 1%N = aopp aI) /\ creg c = 1%N.
Proof. vm_compute. split; reflexivity. Qed.
(** ** Q3Shor encodes only what it writes itself: a qubit that is 1 at the beginning is taken for an error *)
Theorem C58_q3shor_input_refuted : ~ faithful q3Shor (anyInput q3Shor) [] [] (fun _ => False) True.
Proof.
  intros F. destruct (F 1%nat 0%nat 1%nat [] [] ltac:(lia) ltac:(constructor) ltac:(constructor)) as [_ [C [K [M [HC [HL H]]]]]]. destruct (HL I) as [a Ha]. set (f := gate GX [] 0 ket0).
  assert (Hs : anyInput q3Shor 1 f).
  { assert (G : forall q, q <> 0%nat -> gate GZ [] q f == f).
    { intros q Hq x. unfold f. rewrite (gate_comm GZ [] q GX [] 0 ket0); [apply gate_ext, ket0_Z|]. unfold apart. cbn [forallb]. rewrite !andb_true_r. now apply negb_true_iff, Nat.eqb_neq. }
    split; [intros i j Hi Hj Hj'; apply G; lia|]. intros q Hq. apply G. cbn in Hq. lia. }
  destruct (H a [] 0%N f Hs) as [H1 _].
  set (E := fun i : nat => if (i =? 0)%nat then Some (mat GX, 0%nat) else None).
  destruct (C58_q3shor_X 1%nat 0%nat 1%nat [] [E] ltac:(lia) ltac:(constructor)) as [_ [C' [K' [M' [HC' [_ H']]]]]].
  { constructor; [|constructor]. intros i m j Ei. unfold E in Ei. destruct (i =? 0)%nat; [|discriminate]. injection Ei as <- <-. split; [exists GX; split; [now left|reflexivity]|cbn; lia]. }
  destruct (H' a [] 0%N ket0 (proj1 (C58_start0 q3Shor 1))) as [H2 _].
  set (rec := weave q3Shor 1 0 (schedule 1 0 false []) a []) in *.
  set (real := st (execAll q3Shor 1 1 0 [] [] (mkConf 0 rec f))) in *.
  assert (Er : st (execAll q3Shor 1 1 0 [] [E] (mkConf 0 rec ket0)) = real) by reflexivity. rewrite Er in H2. clear Er. clearbody real rec.
  set (m := M a) in *. set (x := upd (upd 1%N 3 (nth 0 m false)) 4 (nth 1 m false)).
  assert (Hr : reads (ancillas q3Shor 1) m x = true).
  { change (ancillas q3Shor 1) with [3; 4]%nat. unfold x, reads. destruct m as [|b0 [|b1 m]]; cbn [combine forallb fst snd nth]; rewrite ?bit_upd; cbn [Nat.eqb]; rewrite ?eqb_reflx; reflexivity. }
  assert (Hb : bit x 0 = true) by (unfold x; rewrite !bit_upd; reflexivity).
  assert (Hx : real x = azero).
  { specialize (H2 x). assert (E2 : C' * real x = azero).
    { rewrite H2. destruct (reads _ _ x); [|reflexivity]. change (st (run (original []) (mkConf 0 [] ket0))) with ket0. rewrite (fixedZ 0 ket0); [apply amul_0_r|apply ket0_Z|]. rewrite bit_setTo; [exact Hb|]. cbn. lia. }
    apply amul_integral in E2. tauto. }
  specialize (H1 x). rewrite Hr, Hx, amul_0_r in H1. change (st (run (original []) (mkConf 0 [] f))) with f in H1.
  assert (Ey : setTo (ancillas q3Shor 1) (repeat false (length (ancillas q3Shor 1))) x = 1%N).
  { change (ancillas q3Shor 1) with [3; 4]%nat. unfold x. destruct (nth 0 m false), (nth 1 m false); reflexivity. }
  rewrite Ey in H1. symmetry in H1. apply amul_integral in H1. destruct H1 as [H1|H1]; [contradiction|]. vm_compute in H1. discriminate.
Qed.
Print Assumptions C58_q3shor_input_refuted.
