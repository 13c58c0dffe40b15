(* Property C73: the Qiskit wrapper: noise models, printed results, order of events. *)
From Coq Require Import List Arith Bool String Ascii Reals QArith Lra Lia Permutation Sorted.
From Verif Require Import WrapModel.
Import ListNotations.
Local Open Scope nat_scope.

(* ---- the noise model ---- *)
Definition known (c : ascii) : Prop := c = "B"%char \/ c = "D"%char \/ c = "A"%char \/ c = "P"%char.
Definition letters (s : string) : list ascii := list_ascii_of_string s.
Fixpoint occ (c : ascii) (l : list ascii) : nat := match l with [] => 0 | d :: r => (if Ascii.eqb c d then 1 else 0) + occ c r end.

Lemma new_error_iff c p : (exists e, new_error c p = Some e) <-> known c.
Proof.
  unfold new_error, known. destruct (Ascii.eqb_spec c "B"); [subst; split; eauto|]. destruct (Ascii.eqb_spec c "D"); [subst; split; eauto|].
  destruct (Ascii.eqb_spec c "A"); [subst; split; eauto|]. destruct (Ascii.eqb_spec c "P"); [subst; split; eauto 6|].
  split; [intros (e & E); discriminate|intros [E|[E|[E|E]]]; contradiction].
Qed.
Lemma loop_ok s p : forall e, Forall known (letters s) -> exists e', noise_loop s p (Some e) = inl (Some e').
Proof.
  induction s as [|c r IH]; intros e F; cbn [letters list_ascii_of_string noise_loop] in *; [eauto|]. apply Forall_cons_iff in F as [K F].
  destruct (proj2 (new_error_iff c p) K) as (x & ->). apply IH. exact F.
Qed.
Lemma loop_bad s p : forall e, ~ Forall known (letters s) -> exists pre c post, letters s = pre ++ c :: post /\ Forall known pre /\ ~ known c /\ noise_loop s p e = inr c.
Proof.
  induction s as [|c r IH]; intros e N; [exfalso; apply N; constructor|]. cbn [letters list_ascii_of_string noise_loop] in *. destruct (new_error c p) as [x|] eqn:E.
  - assert (K : known c) by (apply (new_error_iff c p); eauto). destruct (IH (Some (compose_error e x))) as (pre & d & post & A & B & C & D); [intros F; apply N; constructor; auto|].
    exists (c :: pre), d, post. unfold letters in A. rewrite A. repeat split; auto.
  - assert (K : ~ known c) by (intros K; apply (new_error_iff c p) in K as (x & X); congruence). exists [], c, (list_ascii_of_string r). repeat split; auto.
Qed.
(* create_noise_model succeeds exactly for non-empty strings over the four letters; the first unknown letter is reported; nothing but the empty string runs into the assertion. *)
Theorem C73_create s p :
  ((exists nm, create_noise_model s p = Model nm) <-> s <> EmptyString /\ Forall known (letters s)) /\
  (create_noise_model s p = AssertionError <-> s = EmptyString) /\
  (forall c, create_noise_model s p = ValueError c <-> exists pre post, letters s = pre ++ c :: post /\ Forall known pre /\ ~ known c).
Proof.
  assert (FIRST : forall l pre c post pre' c' post', l = pre ++ c :: post -> l = pre' ++ c' :: post' -> Forall known pre -> ~ known c -> Forall known pre' -> ~ known c' -> c = c').
  { clear. intros l pre. revert l. induction pre as [|a pre IH]; intros l c post pre' c' post' -> E F N F' N'; destruct pre' as [|a' pre']; cbn [app] in E; injection E as E1 E2; subst; auto.
    - apply Forall_inv in F'. contradiction. - apply Forall_inv in F. contradiction. - apply (IH _ c post pre' c' post' eq_refl E2); auto; [now inversion F|now inversion F']. }
  assert (DEC : Forall known (letters s) \/ ~ Forall known (letters s)).
  { induction (letters s) as [|c l IH]; [left; constructor|]. destruct (new_error c p) as [e|] eqn:E.
    - assert (K : known c) by (apply (new_error_iff c p); eauto). destruct IH; [left; constructor; auto|right; intros F; inversion F; auto].
    - right. intros F. inversion F as [|a b K]; subst. apply (new_error_iff c p) in K as (x & X). congruence. }
  unfold create_noise_model. destruct DEC as [F|N].
  - destruct s as [|c r].
    + cbn [noise_loop]. split; [split; [intros (nm & X); discriminate|intros (X & _); contradiction]|]. split; [tauto|]. intros c. split; [discriminate|intros (pre & post & E & _); destruct pre; discriminate].
    + pose proof F as F0. cbn [letters list_ascii_of_string] in F. apply Forall_cons_iff in F as [K F]. cbn [noise_loop]. destruct (proj2 (new_error_iff c p) K) as (x & ->).
      destruct (loop_ok r p (compose_error None x) F) as (e' & ->). split; [split; [intros _; split; [discriminate|exact F0]|eauto]|]. split; [split; discriminate|].
      intros d. split; [discriminate|]. intros (pre & post & E & _ & ND). exfalso. apply ND. rewrite Forall_forall in F0. apply F0. rewrite E. apply in_or_app. right. now left.
  - destruct (loop_bad s p None N) as (pre & c & post & A & B & C & ->). split; [split; [intros (nm & X); discriminate|intros (_ & F); contradiction]|].
    split; [split; [discriminate|intros ->; exfalso; apply N; constructor]|]. intros d. split.
    + intros E. assert (c = d) by congruence. subst d. eauto.
    + intros (pre' & post' & A' & B' & C'). f_equal. apply (FIRST (letters s) pre c post pre' d post'); auto.
Qed.
Print Assumptions C73_create.

(* Which instructions are noisy: those of the list, on every qubit they touch; all others are noise-free. *)
Theorem C73_gates s p nm : create_noise_model s p = Model nm -> exists e,
  (forall g, In g ["u1"; "u2"; "u3"; "h"; "id"; "t"; "tdg"; "sdg"; "rx"; "ry"; "rz"; "s"]%string -> noise_on nm g = [e]) /\
  (forall g, In g ["cx"; "swap"]%string -> noise_on nm g = [e; e]) /\ noise_on nm "cswap" = [e; e; e] /\
  (forall g, ~ In g ["u1"; "u2"; "u3"; "h"; "id"; "t"; "tdg"; "sdg"; "rx"; "ry"; "rz"; "s"; "cx"; "swap"; "cswap"]%string -> noise_on nm g = []).
Proof.
  unfold create_noise_model. destruct (noise_loop s p None) as [[e|]|c]; try discriminate. intros E. injection E as <-. exists e. split; [|split; [|split; [reflexivity|]]].
  - intros g I. repeat (destruct I as [<-|I]; [reflexivity|]). destruct I.
  - intros g I. repeat (destruct I as [<-|I]; [reflexivity|]). destruct I.
  - intros g N. unfold noise_on, singles. cbn [existsb].
    assert (Q : forall k, In k ["u1"; "u2"; "u3"; "h"; "id"; "t"; "tdg"; "sdg"; "rx"; "ry"; "rz"; "s"; "cx"; "swap"; "cswap"]%string -> String.eqb g k = false).
    { intros k I. destruct (String.eqb_spec g k); auto. subst. contradiction. }
    rewrite !Q by (simpl; tauto). reflexivity.
Qed.
Print Assumptions C73_gates.
(* in particular the Pauli gates, the two-qubit phase gate, the Toffoli gate (used for the corrections) and measurements are noise-free *)
Corollary C73_noise_free s p nm : create_noise_model s p = Model nm -> forall g, In g ["x"; "y"; "z"; "cz"; "cy"; "ccx"; "measure"; "reset"; "barrier"]%string -> noise_on nm g = [].
Proof.
  intros E g I. destruct (C73_gates s p nm E) as (e & _ & _ & _ & N). apply N. intros J.
  repeat (destruct I as [<-|I]; [repeat (destruct J as [J|J]; [discriminate|]); destruct J|]). destruct I.
Qed.
Print Assumptions C73_noise_free.

(* ---- what the error does ---- *)
Local Open Scope R_scope.
Lemma bit_flip p v : pauli_error [("X"%string, p); ("I"%string, 1 - p)] v = bscale 1 (1 - 2 * p) (1 - 2 * p) v.
Proof. destruct v as [[x y] z]. cbn. f_equal; [f_equal|]; ring. Qed.
Lemma phase_flip p v : pauli_error [("Z"%string, p); ("I"%string, 1 - p)] v = bscale (1 - 2 * p) (1 - 2 * p) 1 v.
Proof. destruct v as [[x y] z]. cbn. f_equal; [f_equal|]; ring. Qed.
(* the depolarization with parameter p is an X, Y or Z error with probability p/4 each *)
Theorem C73_depolarizing p v : depolarizing_error p v = pauli_error [("X"%string, p / 4); ("Y"%string, p / 4); ("Z"%string, p / 4); ("I"%string, 1 - 3 * p / 4)] v.
Proof. destruct v as [[x y] z]. cbn. f_equal; [f_equal|]; field. Qed.
Print Assumptions C73_depolarizing.

(* the effect of one letter on the three coordinates *)
Definition fx (p : R) (c : ascii) : R := if Ascii.eqb c "P" then 1 - 2 * p else if Ascii.eqb c "D" then 1 - p else if Ascii.eqb c "A" then sqrt (1 - p) else 1.
Definition fy (p : R) (c : ascii) : R := if Ascii.eqb c "P" || Ascii.eqb c "B" then 1 - 2 * p else if Ascii.eqb c "D" then 1 - p else if Ascii.eqb c "A" then sqrt (1 - p) else 1.
Definition fz (p : R) (c : ascii) (z : R) : R := if Ascii.eqb c "B" then (1 - 2 * p) * z else if Ascii.eqb c "D" then (1 - p) * z else if Ascii.eqb c "A" then (1 - p) * z + p else z.
Lemma letter_action c p e x y z : new_error c p = Some e -> e (x, y, z) = (fx p c * x, fy p c * y, fz p c z).
Proof.
  unfold new_error, fx, fy, fz. destruct (Ascii.eqb_spec c "B") as [->|]; [intros E; injection E as <-; rewrite bit_flip; cbn; f_equal; f_equal; ring|].
  destruct (Ascii.eqb_spec c "D") as [->|]; [intros E; injection E as <-; reflexivity|]. destruct (Ascii.eqb_spec c "A") as [->|]; [intros E; injection E as <-; reflexivity|].
  destruct (Ascii.eqb_spec c "P") as [->|]; [intros E; injection E as <-; rewrite phase_flip; cbn; f_equal; ring|]. discriminate.
Qed.
Definition prod (l : list R) : R := fold_right Rmult 1 l.
Lemma loop_action s p : forall e e' x y z x1 y1 z1, noise_loop s p (Some e) = inl (Some e') -> e (x, y, z) = (x1, y1, z1) ->
  e' (x, y, z) = (prod (map (fx p) (letters s)) * x1, prod (map (fy p) (letters s)) * y1, fold_left (fun z c => fz p c z) (letters s) z1).
Proof.
  induction s as [|c r IH]; intros e e' x y z x1 y1 z1 L E; cbn [noise_loop letters list_ascii_of_string map fold_left prod fold_right] in *.
  - injection L as <-. rewrite E. f_equal. f_equal; ring.
  - destruct (new_error c p) as [ne|] eqn:N; [|discriminate]. unfold compose_error in L.
    rewrite (IH _ e' x y z (fx p c * x1) (fy p c * y1) (fz p c z1) L) by (rewrite E; apply letter_action; auto).
    unfold letters. f_equal. f_equal; unfold prod; ring.
Qed.
(* The error of a noise model, letter by letter in their order. *)
Theorem C73_channel s p nm g : create_noise_model s p = Model nm -> In g singles -> exists e, noise_on nm g = [e] /\
  forall x y z, e (x, y, z) = (prod (map (fx p) (letters s)) * x, prod (map (fy p) (letters s)) * y, fold_left (fun z c => fz p c z) (letters s) z).
Proof.
  intros E I. unfold create_noise_model in E. destruct (noise_loop s p None) as [[e|]|c] eqn:L; try discriminate. injection E as <-. exists e. split.
  { unfold singles in *. repeat (destruct I as [<-|I]; [reflexivity|]). destruct I. }
  intros x y z. destruct s as [|c r]; [discriminate|]. cbn [noise_loop] in L. destruct (new_error c p) as [ne|] eqn:N; [|discriminate]. cbn [compose_error] in L.
  rewrite (loop_action r p ne e x y z _ _ _ L (letter_action c p ne x y z N)). cbn [letters list_ascii_of_string map prod fold_right fold_left]. unfold letters. f_equal. f_equal; unfold prod; ring.
Qed.
Print Assumptions C73_channel.
Lemma pow_occ (f : ascii -> R) l b d a q : (forall c, In c l -> f c = match ascii_dec c "B" with left _ => b | _ => match ascii_dec c "D" with left _ => d | _ => match ascii_dec c "A" with left _ => a | _ => q end end end) -> Forall known l ->
  prod (map f l) = b ^ occ "B" l * d ^ occ "D" l * a ^ occ "A" l * q ^ occ "P" l.
Proof.
  intros H F. induction F as [|c l K F IH]; [cbn; ring|]. cbn [map prod fold_right occ]. fold (prod (map f l)). rewrite IH by (intros x I; apply H; now right).
  rewrite (H c (or_introl eq_refl)). destruct K as [->|[->|[->| ->]]]; cbn [Ascii.eqb Bool.eqb ascii_dec]; cbn; ring.
Qed.
(* Without amplitude damping the error is a Pauli channel given by the numbers of the letters alone: with b = 1 - 2p, d = 1 - p, the coordinates shrink by b^#P d^#D, b^(#P+#B) d^#D, b^#B d^#D. *)
Theorem C73_pauli s p nm g : create_noise_model s p = Model nm -> In g singles -> occ "A" (letters s) = 0%nat -> exists e, noise_on nm g = [e] /\
  forall x y z, e (x, y, z) = ((1 - 2 * p) ^ occ "P" (letters s) * (1 - p) ^ occ "D" (letters s) * x,
                               (1 - 2 * p) ^ (occ "P" (letters s) + occ "B" (letters s)) * (1 - p) ^ occ "D" (letters s) * y,
                               (1 - 2 * p) ^ occ "B" (letters s) * (1 - p) ^ occ "D" (letters s) * z).
Proof.
  intros E I NA. destruct (proj1 (C73_create s p)) as [K _]. destruct (K (ex_intro _ nm E)) as [_ F]. destruct (C73_channel s p nm g E I) as (e & N & A). exists e. split; auto. intros x y z. rewrite A. clear A N E K.
  rewrite (pow_occ (fx p) _ 1 (1 - p) (sqrt (1 - p)) (1 - 2 * p)); [|intros c Hc; rewrite Forall_forall in F; destruct (F c Hc) as [->|[->|[->| ->]]]; reflexivity|auto].
  rewrite (pow_occ (fy p) _ (1 - 2 * p) (1 - p) (sqrt (1 - p)) (1 - 2 * p)); [|intros c Hc; rewrite Forall_forall in F; destruct (F c Hc) as [->|[->|[->| ->]]]; reflexivity|auto].
  rewrite NA, pow1, pow_add. cbn [pow]. f_equal; [f_equal; ring|].
  revert z. induction F as [|c l Kc F IH]; intros z; [cbn; ring|]. cbn [fold_left occ] in *. assert (NA' : occ "A" l = 0%nat) by lia. rewrite IH by auto.
  destruct Kc as [->|[->|[->| ->]]]; cbn in *; try ring. discriminate.
Qed.
Print Assumptions C73_pauli.
(* so the order of the letters does not matter *)
Lemma occ_perm c l l' : Permutation l l' -> occ c l = occ c l'.
Proof. induction 1; cbn; lia. Qed.
Corollary C73_order s s' p nm nm' g : Permutation (letters s) (letters s') -> occ "A" (letters s) = 0%nat -> create_noise_model s p = Model nm -> create_noise_model s' p = Model nm' -> In g singles ->
  exists e e', noise_on nm g = [e] /\ noise_on nm' g = [e'] /\ forall v, e v = e' v.
Proof.
  intros P NA E E' I. destruct (C73_pauli s p nm g E I NA) as (e & N & A). destruct (C73_pauli s' p nm' g E' I) as (e' & N' & A'); [now rewrite <- (occ_perm _ _ _ P)|].
  exists e, e'. repeat split; auto. intros [[x y] z]. now rewrite A, A', !(occ_perm _ _ _ P).
Qed.
Print Assumptions C73_order.
(* With amplitude damping it does: "AB" and "BA" are different noise models for every 0 < p <= 1. *)
Theorem C73_order_refuted p : 0 < p <= 1 -> exists nm nm' e e', create_noise_model "AB" p = Model nm /\ create_noise_model "BA" p = Model nm' /\ noise_on nm "h" = [e] /\ noise_on nm' "h" = [e'] /\ e (0, 0, 1) <> e' (0, 0, 1) .
Proof.
  intros P. assert (I : In "h"%string singles) by (simpl; tauto). destruct (create_noise_model "AB" p) as [nm| |] eqn:E; try (cbn in E; discriminate). destruct (create_noise_model "BA" p) as [nm'| |] eqn:E'; try (cbn in E'; discriminate).
  destruct (C73_channel _ _ _ _ E I) as (e & N & A). destruct (C73_channel _ _ _ _ E' I) as (e' & N' & A'). exists nm, nm', e, e'. repeat split; auto. rewrite A, A'. cbn. intros X. injection X as _ _ X. nra.
Qed.
Print Assumptions C73_order_refuted.
(* For probabilities the error maps states to states: the Bloch vector stays in the unit ball; for p = 0 nothing happens. *)
Lemma letter_ball p c x y z : 0 <= p <= 1 -> x * x + y * y + z * z <= 1 -> (fx p c * x) * (fx p c * x) + (fy p c * y) * (fy p c * y) + fz p c z * fz p c z <= 1.
Proof.
  intros P B. unfold fx, fy, fz. destruct (Ascii.eqb_spec c "P") as [->|NP]; cbn [orb].
  - replace (("P" =? "B")%char) with false by reflexivity. replace (("P" =? "D")%char) with false by reflexivity. replace (("P" =? "A")%char) with false by reflexivity.
    assert ((1 - 2 * p) * (1 - 2 * p) <= 1) by nra. pose proof (Rle_0_sqr x). pose proof (Rle_0_sqr y). unfold Rsqr in *. nra.
  - destruct (Ascii.eqb_spec c "B") as [->|NB].
    + replace (("B" =? "D")%char) with false by reflexivity. replace (("B" =? "A")%char) with false by reflexivity.
      assert ((1 - 2 * p) * (1 - 2 * p) <= 1) by nra. pose proof (Rle_0_sqr z). pose proof (Rle_0_sqr y). unfold Rsqr in *. nra.
    + destruct (Ascii.eqb_spec c "D") as [->|ND].
      * assert ((1 - p) * (1 - p) <= 1) by nra. pose proof (Rle_0_sqr z). pose proof (Rle_0_sqr y). pose proof (Rle_0_sqr x). unfold Rsqr in *. nra.
      * destruct (Ascii.eqb_spec c "A") as [->|NA]; [|lra].
        assert (S2 : sqrt (1 - p) * sqrt (1 - p) = 1 - p) by (apply sqrt_sqrt; lra). replace (sqrt (1 - p) * x * (sqrt (1 - p) * x)) with ((1 - p) * (x * x)) by (transitivity (sqrt (1 - p) * sqrt (1 - p) * (x * x)); [rewrite S2; ring|ring]).
        replace (sqrt (1 - p) * y * (sqrt (1 - p) * y)) with ((1 - p) * (y * y)) by (transitivity (sqrt (1 - p) * sqrt (1 - p) * (y * y)); [rewrite S2; ring|ring]).
        assert (z * z <= 1) by (pose proof (Rle_0_sqr y); pose proof (Rle_0_sqr x); unfold Rsqr in *; nra). assert (z <= 1) by nra.
        assert (0 <= p * (1 - p) * ((1 - z) * (1 - z))) by (apply Rmult_le_pos; [nra|apply Rle_0_sqr]). nra.
Qed.
Theorem C73_physical s p nm g : 0 <= p <= 1 -> create_noise_model s p = Model nm -> In g singles -> exists e, noise_on nm g = [e] /\
  (forall x y z, x * x + y * y + z * z <= 1 -> let '(x', y', z') := e (x, y, z) in x' * x' + y' * y' + z' * z' <= 1) /\ (p = 0 -> forall v, e v = v).
Proof.
  intros P E I. destruct (C73_channel s p nm g E I) as (e & N & A). exists e. split; auto. split.
  - intros x y z B. rewrite A. clear - P B. revert x y z B. induction (letters s) as [|c l IH]; intros x y z B; cbn [map prod fold_right fold_left].
    + now rewrite !Rmult_1_l.
    + specialize (IH (fx p c * x) (fy p c * y) (fz p c z) (letter_ball p c x y z P B)). unfold prod in IH.
      replace (fx p c * fold_right Rmult 1 (map (fx p) l) * x) with (fold_right Rmult 1 (map (fx p) l) * (fx p c * x)) by ring.
      replace (fy p c * fold_right Rmult 1 (map (fy p) l) * y) with (fold_right Rmult 1 (map (fy p) l) * (fy p c * y)) by ring. exact IH.
  - intros P0 [[x y] z]. rewrite A. clear - P0. subst p. f_equal; [f_equal|].
    + replace (prod (map (fx 0) (letters s))) with 1; [ring|]. induction (letters s) as [|c l IH]; [reflexivity|]. cbn [map prod fold_right]. fold (prod (map (fx 0) l)). rewrite <- IH. unfold fx.
      repeat match goal with |- context[if ?b then _ else _] => destruct b end; rewrite ?Rminus_0_r, ?sqrt_1, ?Rmult_0_r, ?Rminus_0_r; ring.
    + replace (prod (map (fy 0) (letters s))) with 1; [ring|]. induction (letters s) as [|c l IH]; [reflexivity|]. cbn [map prod fold_right]. fold (prod (map (fy 0) l)). rewrite <- IH. unfold fy.
      repeat match goal with |- context[if ?b then _ else _] => destruct b end; rewrite ?Rminus_0_r, ?sqrt_1, ?Rmult_0_r, ?Rminus_0_r; ring.
    + revert z. induction (letters s) as [|c l IH]; intros z; [reflexivity|]. cbn [fold_left]. rewrite IH. unfold fz. repeat match goal with |- context[if ?b then _ else _] => destruct b end; ring.
Qed.
Print Assumptions C73_physical.
Local Close Scope R_scope.

(* ---- printed results ---- *)
From Coq Require Import Structures.OrderedTypeEx.
Definition no_space (s : string) : Prop := ~ In space (list_ascii_of_string s).
(* what follows the last space: the classical register that Qiskit prints last, which is the one declared first *)
Definition last_register (s t : string) : Prop := no_space t /\ (s = t \/ exists u, s = (u ++ " " ++ t)%string).
Lemma existsb_space l : existsb (Ascii.eqb space) l = true <-> In space l.
Proof. rewrite existsb_exists. split; [intros (x & I & E); apply Ascii.eqb_eq in E; now subst|intros I; exists space; split; auto; apply Ascii.eqb_refl]. Qed.
Lemma last_part_id s : no_space s -> last_part s = s.
Proof.
  unfold no_space. destruct s as [|c r]; [auto|]. cbn [list_ascii_of_string last_part]. intros N. destruct (Ascii.eqb_spec c space) as [->|]; [exfalso; apply N; now left|].
  destruct (existsb (Ascii.eqb space) (list_ascii_of_string r)) eqn:E; auto. apply existsb_space in E. exfalso. apply N. now right.
Qed.
Lemma last_part_spec s : last_register s (last_part s).
Proof.
  induction s as [|c r IH]; [split; [intros []|now left]|]. cbn [last_part]. destruct (Ascii.eqb_spec c space) as [->|NC].
  - destruct IH as [N [E|(u & E)]]; split; auto; right; [exists EmptyString; now rewrite <- E|exists (String space u)]. rewrite E at 1. reflexivity.
  - destruct (existsb (Ascii.eqb space) (list_ascii_of_string r)) eqn:X.
    + apply existsb_space in X. destruct IH as [N [E|(u & E)]]; split; auto; [exfalso; apply N; now rewrite <- E|]. right. exists (String c u). rewrite E at 1. reflexivity.
    + split; [|now left]. intros [E|I]; [contradiction|]. apply existsb_space in I. congruence.
Qed.
Lemma last_register_unique s t : last_register s t -> last_part s = t.
Proof.
  intros [N [->|(u & ->)]]; [now apply last_part_id|]. induction u as [|c u IH]; cbn [append last_part]; [apply last_part_id; auto|].
  destruct (Ascii.eqb c space); [exact IH|]. match goal with |- (if ?b then _ else _) = _ => assert (X : b = true) end; [|rewrite X; exact IH].
  apply existsb_space. clear. induction u; cbn; auto.
Qed.
(* the number of shots whose last register reads k *)
Definition total_for (k : string) (counts : list (string * nat)) : nat := list_sum (map (fun rc => if String.eqb (last_part (fst rc)) k then snd rc else 0) counts).
Definition occurs (k : string) (counts : list (string * nat)) : Prop := exists s n, In (s, n) counts /\ last_register s k.

Lemma dget_dadd k k' n d : dget k (dadd k' n d) = if String.eqb k k' then Some (match dget k d with Some m => m | None => 0 end + n) else dget k d.
Proof.
  induction d as [|[a m] r IH]; cbn [dadd dget].
  - cbn. destruct (String.eqb k k'); auto.
  - destruct (String.eqb_spec k' a) as [->|N1]; cbn [dget]; destruct (String.eqb_spec k a) as [->|N2]; auto.
    destruct (String.eqb_spec a k'); [congruence|auto].
Qed.
Lemma dadd_keys k n d : NoDup (map fst d) -> NoDup (map fst (dadd k n d)) /\ forall x, In x (map fst (dadd k n d)) <-> x = k \/ In x (map fst d).
Proof.
  induction d as [|[a m] r IH]; cbn [dadd map fst]; intros ND.
  - split; [repeat constructor; intros []|]. intros x. cbn. intuition.
  - inversion ND as [|? ? NI ND']; subst. destruct (String.eqb_spec k a) as [->|N]; cbn [map fst].
    + split; [constructor; auto|]. intros x. cbn. intuition.
    + destruct (IH ND') as [A B]. split; [constructor; auto; rewrite B; intuition|]. intros x. cbn. rewrite B. intuition.
Qed.
Lemma summarize_spec counts : let d := summarize counts in NoDup (map fst d) /\ (forall k, In k (map fst d) <-> exists rc, In rc counts /\ last_part (fst rc) = k) /\
  forall k, In k (map fst d) -> dget k d = Some (total_for k counts).
Proof.
  cbv zeta. unfold summarize.
  assert (G : forall cs d, NoDup (map fst d) -> let d' := fold_left (fun d rc => dadd (last_part (fst rc)) (snd rc) d) cs d in
    NoDup (map fst d') /\ (forall k, In k (map fst d') <-> In k (map fst d) \/ exists rc, In rc cs /\ last_part (fst rc) = k) /\
    (forall k, match dget k d' with Some m => m | None => 0 end = match dget k d with Some m => m | None => 0 end + total_for k cs)).
  { induction cs as [|[s n] cs IH]; intros d ND; cbn [fold_left].
    - split; [auto|]. split; [intros k; split; [auto|intros [A|(rc & [] & _)]; auto]|]. intros k. unfold total_for. cbn. lia.
    - destruct (dadd_keys (last_part (fst (s, n))) (snd (s, n)) d ND) as [A B]. destruct (IH _ A) as (C & D & E). split; [auto|]. split; [intros k; split|].
      + intros I. apply D in I as [I|(rc & I & L)]; [apply B in I as [->|I]; [right; exists (s, n); split; [now left|auto]|auto]|right; exists rc; split; [now right|auto]].
      + intros [I|(rc & [<-|I] & L)]; apply D; [left; apply B; auto|left; apply B; auto|right; eauto].
      + intros k. rewrite E, dget_dadd. unfold total_for. cbn [map fst snd list_sum fold_right]. rewrite (String.eqb_sym (last_part s) k).
        destruct (String.eqb k (last_part s)); [destruct (dget k d); cbn; unfold list_sum; lia|destruct (dget k d); cbn; unfold list_sum; lia]. }
  destruct (G counts [] (NoDup_nil _)) as (A & B & C). split; auto. split; [intros k; rewrite B; cbn; tauto|]. intros k I.
  specialize (C k). cbn [dget] in C. assert (X : exists m, dget k (fold_left (fun d rc => dadd (last_part (fst rc)) (snd rc) d) counts []) = Some m).
  { clear - I. induction (fold_left _ counts []) as [|[a m] r IHr]; [destruct I|]. cbn. destruct (String.eqb_spec k a); eauto. destruct I as [E|I]; [cbn in E; congruence|]. auto. }
  destruct X as (m & X). rewrite X in *. cbn in C. congruence.
Qed.

(* ---- sorting ---- *)
Definition slt (a b : string) : Prop := String.compare a b = Lt.
Lemma slt_trans a b c : slt a b -> slt b c -> slt a c.
Proof. unfold slt. intros A B. apply (proj2 (String_as_OT.cmp_lt a c)). apply (String_as_OT.lt_trans a b c); apply String_as_OT.cmp_lt; auto. Qed.
Lemma ins_in x l y : In y (ins x l) <-> y = x \/ In y l.
Proof. induction l as [|a r IH]; cbn; [intuition|]. destruct (sle x a); cbn; [intuition|]. rewrite IH. intuition. Qed.
Lemma ins_sorted x l : ~ In x l -> StronglySorted slt l -> StronglySorted slt (ins x l).
Proof.
  induction l as [|a r IH]; intros N SS; cbn [ins]; [repeat constructor|]. apply StronglySorted_inv in SS as [SS F]. unfold sle. destruct (String.compare x a) eqn:C.
  - apply String_as_OT.cmp_eq in C. exfalso. apply N. now left.
  - constructor; [constructor; auto|]. constructor; auto. rewrite Forall_forall in *. intros y I. apply slt_trans with a; auto.
  - constructor; [apply IH; auto; intros I; apply N; now right|]. apply Forall_forall. intros y I. apply ins_in in I as [->|I]; [|rewrite Forall_forall in F; auto].
    unfold slt. rewrite String.compare_antisym, C. reflexivity.
Qed.
Lemma sorted_spec l : NoDup l -> StronglySorted slt (sorted l) /\ forall x, In x (sorted l) <-> In x l.
Proof.
  induction 1 as [|x l NI ND IH]; [split; [constructor|tauto]|]. destruct IH as [A B]. cbn [sorted fold_right]. fold (sorted l).
  split; [apply ins_sorted; auto; now rewrite B|]. intros y. rewrite ins_in, B. cbn. intuition.
Qed.

(* ---- the loop ---- *)
Section Loop.
Variables (d : list (string * nat)) (n_shots : nat) (t : Q).
Let val k := match dget k d with Some c => c | None => 0 end.
Definition shown (k : string) : bool := above (val k) n_shots t.
(* after the first line: the states above the threshold, up to the 1000th line *)
Lemma loop_filter keys : forall printed, 1 <= printed < 1000 -> print_loop keys d n_shots t printed = firstn (1000 - printed) (map (fun k => (k, val k)) (filter shown keys)).
Proof.
  induction keys as [|k r IH]; intros printed P; cbn [print_loop filter]; [now rewrite firstn_nil|]. fold (val k). fold (shown k). destruct (Nat.eqb_spec printed 0); [lia|]. rewrite orb_false_r.
  destruct (shown k); [|auto]. destruct (1000 - printed) as [|q] eqn:Q; [lia|]. cbn [map firstn]. destruct (Nat.eqb_spec (S printed) 1000).
  - replace q with 0 by lia. reflexivity.
  - rewrite IH by lia. f_equal. f_equal. lia.
Qed.
Lemma loop_all k r : print_loop (k :: r) d n_shots t 0 = (k, val k) :: firstn 999 (map (fun k => (k, val k)) (filter shown r)).
Proof. cbn [print_loop]. rewrite orb_true_r. fold (val k). change (1 =? 1000) with false. cbv iota. now rewrite loop_filter by lia. Qed.
End Loop.

Lemma sorted_sub {A} (lt : A -> A -> Prop) l f : StronglySorted lt l -> StronglySorted lt (filter f l).
Proof. induction 1 as [|x l SS IH F]; cbn; [constructor|]. destruct (f x); auto. constructor; auto. rewrite Forall_forall in *. intros y I. apply filter_In in I as [I _]. auto. Qed.
Lemma sorted_firstn {A} (lt : A -> A -> Prop) l n : StronglySorted lt l -> StronglySorted lt (firstn n l).
Proof. revert n. induction l as [|x l IH]; intros [|n] SS; cbn; try constructor; apply StronglySorted_inv in SS as [SS F]; auto. rewrite Forall_forall in *. intros y I. apply F. rewrite <- (firstn_skipn n l). apply in_or_app. auto. Qed.
Lemma sorted_split {A} (lt : A -> A -> Prop) l n x y : StronglySorted lt l -> In x (firstn n l) -> In y (skipn n l) -> lt x y.
Proof.
  revert n. induction l as [|a l IH]; intros [|n] SS I J; cbn in *; try contradiction. apply StronglySorted_inv in SS as [SS F]. destruct I as [<-|I]; [|eauto].
  rewrite Forall_forall in F. apply F. rewrite <- (firstn_skipn n l). apply in_or_app. auto.
Qed.
(* What is printed: each line is a state of the last register with the number of its shots; the states are in increasing order and at most 1000; every state whose probability exceeds the
   threshold is printed unless 1000 smaller ones are; a line at or below the threshold can only be the first, which is always printed and is the smallest state there is. *)
Theorem C73_results counts n_shots t : 0 < n_shots -> exists lines, print_results counts n_shots t = Some lines /\
  (forall k c, In (k, c) lines -> occurs k counts /\ c = total_for k counts) /\
  StronglySorted slt (map fst lines) /\ List.length lines <= 1000 /\
  (forall k, occurs k counts -> (t < ratio (total_for k counts) n_shots)%Q -> In (k, total_for k counts) lines \/ List.length lines = 1000 /\ forall k' c', In (k', c') lines -> slt k' k) /\
  (forall k c, nth_error lines 0 = Some (k, c) -> forall k', occurs k' counts -> k' = k \/ slt k k') /\
  (forall i k c, nth_error lines (S i) = Some (k, c) -> (t < ratio c n_shots)%Q) /\
  (counts <> [] -> lines <> []).
Proof.
  intros NS. unfold print_results. replace (n_shots =? 0) with false by (symmetry; apply Nat.eqb_neq; lia). cbn [andb]. eexists. split; [reflexivity|].
  destruct (summarize_spec counts) as (ND & KEYS & VAL). set (d := summarize counts) in *. destruct (sorted_spec (map fst d) ND) as [SS SI]. set (keys := sorted (map fst d)) in *.
  assert (OCC : forall k, occurs k counts <-> In k keys).
  { intros k. rewrite SI, KEYS. split.
    - intros (s & n & I & L). exists (s, n). split; auto. apply last_register_unique. auto.
    - intros ([s n] & I & <-). exists s, n. split; auto. apply last_part_spec. }
  assert (VK : forall k, In k keys -> match dget k d with Some c => c | None => 0 end = total_for k counts) by (intros k I; rewrite VAL; auto; now apply SI).
  assert (AB : forall k, In k keys -> shown d n_shots t k = true <-> (t < ratio (total_for k counts) n_shots)%Q).
  { intros k I. unfold shown, above. rewrite VK by auto. rewrite negb_true_iff. split.
    - intros E. apply Qnot_le_lt. intros L. apply Qle_bool_iff in L. congruence.
    - intros L. destruct (Qle_bool _ t) eqn:E; auto. apply Qle_bool_iff in E. exfalso. apply (Qlt_not_le _ _ L). auto. }
  destruct keys as [|k0 r] eqn:EK.
  - cbn [print_loop]. split; [intros k c []|]. split; [constructor|]. split; [cbn; lia|]. split; [intros k O; apply OCC in O as []|]. split; [intros k c E; discriminate|]. split; [intros i k c E; destruct i; discriminate|].
    intros NE _. destruct counts as [|[s n] cs]; [contradiction|]. assert (O : occurs (last_part s) ((s, n) :: cs)) by (exists s, n; split; [now left|apply last_part_spec]). apply OCC in O as [].
  - rewrite loop_all. set (f := fun k => (k, match dget k d with Some c => c | None => 0 end)). apply StronglySorted_inv in SS as [SSr F0]. rewrite Forall_forall in F0.
    assert (INL : forall kc, In kc (firstn 999 (map f (filter (shown d n_shots t) r))) -> exists k, kc = f k /\ In k r /\ shown d n_shots t k = true).
    { intros kc I. assert (J : In kc (map f (filter (shown d n_shots t) r))) by (rewrite <- (firstn_skipn 999 (map f _)); apply in_or_app; auto). apply in_map_iff in J as (k & <- & J). apply filter_In in J as [J1 J2]. eauto. }
    assert (FST : map fst (firstn 999 (map f (filter (shown d n_shots t) r))) = firstn 999 (filter (shown d n_shots t) r)).
    { rewrite <- firstn_map, map_map. cbn [f fst]. now rewrite map_id. }
    split; [|split; [|split; [|split; [|split; [|split]]]]].
    + intros k c [E|I]; [assert (E1 : k0 = k /\ match dget k0 d with Some c => c | None => 0 end = c) by (split; congruence); destruct E1 as [<- <-]; split; [apply OCC; now left|apply VK; now left]|].
      apply INL in I as (k' & E & I & _). assert (E1 : k = k' /\ c = match dget k' d with Some c => c | None => 0 end) by (unfold f in E; split; congruence). destruct E1 as [-> ->]. split; [apply OCC; now right|apply VK; now right].
    + cbn [map fst]. rewrite FST. constructor; [apply sorted_firstn, sorted_sub; auto|]. apply Forall_forall. intros y I. apply F0. assert (J : In y (filter (shown d n_shots t) r)) by (rewrite <- (firstn_skipn 999 (filter _ r)); apply in_or_app; auto). apply filter_In in J. tauto.
    + cbn [List.length]. pose proof (firstn_le_length 999 (map f (filter (shown d n_shots t) r))). lia.
    + intros k O TH. apply OCC in O. destruct O as [<-|I]; [left; left; rewrite VK by (now left); reflexivity|].
      assert (J : In k (filter (shown d n_shots t) r)) by (apply filter_In; split; auto; apply AB; auto; now right). rewrite <- (firstn_skipn 999 (filter _ r)) in J. apply in_app_or in J as [J|J].
      * left. right. rewrite firstn_map. apply in_map_iff. exists k. split; auto. unfold f. f_equal. apply VK. now right.
      * right. split.
        -- cbn [List.length]. rewrite firstn_length, map_length. assert (999 < List.length (filter (shown d n_shots t) r)); [|lia]. apply Nat.nle_gt. intros L. rewrite skipn_all2 in J by auto. destruct J.
        -- intros k' c' [E|I']; [assert (E1 : k0 = k') by congruence; subst k'; apply F0; auto|].
           assert (J' : In k' (firstn 999 (filter (shown d n_shots t) r))) by (rewrite <- FST; apply in_map_iff; exists (k', c'); auto). apply (sorted_split slt (filter (shown d n_shots t) r) 999); auto. apply sorted_sub. auto.
    + cbn [nth_error]. intros k c E k' O. assert (E1 : k0 = k) by congruence. subst k. apply OCC in O as [->|I]; auto.
    + cbn [nth_error]. intros i k c E. apply nth_error_In in E. apply INL in E as (k' & E & I & SH). assert (E1 : k = k' /\ c = match dget k' d with Some c => c | None => 0 end) by (unfold f in E; split; congruence). destruct E1 as [-> ->].
      rewrite VK by (now right). apply AB; auto. now right.
    + discriminate.
Qed.
Print Assumptions C73_results.
(* With the default threshold 0, as main calls it, and at most 1000 states with a positive number of shots: everything is printed, and the numbers add up. *)
Lemma total_pos counts k : (forall s n, In (s, n) counts -> 0 < n) -> occurs k counts -> 0 < total_for k counts.
Proof.
  intros POS (s & n & I & L). apply last_register_unique in L. unfold total_for. induction counts as [|[s' n'] cs IH]; [destruct I|]. cbn [map fst snd list_sum fold_right]. destruct I as [E|I].
  - assert (E1 : s' = s /\ n' = n) by (split; congruence). destruct E1 as [-> ->]. rewrite L, String.eqb_refl. pose proof (POS s n (or_introl eq_refl)). lia.
  - assert (0 < list_sum (map (fun rc => if String.eqb (last_part (fst rc)) k then snd rc else 0) cs)) by (apply IH; auto; intros; eapply POS; right; eauto). unfold list_sum in *. lia.
Qed.
Lemma ratio_pos c n : 0 < c -> 0 < n -> (0 < ratio c n)%Q.
Proof. intros C N. unfold ratio. apply Qlt_shift_div_l; [unfold Qlt; cbn; lia|]. rewrite Qmult_0_l. unfold Qlt. cbn. lia. Qed.
Lemma sum_split keys counts : NoDup keys -> (forall rc, In rc counts -> In (last_part (fst rc)) keys) -> list_sum (map (fun k => total_for k counts) keys) = list_sum (map snd counts).
Proof.
  intros ND H. induction counts as [|[s n] cs IH]; [unfold total_for; cbn; clear; induction keys; cbn; auto|]. cbn [map snd list_sum fold_right]. fold (list_sum (map snd cs)). rewrite <- IH by (intros; apply H; now right).
  assert (I : In (last_part s) keys) by (apply (H (s, n)); now left). clear - ND I. unfold total_for. cbn [map fst snd list_sum fold_right].
  induction ND as [|k keys NI ND IH]; [destruct I|]. cbn [map list_sum fold_right] in *. unfold list_sum in *. destruct I as [->|I].
  - rewrite String.eqb_refl. enough (E : fold_right Nat.add 0 (map (fun k => (if String.eqb (last_part s) k then n else 0) + fold_right Nat.add 0 (map (fun rc => if String.eqb (last_part (fst rc)) k then snd rc else 0) cs)) keys) =
      fold_right Nat.add 0 (map (fun k => fold_right Nat.add 0 (map (fun rc => if String.eqb (last_part (fst rc)) k then snd rc else 0) cs)) keys)) by lia.
    f_equal. apply map_ext_in. intros k I. destruct (String.eqb_spec (last_part s) k); [subst; contradiction|]. reflexivity.
  - rewrite (IH I). destruct (String.eqb_spec (last_part s) k); [subst; contradiction|]. lia.
Qed.
Theorem C73_results_default counts n_shots : 0 < n_shots -> (forall s n, In (s, n) counts -> 0 < n) -> (forall l, NoDup l -> (forall k, In k l -> occurs k counts) -> List.length l <= 1000) ->
  exists lines, print_results counts n_shots 0 = Some lines /\ (forall k, occurs k counts <-> In k (map fst lines)) /\ NoDup (map fst lines) /\
    (forall k c, In (k, c) lines -> c = total_for k counts) /\ list_sum (map snd lines) = list_sum (map snd counts).
Proof.
  intros NS POS FEW. destruct (C73_results counts n_shots 0 NS) as (lines & E & A & B & C & D & _). exists lines. split; auto.
  assert (ND : NoDup (map fst lines)).
  { clear - B. induction B as [|x l SS IH F]; constructor; auto. intros I. rewrite Forall_forall in F. specialize (F x I). pose proof (proj2 (String_as_OT.cmp_eq x x) eq_refl) as X. unfold slt in F. unfold String_as_OT.cmp in X. congruence. }
  assert (OCC : forall k, occurs k counts <-> In k (map fst lines)).
  { intros k. split.
    - intros O. assert (IND : In k (map fst lines) \/ ~ In k (map fst lines)) by (destruct (in_dec string_dec k (map fst lines)); auto). destruct IND as [|NI]; auto. exfalso.
      destruct (D k O) as [I|[L I]]; [apply ratio_pos; auto; apply total_pos; auto|apply NI; apply in_map_iff; eexists; split; [|exact I]; reflexivity|].
      specialize (FEW (k :: map fst lines)). cbn [List.length] in FEW. rewrite map_length, L in FEW. assert (1001 <= 1000); [|lia]. apply FEW; [constructor; auto|]. intros x [<-|Ix]; auto. apply in_map_iff in Ix as ([k' c'] & <- & Ix). apply (A k' c'); auto.
    - intros I. apply in_map_iff in I as ([k' c'] & <- & I). apply (A k' c'); auto. }
  repeat split; auto; [apply OCC|apply OCC|intros k c I; apply A; auto|].
  rewrite <- (sum_split (map fst lines) counts ND).
  - rewrite map_map. f_equal. apply map_ext_in. intros [k c] I. cbn. apply A. auto.
  - intros [s n] I. apply OCC. exists s, n. split; auto. apply last_part_spec.
Qed.
Print Assumptions C73_results_default.

(* ---- main ---- *)
(* Exporting and simulating differ in the last event only: what is exported is the circuit that would be simulated.  The noise letters are checked exactly if the probability is positive, also when exporting. *)
Theorem C73_export (circuit : Type) has_measure measure_all apply_ecc (a : args circuit) : a_export _ a = false ->
  let a' := {| a_m := a_m _ a; a_p := a_p _ a; a_positive := a_positive _ a; a_circ := a_circ _ a; a_export := true; a_ecc := a_ecc _ a; a_fq := a_fq _ a |} in
  (forall evs, main circuit has_measure measure_all apply_ecc a = Fail circuit evs <-> main circuit has_measure measure_all apply_ecc a' = Fail circuit evs) /\
  (forall w c, (exists nm, main circuit has_measure measure_all apply_ecc a = Done circuit (w ++ [Simulate circuit c nm])) <-> main circuit has_measure measure_all apply_ecc a' = Done circuit (w ++ [Export circuit c])).
Proof.
  intros EX a'. unfold main. cbn [a' a_m a_p a_positive a_circ a_export a_ecc a_fq]. rewrite EX. destruct (if a_positive circuit a then _ else _) as [nm| |]; [|split; [tauto|split; [intros (nm & X); discriminate|discriminate]]..].
  destruct (if String.eqb _ "none" then _ else _) as [c|]; [|split; [tauto|split; [intros (nm' & X); discriminate|discriminate]]]. split; [split; discriminate|]. intros w c'. split.
  - intros (nm' & E). assert (E1 : (if has_measure (a_circ circuit a) then [] else [WarnNoMeasure circuit]) ++ [Simulate circuit c nm] = w ++ [Simulate circuit c' nm']) by congruence. apply app_inj_tail in E1 as [<- E1]. injection E1 as -> _. reflexivity.
  - intros E. exists nm. assert (E1 : (if has_measure (a_circ circuit a) then [] else [WarnNoMeasure circuit]) ++ [Export circuit c] = w ++ [Export circuit c']) by congruence. apply app_inj_tail in E1 as [<- E1]. injection E1 as ->. reflexivity.
Qed.
Print Assumptions C73_export.
(* The circuit that is simulated has measurements if measure_all adds one and error correction keeps them; the noise is that of the letters, or none when the probability is not positive. *)
Theorem C73_main (circuit : Type) has_measure measure_all apply_ecc (a : args circuit) w c nm :
  (forall x, has_measure (measure_all x) = true) -> (forall x code f y, apply_ecc x code f = Some y -> has_measure x = true -> has_measure y = true) ->
  main circuit has_measure measure_all apply_ecc a = Done circuit (w ++ [Simulate circuit c nm]) ->
  has_measure c = true /\ (w <> [] <-> has_measure (a_circ _ a) = false) /\ (if a_positive _ a then create_noise_model (a_m _ a) (a_p _ a) = Model nm else forall g, noise_on nm g = []).
Proof.
  intros M EC. unfold main. destruct (if a_positive circuit a then _ else _) as [nm'| |] eqn:EN; try discriminate.
  destruct (if String.eqb _ "none" then _ else _) as [c'|] eqn:E2; [|discriminate]. intros E. destruct (a_export circuit a).
  { exfalso. assert (E1 : (if has_measure (a_circ circuit a) then [] else [WarnNoMeasure circuit]) ++ [Export circuit c'] = w ++ [Simulate circuit c nm]) by congruence. apply app_inj_tail in E1 as [_ E1]. discriminate. }
  assert (E1 : (if has_measure (a_circ circuit a) then [] else [WarnNoMeasure circuit]) ++ [Simulate circuit c' nm'] = w ++ [Simulate circuit c nm]) by congruence. apply app_inj_tail in E1 as [<- E1]. injection E1 as -> ->. split; [|split].
  - assert (HM : has_measure (if has_measure (a_circ circuit a) then a_circ circuit a else measure_all (a_circ circuit a)) = true) by (destruct (has_measure (a_circ circuit a)) eqn:HM; auto).
    destruct (String.eqb (lower (a_ecc circuit a)) "none"); [injection E2 as <-; exact HM|]. apply (EC _ _ _ _ E2 HM).
  - destruct (has_measure (a_circ circuit a)); split; congruence.
  - destruct (a_positive circuit a); [exact EN|]. injection EN as <-. reflexivity.
Qed.
Print Assumptions C73_main.

(* A concrete case: two registers, three results, the first state is printed although it is below the threshold. *)
Example C73_nonvacuous :
  (exists nm, create_noise_model "BDP" (1 / 100) = Model nm) /\ create_noise_model "BXQ" (1 / 100) = ValueError "X" /\
  print_results [("11 1"%string, 3); ("00 1"%string, 5); ("01 0"%string, 1)] 9 (1 # 2) = Some [("0"%string, 1); ("1"%string, 8)] /\
  print_results [("11 1"%string, 3); ("00 1"%string, 5); ("01 0"%string, 1)] 9 (9 # 10) = Some [("0"%string, 1)].
Proof. split; [eexists; reflexivity|]. repeat split. Qed.
