(** * PauliSpec2: printed signed Pauli operators (specification) and facts on generated groups. *)
From Coq Require Import Ascii ZArith.
From Verif Require Export Lin2 PauliSpec.

Inductive sign := NoSign | Plus | Minus.
Definition letter (p : pauli) : ascii :=
  match p with PI => "I"%char | PX => "X"%char | PY => "Y"%char | PZ => "Z"%char end.
(** the textual form of a signed Pauli operator *)
Definition print (sg : sign) (P : list pauli) : list ascii :=
  match sg with NoSign => [] | Plus => ["+"%char] | Minus => ["-"%char] end ++ map letter P.
Definition neg (sg : sign) : bool := match sg with Minus => true | _ => false end.
(** the operator denoted by a sign bit and letters, as a phase (power of i) and letters *)
Definition signed (s : bool) (P : list pauli) : spauli := (if s then 2 else 0, P).
(** binary form with sign column *)
Definition bin (s : bool) (P : list pauli) : vec := symp P ++ [s].

(** reading a string: an optional sign, then one operator per character; a character that is not
    X, Y or Z reads as the identity *)
Definition charP (c : ascii) : pauli :=
  if (c =? "X")%char then PX else if (c =? "Y")%char then PY else if (c =? "Z")%char then PZ else PI.
Definition parse (s : list ascii) : sign * list pauli :=
  match s with
  | [] => (NoSign, [])
  | c :: r => if (c =? "+")%char then (Plus, map charP r) else if (c =? "-")%char then (Minus, map charP r) else (NoSign, map charP s)
  end.
(** exactly one element of the list satisfies P *)
Definition exactly_one {A} (P : A -> Prop) (l : list A) : Prop :=
  exists l1 x l2, l = l1 ++ x :: l2 /\ P x /\ forall y, In y (l1 ++ l2) -> ~ P y.

Lemma app_inj_len {A} (a b c d : list A) : length a = length c -> a ++ b = c ++ d -> a = c /\ b = d.
Proof. revert c; induction a as [|x a IH]; intros [|y c]; simpl; try discriminate; auto.
  intros H E. injection E as -> E. destruct (IH c) as [-> ->]; auto. Qed.

Lemma symp_inj P Q : length P = length Q -> symp P = symp Q -> P = Q.
Proof. intros HL H. unfold symp in H.
  assert (map xbit P = map xbit Q /\ map zbit P = map zbit Q) as [H1 H2].
  { apply app_inj_len; auto. now rewrite !map_length. }
  clear H. revert Q HL H1 H2; induction P as [|a P IH]; intros [|b Q]; simpl; try discriminate; auto.
  intros HL H1 H2. injection H1 as E1 H1. injection H2 as E2 H2. f_equal; [|apply IH; auto].
  destruct a, b; simpl in *; congruence. Qed.

Fixpoint unsymp (x z : vec) : list pauli :=
  match x, z with a :: x', b :: z' => pauli_of a b :: unsymp x' z' | _, _ => [] end.
Lemma symp_unsymp x z : length x = length z -> symp (unsymp x z) = x ++ z.
Proof. unfold symp. intros H.
  assert (map xbit (unsymp x z) = x /\ map zbit (unsymp x z) = z) as [-> ->]; auto.
  revert z H; induction x as [|a x IH]; intros [|b z]; simpl; try discriminate; auto.
  intros H. destruct (IH z) as [-> ->]; [lia|]. destruct a, b; auto. Qed.
Lemma unsymp_length x z : length x = length z -> length (unsymp x z) = length x.
Proof. revert z; induction x as [|a x IH]; intros [|b z]; simpl; auto; try discriminate. Qed.

Lemma symp_vxor P Q : length P = length Q -> symp (snd (pmul P Q)) = vxor (symp P) (symp Q).
Proof. intros H. unfold symp. rewrite vxor_app by (rewrite !map_length; auto).
  assert (map xbit (snd (pmul P Q)) = vxor (map xbit P) (map xbit Q) /\ map zbit (snd (pmul P Q)) = vxor (map zbit P) (map zbit Q)) as [-> ->]; auto.
  revert Q H; induction P as [|a P IH]; intros [|b Q]; simpl; try discriminate; auto.
  intros H. destruct (IH Q) as [I1 I2]; [lia|]. destruct (pmul P Q) as [k R]. destruct (pmul1 a b) as [k1 r] eqn:E. simpl in *.
  rewrite I1, I2. destruct a, b; simpl in E; inversion E; auto. Qed.

Lemma pmul_length P Q : length P = length Q -> length (snd (pmul P Q)) = length P.
Proof. revert Q; induction P as [|a P IH]; intros [|b Q]; simpl; try discriminate; auto.
  intros H. specialize (IH Q ltac:(lia)). destruct (pmul P Q), (pmul1 a b). simpl in *; lia. Qed.

Lemma symp_PI n : symp (repeat PI n) = vzero (2 * n).
Proof. unfold symp. replace (2 * n) with (n + n) by lia. rewrite vzero_app. f_equal;
  (induction n; simpl; [reflexivity | rewrite IHn; reflexivity]). Qed.

Lemma snd_smul g h : snd (smul g h) = snd (pmul (snd g) (snd h)).
Proof. unfold smul. destruct (pmul (snd g) (snd h)); auto. Qed.

Lemma generated_length n G h : Forall (fun g => length (snd g) = n) G -> generated n G h -> length (snd h) = n.
Proof. intros HG. induction 1 as [|g h Hg Hh IH]; simpl; [apply repeat_length|].
  rewrite Forall_forall in HG. specialize (HG g Hg). rewrite snd_smul, pmul_length; lia. Qed.

(** the Paulis that occur in the generated group, ignoring phases, are the span of the symplectic rows *)
Lemma generated_span n G P : Forall (fun g => length (snd g) = n) G -> length P = n ->
  ((exists k, generated n G (k, P)) <-> span (2 * n) (map (fun g => symp (snd g)) G) (symp P)).
Proof. intros HG HP.
  assert (W : wf (2 * n) (map (fun g => symp (snd g)) G)).
  { apply Forall_forall. intros r Hr. apply in_map_iff in Hr as (g & <- & Hg). rewrite Forall_forall in HG.
    rewrite symp_length, (HG g Hg). reflexivity. }
  split.
  - intros [k H].
    assert (L : forall h, generated n G h -> span (2*n) (map (fun g => symp (snd g)) G) (symp (snd h))).
    { clear H. intros h. induction 1 as [|g h Hg Hh IH]; simpl.
      - replace (map xbit _ ++ map zbit _) with (symp (repeat PI n)) by reflexivity. rewrite symp_PI. apply span_zero.
      - rewrite Forall_forall in HG. pose proof (HG g Hg) as Lg.
        assert (Lh : length (snd h) = n). { apply (generated_length n G); auto. now apply Forall_forall. }
        rewrite snd_smul, symp_vxor by lia. apply span_vxor; auto. apply span_in; auto. apply in_map_iff; eauto. }
    apply L in H. exact H.
  - intros H. assert (L : forall v, span (2*n) (map (fun g => symp (snd g)) G) v -> exists k Q, length Q = n /\ symp Q = v /\ generated n G (k, Q)).
    { clear H. intros v Hv. revert Hv. apply (span_ind (2*n) _ (fun v => exists k Q, length Q = n /\ symp Q = v /\ generated n G (k, Q))); auto.
      - exists 0, (repeat PI n). split; [apply repeat_length|]. split; [apply symp_PI | constructor].
      - intros r u Hr _ (k & Q & HQ & Hs & Hg). apply in_map_iff in Hr as (g & <- & Hgi).
        rewrite Forall_forall in HG. pose proof (HG g Hgi) as Lg.
        exists (fst (smul g (k, Q))), (snd (smul g (k, Q))). rewrite snd_smul.
        split; [simpl; rewrite pmul_length; lia|]. split; [simpl; rewrite symp_vxor, Hs by lia; reflexivity|].
        rewrite <- snd_smul. rewrite <- surjective_pairing. constructor; auto. }
    destruct (L _ H) as (k & Q & HQ & Hs & Hg). exists k. replace P with Q; auto. apply symp_inj; auto; lia. Qed.
