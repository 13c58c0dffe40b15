(** * C64: hashing and == of code objects *)
From Coq Require Import List Arith Bool ZArith Lia Permutation String.
From Verif Require Import StabProofs StabProofs3 CssProofs PropStab PropCss ColorProofs ColorProofs2 HashModel.
Import ListNotations.
Local Open Scope nat_scope.

Lemma from_le_app a b : from_le (a ++ b) = (from_le a + 256 ^ Z.of_nat (List.length a) * from_le b)%Z.
Proof. induction a as [|x a IH]; [cbn [app List.length]; change (from_le []) with 0%Z; change (256 ^ Z.of_nat 0)%Z with 1%Z; ring|]. cbn [app from_le fold_right List.length]. fold (from_le a) (from_le (a ++ b)). rewrite IH.
  rewrite Nat2Z.inj_succ, Z.pow_succ_r by lia. ring. Qed.
Lemma from_le_zeros k : from_le (repeat 0%Z k) = 0%Z.
Proof. induction k as [|k IH]; [reflexivity|]. cbn [repeat from_le fold_right]. fold (from_le (repeat 0%Z k)). rewrite IH. reflexivity. Qed.
(** little-endian value of a sequence of entries *)
Fixpoint val (bw : nat) (l : vec) : Z := match l with [] => 0%Z | b :: l' => (Z.b2z b + 256 ^ Z.of_nat bw * val bw l')%Z end.
Lemma val_inj bw l1 : 1 <= bw -> forall l2, List.length l1 = List.length l2 -> val bw l1 = val bw l2 -> l1 = l2.
Proof. intros B. induction l1 as [|a l1 IH]; intros [|b l2] L E; try discriminate; [reflexivity|]. cbn [val] in E. injection L as L.
  replace bw with (S (bw - 1)) in E by lia. rewrite Nat2Z.inj_succ, Z.pow_succ_r in E by lia.
  assert (a = b) as -> by (destruct a, b; cbn [Z.b2z] in E; try reflexivity; exfalso; lia). f_equal. apply IH; auto.
  replace bw with (S (bw - 1)) by lia. assert (256 ^ Z.of_nat (bw - 1) > 0)%Z by (apply Z.lt_gt, Z.pow_pos_nonneg; lia). nia. Qed.
Lemma key_le bw l : 1 <= bw -> from_le (concat (map (entryBytes false bw) l)) = val bw l.
Proof. intros B. induction l as [|b l IH]; [reflexivity|]. cbn [map concat val]. rewrite from_le_app, IH. unfold entryBytes. cbn [from_le fold_right List.length]. fold (from_le (repeat 0%Z (bw - 1))).
  rewrite from_le_zeros, repeat_length. replace (S (bw - 1)) with bw by lia. ring. Qed.
Lemma big_rev bw (l : vec) : rev (concat (map (entryBytes true bw) l)) = concat (map (entryBytes false bw) (rev l)).
Proof. induction l as [|b l IH]; [reflexivity|]. cbn [map concat rev]. rewrite rev_app_distr, IH, map_app, concat_app. cbn [map concat]. rewrite app_nil_r. f_equal. unfold entryBytes. apply rev_involutive. Qed.
Lemma key_val big bw m : 1 <= bw -> from_bytes big (tobytes big bw m) = val bw (if big then rev (concat m) else concat m).
Proof. intros B. unfold from_bytes, tobytes. destruct big; [rewrite big_rev|]; now apply key_le. Qed.
Lemma concat_inj n (m1 : list vec) : forall m2, wf n m1 -> wf n m2 -> List.length m1 = List.length m2 -> concat m1 = concat m2 -> m1 = m2.
Proof. induction m1 as [|r m1 IH]; intros [|r2 m2] W1 W2 L E; try discriminate; [reflexivity|]. inversion W1; subst. inversion W2; subst. cbn [concat] in E.
  assert (List.length r = List.length r2) by congruence.
  assert (r = r2) by (apply (f_equal (firstn (List.length r))) in E; rewrite firstn_app, firstn_all, Nat.sub_diag in E; cbn in E; rewrite app_nil_r in E; rewrite H, firstn_app, firstn_all, Nat.sub_diag in E; cbn in E; now rewrite app_nil_r in E).
  subst. f_equal. apply IH; auto. now apply app_inv_head in E. Qed.
Lemma key_inj big bw n m1 m2 : 1 <= bw -> wf n m1 -> wf n m2 -> List.length m1 = List.length m2 ->
  (from_bytes big (tobytes big bw m1) = from_bytes big (tobytes big bw m2) <-> m1 = m2).
Proof. intros B W1 W2 L. split; [|now intros ->]. rewrite !key_val by auto. intros E. apply val_inj in E; auto.
  - apply (concat_inj n); auto. destruct big; auto. apply (f_equal (@rev bool)) in E. now rewrite !rev_involutive in E.
  - assert (C : forall m, wf n m -> List.length (concat m) = List.length m * n). { clear. induction m as [|r m IH]; intros W; [reflexivity|]. inversion W; subst. cbn [concat List.length]. rewrite app_length, IH by auto. lia. }
    destruct big; rewrite ?rev_length, !C, L by auto; reflexivity. Qed.

Lemma gens_str w gs d Lz Lx c : (1 <= w)%Z -> StabilizerCode w (Strs gs) d (optStrs Lz) (optStrs Lx) = Ret c ->
  sc_gens c = map binsp (map parse gs) /\ wf (2 * sc_n c + 1) (sc_gens c).
Proof. intros W E. destruct (C10_fields w gs d Lz Lx c W E) as (A & _ & _ & _ & G). split; [rewrite G, map_map; reflexivity|].
  rewrite G. apply Forall_forall. intros v Hv. apply in_map_iff in Hv as (g & <- & Hg). destruct (A g Hg) as [L _]. pose proof (binsp_length (parse g)) as B. unfold binsp in B. rewrite B, L. reflexivity. Qed.
Lemma code_eq_mat n c1 c2 : wf n (sc_gens c1) -> wf n (sc_gens c2) -> sc_gens c1 <> [] -> sc_gens c2 <> [] ->
  (forall v, span n (sc_gens c1) v <-> span n (sc_gens c2) v) -> code_eq c1 c2 = Ret true.
Proof. intros W1 W2 N1 N2 S. assert (A : forall m, wf n m -> m <> [] -> npWidth m = n) by (intros [|r m] W N; [congruence|inversion W; subst; reflexivity]).
  assert (WA : wf n (sc_gens c1 ++ sc_gens c2)) by (apply wf_app; auto).
  assert (NA : sc_gens c1 ++ sc_gens c2 <> []) by (destruct (sc_gens c1); [congruence|discriminate]).
  unfold code_eq. rewrite !(A _ W1), !(A _ W2) by auto. rewrite (rk_span n _ _ W1 W2 S) at 1. rewrite Nat.eqb_refl. unfold vstack. rewrite (A _ W1), (A _ W2), Nat.eqb_refl by auto. cbn [pbind].
  rewrite (A _ WA NA). f_equal. apply Nat.eqb_eq. apply rk_span; auto. intros v. split; intros K.
  - revert K. apply span_incl_in; auto. intros x Hx. apply in_or_app. auto.
  - revert K. apply span_incl; auto. intros x Hx. apply in_app_or in Hx as [Hx|Hx]; [now apply span_in|]. apply S. now apply span_in. Qed.

(** the hashed integer determines the generators, in their order, among arrays of one shape and entry size *)
Theorem C64_key : forall big bw w gs1 d1 Lz1 Lx1 c1 gs2 d2 Lz2 Lx2 c2, 1 <= bw -> (1 <= w)%Z ->
  StabilizerCode w (Strs gs1) d1 (optStrs Lz1) (optStrs Lx1) = Ret c1 -> StabilizerCode w (Strs gs2) d2 (optStrs Lz2) (optStrs Lx2) = Ret c2 ->
  sc_n c1 = sc_n c2 -> List.length gs1 = List.length gs2 ->
  (stab_key big bw c1 = stab_key big bw c2 <-> map binsp (map parse gs1) = map binsp (map parse gs2)).
Proof. intros big bw w gs1 d1 Lz1 Lx1 c1 gs2 d2 Lz2 Lx2 c2 B W E1 E2 N L. destruct (gens_str _ _ _ _ _ _ W E1) as [G1 F1]. destruct (gens_str _ _ _ _ _ _ W E2) as [G2 F2].
  unfold stab_key. rewrite <- G1, <- G2. apply (key_inj big bw (2 * sc_n c1 + 1)); auto; [now rewrite N|]. now rewrite G1, G2, !map_length. Qed.
Print Assumptions C64_key.
(** the generators in another order: an equal code, but another integer is hashed *)
Theorem C64_reordered : forall big bw w gs1 d1 Lz1 Lx1 c1 gs2 d2 Lz2 Lx2 c2, 1 <= bw -> (1 <= w)%Z ->
  StabilizerCode w (Strs gs1) d1 (optStrs Lz1) (optStrs Lx1) = Ret c1 -> StabilizerCode w (Strs gs2) d2 (optStrs Lz2) (optStrs Lx2) = Ret c2 ->
  Permutation gs1 gs2 -> py_eq (OStab bw c1) (OStab bw c2) = Ret true /\
  (stab_key big bw c1 = stab_key big bw c2 <-> map binsp (map parse gs1) = map binsp (map parse gs2)).
Proof. intros big bw w gs1 d1 Lz1 Lx1 c1 gs2 d2 Lz2 Lx2 c2 B W E1 E2 P.
  assert (N : sc_n c1 = sc_n c2).
  { destruct (C10_fields _ _ _ _ _ _ W E1) as (A1 & _). destruct (C10_fields _ _ _ _ _ _ W E2) as (A2 & _).
    destruct gs1 as [|g gs1]; [discriminate E1|]. destruct (A1 g (or_introl eq_refl)) as [<- _]. apply A2. apply (Permutation_in _ P). now left. }
  split; [|apply (C64_key big bw w gs1 d1 Lz1 Lx1 c1 gs2 d2 Lz2 Lx2 c2); auto; now apply Permutation_length].
  destruct (C09_eq_iff_same_span w gs1 d1 Lz1 Lx1 c1 gs2 d2 Lz2 Lx2 c2 W E1 E2 N) as (b & EB & IB). cbn [py_eq]. rewrite EB. f_equal. apply IB. intros v.
  assert (P' : Permutation (map binsp (map parse gs1)) (map binsp (map parse gs2))) by now do 2 apply Permutation_map.
  destruct (gens_str _ _ _ _ _ _ W E1) as [G1 F1]. destruct (gens_str _ _ _ _ _ _ W E2) as [G2 F2]. rewrite <- N, G2 in F2. rewrite G1 in F1.
  apply span_perm; auto. intros x; split; apply Permutation_in; auto. now apply Permutation_sym. Qed.
Print Assumptions C64_reordered.
(** not so: equal codes with different hashes; a set keeps both and a lookup misses *)
Theorem C64_set_refuted : exists c1 c2, StabilizerCode 64 (Strs [str "XX"; str "ZZ"]) None None None = Ret c1 /\ StabilizerCode 64 (Strs [str "ZZ"; str "XX"]) None None None = Ret c2 /\
  forall big hb, py_eq (OStab 8 c1) (OStab 8 c2) = Ret true /\ py_hash big hb (OStab 8 c1) <> py_hash big hb (OStab 8 c2) /\
    py_in big hb (OStab 8 c2) [OStab 8 c1] = Ret false /\ py_add big hb (OStab 8 c2) [OStab 8 c1] = Ret [OStab 8 c1; OStab 8 c2].
Proof. eexists. eexists. split; [reflexivity|]. split; [reflexivity|]. intros [] hb; repeat split; try reflexivity; vm_compute; discriminate. Qed.
Print Assumptions C64_set_refuted.
(** the same generators given as strings and through check matrices: equal, but with different hashes (entries of 8 and of 1 byte) *)
Theorem C64_dtype_refuted : forall L, exists c1 c2, StabilizerCode 64 (Strs [str "XX"; str "ZZ"]) (Some 2%Z) None None = Ret c1 /\
  CSSCode L 2 (Some (mkNd 2 [[true; true]])) (Some (mkNd 2 [[true; true]])) None None = Ret c2 /\ sc_gens c1 = sc_gens (css_stab c2) /\
  forall big hb, py_eq (OStab 8 c1) (OStab 1 (css_stab c2)) = Ret true /\ py_hash big hb (OStab 8 c1) <> py_hash big hb (OStab 1 (css_stab c2)).
Proof. intros L. eexists. eexists. split; [reflexivity|]. split; [reflexivity|]. split; [reflexivity|]. intros [] hb; split; try reflexivity; vm_compute; discriminate. Qed.
Print Assumptions C64_dtype_refuted.

Lemma code_eq_total n c1 c2 : wf n (sc_gens c1) -> wf n (sc_gens c2) -> sc_gens c1 <> [] -> sc_gens c2 <> [] -> exists b, code_eq c1 c2 = Ret b.
Proof. intros W1 W2 N1 N2. assert (A : forall m, wf n m -> m <> [] -> npWidth m = n) by (intros [|r m] W N; [congruence|inversion W; subst; reflexivity]).
  unfold code_eq. destruct (_ =? _); [|eauto]. unfold vstack. rewrite (A _ W1), (A _ W2), Nat.eqb_refl by auto. cbn [pbind]. eauto. Qed.
(** what is found is equal; and an object with the same generators and entry size is found *)
Theorem C64_lookup_sound : forall big hb x s, py_in big hb x s = Ret true -> exists y, In y s /\ py_hash big hb y = py_hash big hb x /\ py_eq y x = Ret true.
Proof. intros big hb x. induction s as [|y s IH]; cbn [py_in]; [discriminate|]. destruct (Z.eqb_spec (py_hash big hb y) (py_hash big hb x)) as [E|E].
  - destruct (py_eq y x) as [[]|] eqn:Q; cbn [pbind]; intros K; [exists y; cbn; auto| |discriminate]. destruct (IH K) as (z & Hz & P). exists z. cbn. auto.
  - intros K. destruct (IH K) as (z & Hz & P). exists z. cbn. auto. Qed.
Print Assumptions C64_lookup_sound.
Theorem C64_lookup_same_generators : forall big hb n bw c s, wf n (sc_gens c) -> sc_gens c <> [] ->
  (forall y, In y s -> exists bw' c', y = OStab bw' c' /\ wf n (sc_gens c') /\ sc_gens c' <> []) ->
  (exists c', In (OStab bw c') s /\ sc_gens c' = sc_gens c) -> py_in big hb (OStab bw c) s = Ret true.
Proof. intros big hb n bw c s W N. induction s as [|y s IH]; intros A (c' & Hc & EG); [contradiction|]. cbn [py_in].
  destruct (A y (or_introl eq_refl)) as (bw' & cy & -> & Wy & Ny).
  assert (REST : In (OStab bw c') s -> py_in big hb (OStab bw c) s = Ret true) by (intros H; apply IH; [intros y Hy; apply A; now right|now exists c']).
  destruct (code_eq_total n cy c Wy W Ny N) as (b & EB).
  destruct Hc as [EQ|Hc].
  - injection EQ as -> ->. replace (py_hash big hb (OStab bw c') =? py_hash big hb (OStab bw c))%Z with true by (symmetry; apply Z.eqb_eq; cbn [py_hash]; unfold stab_key; now rewrite EG).
    cbn [py_eq]. rewrite (code_eq_mat n) by (rewrite ?EG; auto; tauto). reflexivity.
  - destruct (_ =? _)%Z; [|auto]. cbn [py_eq]. rewrite EB. destruct b; cbn [pbind]; auto. Qed.
Print Assumptions C64_lookup_same_generators.

(** color codes: equality is equality of the check matrix, equal codes have equal hashes whatever Python's hash of bytes, and sets and dictionaries work *)
Lemma cc_eq_iff a b : cc_eq a b = true <-> nd_cols (cc_H a) = nd_cols (cc_H b) /\ nd_rows (cc_H a) = nd_rows (cc_H b).
Proof. unfold cc_eq. rewrite Bool.andb_true_iff, Nat.eqb_eq. destruct (list_eq_dec vec_eq_dec (nd_rows (cc_H a)) (nd_rows (cc_H b))); intuition congruence. Qed.
Theorem C64_color : forall big hb bw, (forall a b, py_eq (OColor bw a) (OColor bw b) = Ret true <-> cc_H a = cc_H b) /\
  (forall a b, py_eq (OColor bw a) (OColor bw b) = Ret true -> py_hash big hb (OColor bw a) = py_hash big hb (OColor bw b)) /\
  (forall x s, (forall y, In y s -> exists c, y = OColor bw c) ->
     exists r, py_in big hb (OColor bw x) s = Ret r /\ (r = true <-> exists c, In (OColor bw c) s /\ cc_H c = cc_H x)).
Proof. intros big hb bw.
  assert (I : forall a b, py_eq (OColor bw a) (OColor bw b) = Ret true <-> cc_H a = cc_H b).
  { intros a b. cbn [py_eq]. split; intros K; [injection K as K; apply cc_eq_iff in K; destruct K, (cc_H a), (cc_H b); cbn in *; congruence|]. f_equal. apply cc_eq_iff. now rewrite K. }
  assert (Hh : forall a b, cc_H a = cc_H b -> py_hash big hb (OColor bw a) = py_hash big hb (OColor bw b)) by (intros a b E; cbn [py_hash]; now rewrite E).
  split; [exact I|]. split; [intros a b K; apply Hh; now apply I|]. intros x. induction s as [|y s IH]; intros A.
  - exists false. split; [reflexivity|]. split; [discriminate|]. intros (c & [] & _).
  - destruct IH as (r & ER & IR); [intros y' H; apply A; now right|]. destruct (A y (or_introl eq_refl)) as (cy & ->). cbn [py_in].
    destruct (py_eq (OColor bw cy) (OColor bw x)) as [b|] eqn:Q; [|discriminate]. destruct b.
    + pose proof (proj1 (I cy x) Q) as E. rewrite (Hh _ _ E), Z.eqb_refl. cbn [pbind]. exists true. split; [reflexivity|]. split; auto. intros _. exists cy. cbn. auto.
    + exists r. split; [destruct (_ =? _)%Z; cbn [pbind]; auto|]. rewrite IR. split; intros (c & Hc & E).
      * exists c. cbn. auto.
      * exists c. split; auto. destruct Hc as [K|]; auto. injection K as ->. apply I in E. congruence. Qed.
Print Assumptions C64_color.
(** a color code equals the CSS code of its check matrix, from either side *)
Theorem C64_mixed : forall L distance n lay c c' bw bw', ldpc_ok L -> wf n (lay_H lay) -> ColorCode L distance n lay = Ret c ->
  CSSCode L distance (Some (mkNd n (lay_H lay))) (Some (mkNd n (lay_H lay))) None None = Ret c' ->
  py_eq (OColor bw c) (OStab bw' (css_stab c')) = Ret true /\ py_eq (OStab bw' (css_stab c')) (OColor bw c) = Ret true.
Proof. intros L distance n lay c c' bw bw' OL W EC E. unfold ColorCode in EC. rewrite E in EC. cbn [pbind] in EC. injection EC as <-. cbn [py_eq cc_css].
  assert (G : sc_gens (css_stab c') = css_generators (mkNd n (lay_H lay)) (mkNd n (lay_H lay)) /\ sc_gens (css_stab c') <> []).
  { unfold CSSCode in E. destruct (check_valid_check_matrices _ _); [|discriminate]. cbn [pbind] in E. unfold StabilizerCode in E.
    destruct (css_generators _ _) as [|g0 gs] eqn:EG; [discriminate|]. destruct (check_stabilizer_generators _); [|discriminate]. cbn [pbind] in E.
    unfold paulis_to_binary in E. destruct (npRect (g0 :: gs)) as [m|] eqn:ER; [|discriminate]. cbn [pbind] in E.
    assert (m = g0 :: gs) as -> by (unfold npRect in ER; destruct (forallb _ _) in ER; congruence).
    cbn [dropPhase pbind] in E. destruct (distance <=? 0)%Z; [discriminate|]. cbn [optLogicals check_code_correct pbind] in E. destruct ((_ || _)%bool); [discriminate|].
    injection E as <-. cbn [css_stab sc_gens]. split; [congruence|discriminate]. }
  destruct G as [G NE].
  assert (WG : wf (2 * n + 1) (sc_gens (css_stab c'))).
  { rewrite G. unfold css_generators. cbn [nd_cols nd_rows]. apply Forall_forall. intros v Hv. apply in_app_or in Hv as [Hv|Hv]; apply in_map_iff in Hv as (r & <- & Hr);
      pose proof (proj1 (Forall_forall _ _) W r Hr) as Lr; rewrite ?app_length, ?vzero_length; cbn [List.length]; unfold vec in *; rewrite ?app_length, ?vzero_length; cbn [List.length]; lia. }
  split; apply (code_eq_mat (2 * n + 1)); auto; tauto. Qed.
Print Assumptions C64_mixed.
(** == is not transitive: one lattice enumerated in two orders gives unequal color codes that both equal the same CSS code *)
Theorem C64_transitive_refuted : forall L, exists a b s, HexagonalColorCode L 3 (fst (hex_add_qubits 3)) (snd (hex_add_qubits 3)) = Ret a /\
  HexagonalColorCode L 3 (fst (hex_add_qubits 3)) (rev (snd (hex_add_qubits 3))) = Ret b /\
  CSSCode L 3 (Some (cc_H a)) (Some (cc_H a)) None None = Ret s /\
  py_eq (OColor 8 a) (OStab 8 (css_stab s)) = Ret true /\ py_eq (OStab 8 (css_stab s)) (OColor 8 b) = Ret true /\ py_eq (OColor 8 a) (OColor 8 b) = Ret false.
Proof. intros L. eexists. eexists. eexists. split; [reflexivity|]. split; [reflexivity|]. split; [reflexivity|]. repeat split; vm_compute; reflexivity. Qed.
Print Assumptions C64_transitive_refuted.
(** non-vacuity *)
Example C64_nonvacuous : exists c1 c2 a s, StabilizerCode 64 (Strs [str "XX"; str "-ZZ"]) None None None = Raise InvalidStabilizerCodeError /\
  StabilizerCode 64 (Strs [str "+XX"; str "-ZZ"]) None None None = Ret c1 /\ StabilizerCode 64 (Strs [str "-ZZ"; str "+XX"]) None None None = Ret c2 /\
  stab_key false 8 c1 <> stab_key false 8 c2 /\ py_in false (fun _ => 0%Z) (OStab 8 c1) [OStab 8 c2; OStab 8 c1] = Ret true /\
  HexagonalColorCode ldpc_ref 3 (fst (hex_add_qubits 3)) (snd (hex_add_qubits 3)) = Ret a /\
  CSSCode ldpc_ref 3 (Some (cc_H a)) (Some (cc_H a)) None None = Ret s /\ py_eq (OColor 8 a) (OStab 1 (css_stab s)) = Ret true.
Proof. do 4 eexists. split; [reflexivity|]. split; [reflexivity|]. split; [reflexivity|]. split; [vm_compute; discriminate|]. split; [vm_compute; reflexivity|]. split; [reflexivity|]. split; [reflexivity|]. vm_compute; reflexivity. Qed.
