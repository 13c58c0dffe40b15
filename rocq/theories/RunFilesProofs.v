(** * RunFilesProofs: the names of result files *)
From Coq Require Import List Arith Bool ZArith Ascii String Lia Permutation.
From Verif Require Import RunFilesModel.
From Verif Require Import TextProofs SaveProofs.
Import ListNotations.
Local Open Scope nat_scope.

Lemma text_eqb_eq a b : text_eqb a b = true <-> a = b.
Proof. unfold text_eqb. destruct (list_eq_dec ascii_dec a b); split; congruence. Qed.
Lemma text_eqb_refl a : text_eqb a a = true.
Proof. now apply text_eqb_eq. Qed.
Lemma text_eqb_neq a b : text_eqb a b = false <-> a <> b.
Proof. unfold text_eqb. destruct (list_eq_dec ascii_dec a b); split; congruence. Qed.
(** ** rounding *)
Definition rounds (p k : Z) : Prop := (2 * Z.abs (10000 * p - k * one) <= one)%Z /\ (2 * Z.abs (10000 * p - k * one) = one -> Z.even k = true)%Z.
Lemma one_pos : (0 < one)%Z.
Proof. unfold one. apply Z.pow_pos_nonneg; lia. Qed.
Lemma one_big : (10000 < one)%Z.
Proof. unfold one. change 10000%Z with (10000 * 1)%Z. change (2 ^ 1074)%Z with (2 ^ (14 + 1060))%Z. rewrite Z.pow_add_r by lia. assert (0 < 2 ^ 1060)%Z by (apply Z.pow_pos_nonneg; lia). change (2 ^ 14)%Z with 16384%Z. lia. Qed.
Global Opaque one.
Lemma even_succ_odd q : Z.even q = false -> Z.even (q + 1) = true.
Proof. intros H. rewrite Z.add_1_r, Z.even_succ, <- Z.negb_even, H. reflexivity. Qed.
Lemma round4_rounds p : rounds p (round4 p).
Proof. pose proof one_pos as P. unfold round4, rounds. pose proof (Z.div_mod (p * 10000) one ltac:(lia)) as D. pose proof (Z.mod_pos_bound (p * 10000) one P) as B. cbv zeta.
  set (q := (p * 10000 / one)%Z) in *. set (r := ((p * 10000) mod one)%Z) in *. clearbody q r. assert (E : (10000 * p = q * one + r)%Z) by lia. rewrite E.
  destruct (Z.ltb_spec (2 * r) one) as [L|L]; [split; intros; lia|]. destruct (Z.eqb_spec (2 * r) one) as [T|T].
  - destruct (Z.even q) eqn:Q; split; try lia; auto. intros _. now apply even_succ_odd.
  - split; intros; lia. Qed.
Lemma rounds_unique p k k' : rounds p k -> rounds p k' -> k = k'.
Proof. pose proof one_pos as P. intros [A B] [A' B']. assert (D : (k = k' \/ (k' = k + 1 \/ k = k' + 1))%Z) by nia. destruct D as [|[->| ->]]; auto.
  - assert (X : (2 * Z.abs (10000 * p - k * one) = one)%Z) by nia. assert (Y : (2 * Z.abs (10000 * p - (k + 1) * one) = one)%Z) by nia. apply B in X. apply B' in Y. rewrite Z.even_add in Y. rewrite X in Y. discriminate.
  - assert (X : (2 * Z.abs (10000 * p - (k' + 1) * one) = one)%Z) by nia. assert (Y : (2 * Z.abs (10000 * p - k' * one) = one)%Z) by nia. apply B in X. apply B' in Y. rewrite Z.even_add in X. rewrite Y in X. discriminate. Qed.
Lemma rounds_range p k : (0 <= p <= one)%Z -> rounds p k -> (0 <= k <= 10000)%Z.
Proof. pose proof one_pos as P. intros H [A _]. nia. Qed.
Lemma rounds_far p p' k k' : rounds p k -> rounds p' k' -> (one < 10000 * (p' - p))%Z -> (k < k')%Z.
Proof. pose proof one_pos as P. intros [A _] [A' _] H. nia. Qed.
(** ** printing *)
Lemma digit_nat z : nat_of_ascii (digit z) = 48 + Z.to_nat (z mod 10).
Proof. unfold digit, digitOf. assert (0 <= z mod 10 < 10)%Z by (apply Z.mod_pos_bound; lia). apply nat_ascii_embedding. lia. Qed.
Lemma digit_inj z z' : digit z = digit z' -> (z mod 10 = z' mod 10)%Z.
Proof. intros E. pose proof (digit_nat z) as A. rewrite E, digit_nat in A. assert (0 <= z mod 10 < 10)%Z by (apply Z.mod_pos_bound; lia). assert (0 <= z' mod 10 < 10)%Z by (apply Z.mod_pos_bound; lia). lia. Qed.
Lemma dropz_spec t : exists n, t = repeat "0"%char n ++ dropz t.
Proof. induction t as [|c t [n E]]; [exists 0; reflexivity|]. cbn [dropz]. destruct (Ascii.eqb c "0" && (0 <? List.length t)) eqn:B; [|exists 0; reflexivity]. apply andb_true_iff in B as [B _]. apply Ascii.eqb_eq in B. subst c. exists (S n). cbn. now rewrite <- E. Qed.
Lemma dropz_inj t t' : List.length t = List.length t' -> dropz t = dropz t' -> t = t'.
Proof. intros L E. destruct (dropz_spec t) as [n A], (dropz_spec t') as [n' A']. rewrite A, A' in L. rewrite !app_length, !repeat_length, E in L. assert (n = n') by lia. subst n'. rewrite A, A', E. reflexivity. Qed.
Lemma decimal_split k : (0 <= k < 10000)%Z -> k = (k mod 10 + 10 * ((k / 10) mod 10) + 100 * ((k / 100) mod 10) + 1000 * ((k / 1000) mod 10))%Z.
Proof. intros H. assert (A : (k / 100 = k / 10 / 10)%Z). { rewrite Z.div_div by lia. reflexivity. } assert (B : (k / 1000 = k / 10 / 10 / 10)%Z). { rewrite !Z.div_div by lia. reflexivity. }
  assert (C : (k / 10 / 10 / 10 / 10 = 0)%Z). { rewrite !Z.div_div by lia. apply Z.div_small. lia. } rewrite A, B.
  pose proof (Z.div_mod k 10 ltac:(lia)). pose proof (Z.div_mod (k / 10) 10 ltac:(lia)). pose proof (Z.div_mod (k / 10 / 10) 10 ltac:(lia)). pose proof (Z.div_mod (k / 10 / 10 / 10) 10 ltac:(lia)). lia. Qed.
Lemma show4_inj k k' : (0 <= k <= 10000)%Z -> (0 <= k' <= 10000)%Z -> show4 k = show4 k' -> k = k'.
Proof. intros H H'. unfold show4. destruct (Z.eqb_spec k 10000) as [->|N], (Z.eqb_spec k' 10000) as [->|N']; [auto|intros E; discriminate E|intros E; discriminate E|].
  intros E. apply app_inv_head in E. apply (f_equal (@rev ascii)) in E. rewrite !rev_involutive in E. apply dropz_inj in E; [|reflexivity]. injection E as E1 E2 E3 E4. apply digit_inj in E1, E2, E3, E4. rewrite (decimal_split k), (decimal_split k') by lia. lia. Qed.
Lemma dropz_in c t : In c (dropz t) -> In c t.
Proof. destruct (dropz_spec t) as [n E]. intros H. rewrite E. apply in_app_iff. auto. Qed.
Lemma digit_isdigit z : isdigit (digit z) = true.
Proof. unfold isdigit. rewrite digit_nat. assert (0 <= z mod 10 < 10)%Z by (apply Z.mod_pos_bound; lia). apply andb_true_iff. rewrite !Nat.leb_le. lia. Qed.
Lemma show4_chars k c : In c (show4 k) -> isdigit c = true \/ c = "."%char.
Proof. unfold show4. destruct (k =? 10000)%Z; [cbn; intuition (subst; auto)|]. rewrite in_app_iff. intros [H|H]; [cbn in H; intuition (subst; auto)|]. apply in_rev, dropz_in in H. left. cbn in H. destruct H as [<-|[<-|[<-|[<-|[]]]]]; apply digit_isdigit. Qed.
Lemma digits_all t z c : digits t z -> In c t -> isdigit c = true.
Proof. intros H. destruct (digits_spec _ _ H) as (A & _ & _). apply (proj1 (forallb_forall _ _) A). Qed.
Lemma showInt_chars z c : In c (showInt z) -> isdigit c = true \/ c = "-"%char.
Proof. unfold showInt. destruct (z <? 0)%Z; [intros [<-|H]; [auto|]|intros H]; left; eapply digits_all; try exact H; apply showNat_digits. Qed.
Lemma showNat_inj n n' : showNat n = showNat n' -> n = n'.
Proof. intros E. destruct (showNat_split n n' [] []) as [X _]; auto; try (apply hd_no_digit; exact I). now rewrite !app_nil_r. Qed.
Lemma showNat_not_minus n t : showNat n = "-"%char :: t -> False.
Proof. intros E. assert (isdigit "-"%char = true); [|discriminate]. eapply digits_all; [apply showNat_digits|]. rewrite E. left. reflexivity. Qed.
Lemma showInt_inj z z' : showInt z = showInt z' -> z = z'.
Proof. unfold showInt. destruct (Z.ltb_spec z 0), (Z.ltb_spec z' 0); intros E.
  - injection E as E. apply showNat_inj in E. lia.
  - symmetry in E. now apply showNat_not_minus in E.
  - now apply showNat_not_minus in E.
  - apply showNat_inj in E. lia. Qed.
Lemma split_at {A} (c : A) a a' s s' : ~ In c a -> ~ In c a' -> a ++ c :: s = a' ++ c :: s' -> a = a' /\ s = s'.
Proof. revert a'. induction a as [|x a IHa]; intros a' H H' E; destruct a' as [|y a']; cbn in E.
  - injection E as E. auto.
  - exfalso. apply H'. left. congruence.
  - exfalso. apply H. left. congruence.
  - assert (X : a ++ c :: s = a' ++ c :: s') by congruence. assert (Y : x = y) by congruence. destruct (IHa a') as [-> ->]; auto; [intros Q; apply H; right; auto|intros Q; apply H'; right; auto|]. subst. auto. Qed.
Lemma comma_int z : ~ In ","%char (showInt z).
Proof. intros H. apply showInt_chars in H as [H|H]; discriminate. Qed.
Lemma comma_show k : ~ In ","%char (show4 k).
Proof. intros H. apply show4_chars in H as [H|H]; discriminate. Qed.
Lemma comma_lattice v l : ~ In ","%char (lattice_text v l).
Proof. destruct v, l; cbn; intuition discriminate. Qed.
Lemma lattice_text_inj v l l' : lattice_text v l = lattice_text v l' -> l = l'.
Proof. destruct v, l, l'; cbn; intros E; auto; discriminate E. Qed.
Lemma filename_inj v l l' a a' : (0 <= a_rate a <= one)%Z -> (0 <= a_rate a' <= one)%Z -> filename v l a = filename v l' a' ->
  l = l' /\ a_distance a = a_distance a' /\ round4 (a_rate a) = round4 (a_rate a') /\ basename (a_solver a) = basename (a_solver a').
Proof. intros R R' E. unfold filename in E. apply app_inv_head in E.
  change (tx ",distance=") with (","%char :: tx "distance=") in E. change (tx ",p=") with (","%char :: tx "p=") in E. change (tx ",solver=") with (","%char :: tx "solver=") in E. cbn [app] in E.
  apply split_at in E as [E1 E]; auto using comma_lattice. apply app_inv_head in E. apply split_at in E as [E2 E]; auto using comma_int. apply app_inv_head in E. apply split_at in E as [E3 E]; auto using comma_show. apply app_inv_head in E. apply app_inv_tail in E.
  split; [apply (lattice_text_inj v); auto|]. split; [now apply showInt_inj|]. split; auto. apply show4_inj; auto; [apply (rounds_range (a_rate a)); auto using round4_rounds|apply (rounds_range (a_rate a')); auto using round4_rounds]. Qed.
Lemma tn_filename_inj a a' : (0 <= a_rate a <= one)%Z -> (0 <= a_rate a' <= one)%Z -> tn_filename a = tn_filename a' -> a_distance a = a_distance a' /\ round4 (a_rate a) = round4 (a_rate a').
Proof. intros R R' E. unfold tn_filename in E. apply app_inv_head in E. change (tx ",p=") with (","%char :: tx "p=") in E. cbn [app] in E. apply split_at in E as [E2 E]; auto using comma_int. apply app_inv_head in E. apply app_inv_tail in E.
  split; [now apply showInt_inj|]. apply show4_inj; auto; [apply (rounds_range (a_rate a)); auto using round4_rounds|apply (rounds_range (a_rate a')); auto using round4_rounds]. Qed.
Lemma tn_filename_other v l a a' : tn_filename a' <> filename v l a.
Proof. unfold tn_filename, filename. intros E. discriminate E. Qed.
(** ** the last component of a path *)
Lemma basename_from_no acc s : ~ In "/"%char s -> basename_from acc s = acc ++ s.
Proof. revert acc. induction s as [|c s IHs]; intros acc H; cbn [basename_from]; [now rewrite app_nil_r|]. destruct (Ascii.eqb_spec c "/"); [exfalso; apply H; left; auto|]. rewrite IHs by (intros X; apply H; right; auto). now rewrite <- app_assoc. Qed.
Lemma basename_from_app acc d s : ~ In "/"%char s -> basename_from acc (d ++ "/"%char :: s) = s.
Proof. revert acc. induction d as [|c d IHd]; intros acc H; cbn [app basename_from]; [change (Ascii.eqb "/" "/") with true; cbn match; rewrite basename_from_no; auto|]. destruct (Ascii.eqb c "/"); apply IHd; auto. Qed.
Lemma basename_spec s : exists b, ~ In "/"%char b /\ (s = b \/ exists d, s = d ++ "/"%char :: b).
Proof. induction s as [|c s (b & N & H)]; [exists []; split; auto|]. destruct H as [->|[d ->]].
  - destruct (ascii_dec c "/") as [->|E]; [exists b; split; auto; right; exists []; reflexivity|]. exists (c :: b). split; auto. intros [X|X]; auto.
  - exists b. split; auto. right. exists (c :: d). reflexivity. Qed.
