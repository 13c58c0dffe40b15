(** * StabProofs: lemmas about StabModel. *)
From Verif Require Export PauliSpec2 StabModel.

Lemma isLetter_letter c : isLetter c = true <-> exists p, c = letter p.
Proof. split.
  - unfold isLetter. intros H. rewrite !orb_true_iff, !Ascii.eqb_eq in H.
    destruct H as [[[->| ->]| ->]| ->]; [exists PI | exists PX | exists PY | exists PZ]; reflexivity.
  - intros [p ->]. destruct p; reflexivity. Qed.

Lemma letters_iff s : forallb isLetter s = true <-> exists P, s = map letter P.
Proof. induction s as [|c s IH]; simpl.
  - split; auto. exists []; auto.
  - rewrite andb_true_iff, isLetter_letter, IH. split.
    + intros [[p ->] [P ->]]. exists (p :: P); auto.
    + intros [[|p P] E]; [discriminate|]. injection E as -> ->. eauto. Qed.

Lemma isSign_letter p : isSign (letter p) = false.
Proof. destruct p; reflexivity. Qed.

Lemma is_pauli_string_iff s : is_pauli_string s = true <-> s <> [] /\ exists sg P, s = print sg P.
Proof. destruct s as [|c s]; simpl.
  - split; [discriminate | intros [H _]; congruence].
  - rewrite andb_true_iff, orb_true_iff, letters_iff. split.
    + intros [[P ->] [H|H]]; (split; [discriminate|]).
      * unfold isSign in H. rewrite orb_true_iff, !Ascii.eqb_eq in H. destruct H as [-> | ->]; [exists Plus, P | exists Minus, P]; reflexivity.
      * apply isLetter_letter in H as [p ->]. exists NoSign, (p :: P); reflexivity.
    + intros [_ (sg & P & E)]. destruct sg; simpl in E.
      * destruct P as [|p P]; [discriminate|]. injection E as -> ->. split; [eauto|]. right. apply isLetter_letter; eauto.
      * injection E as -> ->. split; [eauto | left; reflexivity].
      * injection E as -> ->. split; [eauto | left; reflexivity]. Qed.

Lemma letter_bits P :
  map (fun ab : bool * bool => fst ab || snd ab) (combine (map (fun c => (c =? "X")%char) (map letter P)) (map (fun c => (c =? "Y")%char) (map letter P))) = map xbit P /\
  map (fun ab : bool * bool => fst ab || snd ab) (combine (map (fun c => (c =? "Z")%char) (map letter P)) (map (fun c => (c =? "Y")%char) (map letter P))) = map zbit P.
Proof. induction P as [|p P [I1 I2]]; simpl; auto. rewrite I1, I2. destruct p; auto. Qed.

Lemma pauli_to_binary_print sg P : print sg P <> [] -> pauli_to_binary (print sg P) = Ret (bin (neg sg) P).
Proof. intros H. unfold bin, symp. rewrite <- app_assoc. destruct (letter_bits P) as [B1 B2]. destruct sg.
  - destruct P as [|p P]; [contradiction H; reflexivity|].
    unfold print. simpl app. unfold pauli_to_binary. simpl map at 1. 
    change (letter p :: map letter P) with (map letter (p :: P)).
    rewrite isSign_letter. rewrite B1, B2. reflexivity.
  - unfold pauli_to_binary, print. simpl app. cbn [isSign Ascii.eqb Bool.eqb orb]. rewrite B1, B2. reflexivity.
  - unfold pauli_to_binary, print. simpl app. cbn [isSign Ascii.eqb Bool.eqb orb]. rewrite B1, B2. reflexivity. Qed.

Lemma bin_length s P : length (bin s P) = 2 * length P + 1.
Proof. unfold bin. rewrite app_length, symp_length. reflexivity. Qed.

Lemma half_odd n : Nat.div (2 * n + 1) 2 = n.
Proof. symmetry. apply Nat.div_unique with (r := 1); lia. Qed.
Lemma half_even n : Nat.div (2 * n) 2 = n.
Proof. symmetry. apply Nat.div_unique with (r := 0); lia. Qed.

Lemma letterOf_bits P : map letterOf (combine (map xbit P) (map zbit P)) = map letter P.
Proof. induction P as [|p P IH]; simpl; auto. rewrite IH. f_equal. destruct p; reflexivity. Qed.

Lemma firstn_len_app {A} (a b : list A) n : length a = n -> firstn n (a ++ b) = a.
Proof. intros <-. rewrite firstn_app, Nat.sub_diag, firstn_all. simpl. apply app_nil_r. Qed.
Lemma skipn_len_app {A} (a b : list A) n : length a = n -> skipn n (a ++ b) = b.
Proof. intros <-. rewrite skipn_app, Nat.sub_diag, skipn_all. reflexivity. Qed.

Lemma binary_to_pauli_string_bin s P : binary_to_pauli_string (bin s P) = Ret (print (if s then Minus else NoSign) P).
Proof. unfold binary_to_pauli_string.
  destruct (bin s P) as [|b0 l] eqn:E; [apply (f_equal (@length bool)) in E; rewrite bin_length in E; simpl in E; lia|].
  rewrite <- E. clear E b0 l. rewrite bin_length, half_odd.
  replace (2 * length P + 1 - 1 - length P) with (length P) by lia.
  replace (2 * length P + 1 - 1) with (2 * length P) by lia.
  unfold bin. rewrite app_nth2 by (rewrite symp_length; lia). rewrite symp_length, Nat.sub_diag. simpl nth.
  unfold symp. rewrite <- app_assoc. rewrite firstn_len_app by apply map_length.
  rewrite skipn_len_app by apply map_length. rewrite firstn_len_app by apply map_length.
  rewrite letterOf_bits. destruct s; reflexivity. Qed.

Lemma odd_bin b : Nat.odd (length b) = true -> exists s P, b = bin s P /\ length b = 2 * length P + 1.
Proof. intros H. apply Nat.odd_spec in H as [m Hm].
  assert (exists l s, b = l ++ [s]) as (l & s & ->).
  { destruct b as [|b0 b'] using rev_ind; [simpl in Hm; lia|]. eauto. }
  rewrite app_length in Hm. simpl in Hm. assert (length l = m + m) by lia.
  exists s, (unsymp (firstn m l) (skipn m l)).
  assert (L1 : length (firstn m l) = m) by (rewrite firstn_length; lia).
  assert (L2 : length (skipn m l) = m) by (rewrite skipn_length; lia).
  unfold bin. rewrite symp_unsymp by lia. rewrite firstn_skipn. split; auto.
  rewrite unsymp_length by lia. rewrite app_length, L1. simpl. lia. Qed.

(** ** wrap-around arithmetic keeps parities *)
Lemma wrap_odd w z : (1 <= w)%Z -> Z.odd (wrap w z) = Z.odd z.
Proof. intros Hw. unfold wrap.
  assert (E : exists q, ((z + 2 ^ (w-1)) mod 2 ^ w = z + 2 ^ (w-1) - 2 ^ w * q)%Z).
  { exists ((z + 2 ^ (w-1)) / 2 ^ w)%Z. rewrite Z.mod_eq; auto. apply Z.pow_nonzero; lia. }
  destruct E as [q ->]. replace (z + 2 ^ (w - 1) - 2 ^ w * q - 2 ^ (w - 1))%Z with (z - 2 ^ w * q)%Z by lia.
  replace (2 ^ w)%Z with (2 * 2 ^ (w - 1))%Z by (rewrite <- Z.pow_succ_r by lia; f_equal; lia).
  rewrite Z.odd_sub, <- Z.mul_assoc, Z.odd_mul. simpl. apply xorb_false_r. Qed.

Lemma idot_odd w a b : (1 <= w)%Z -> Z.odd (idot w a b) = dot a b.
Proof. intros Hw. revert b; induction a as [|x a IH]; intros [|y b]; simpl; auto.
  rewrite wrap_odd, Z.odd_add, Z.odd_mul, IH by lia. destruct x, y; reflexivity. Qed.

Lemma sym_entry w a b c d : (1 <= w)%Z ->
  (wrap w (idot w a b + idot w c d) mod 2)%Z = Z.b2z (xorb (dot a b) (dot c d)).
Proof. intros Hw. rewrite Zmod_odd, wrap_odd, Z.odd_add, !idot_odd by lia. destruct (xorb _ _); reflexivity. Qed.

Lemma symp_split P n : length P = n -> firstn n (symp P) = map xbit P /\ skipn n (symp P) = map zbit P.
Proof. intros <-. unfold symp. split; [apply firstn_len_app | apply skipn_len_app]; apply map_length. Qed.

Lemma commute_spec w P Q : (1 <= w)%Z -> length P = length Q -> commute w (symp P) (symp Q) = Ret (negb (sympl P Q)).
Proof. intros Hw HL. unfold commute, symplectic_inner_product. rewrite symp_length, half_even.
  destruct (symp_split P (length P) eq_refl) as [-> ->]. destruct (symp_split Q (length P) (eq_sym HL)) as [-> ->].
  rewrite !map_length, HL, Nat.eqb_refl. simpl. rewrite sym_entry by auto. unfold sympl.
  destruct (dot (map xbit P) (map zbit Q)), (dot (map zbit P) (map xbit Q)); reflexivity. Qed.

Lemma negb_sympl_true P Q : length P = length Q -> (negb (sympl P Q) = true <-> pcommute P Q).
Proof. intros H. rewrite negb_true_iff, pcommute_sympl by auto. reflexivity. Qed.

Lemma hd_map_symp Ps n : Ps <> [] -> Forall (fun P => length P = n) Ps -> length (hd [] (map symp Ps)) = 2 * n.
Proof. destruct Ps; [congruence|]. intros _ H. inversion H; subst. apply symp_length. Qed.

Lemma smp_spec w n Ps Qs : (1 <= w)%Z -> Ps <> [] -> Qs <> [] -> Forall (fun P => length P = n) Ps -> Forall (fun P => length P = n) Qs ->
  symplectic_matrix_product w (map symp Ps) (map symp Qs) = Ret (map (fun P => map (fun Q => Z.b2z (sympl P Q)) Qs) Ps).
Proof. intros Hw NP NQ HP HQ. unfold symplectic_matrix_product.
  rewrite !(hd_map_symp _ n) by auto. rewrite half_even.
  replace (Nat.min n (2 * n)) with n by lia. replace (2 * n - n) with n by lia. rewrite Nat.eqb_refl. simpl. f_equal.
  rewrite map_map. apply map_ext_in. intros P HPi. rewrite map_map. apply map_ext_in. intros Q HQi.
  rewrite Forall_forall in HP, HQ.
  destruct (symp_split P n (HP P HPi)) as [-> ->]. destruct (symp_split Q n (HQ Q HQi)) as [-> ->].
  rewrite sym_entry by auto. reflexivity. Qed.

Lemma all_commute_spec w n Ps Qs : (1 <= w)%Z -> Ps <> [] -> Qs <> [] -> Forall (fun P => length P = n) Ps -> Forall (fun P => length P = n) Qs ->
  exists b, all_commute w (map symp Ps) (map symp Qs) = Ret b /\ (b = true <-> forall P Q, In P Ps -> In Q Qs -> pcommute P Q).
Proof. intros Hw NP NQ HP HQ. unfold all_commute. rewrite (smp_spec w n) by auto. simpl. eexists. split; [reflexivity|].
  rewrite forallb_forall. rewrite Forall_forall in HP, HQ. split.
  - intros H P Q HPi HQi. assert (L : length P = length Q) by (rewrite HP, HQ; auto).
    apply negb_sympl_true; auto. specialize (H (map (fun Q => Z.b2z (sympl P Q)) Qs)).
    rewrite forallb_forall in H. specialize (H ltac:(apply in_map_iff; eauto) (Z.b2z (sympl P Q)) ltac:(apply in_map_iff; eauto)).
    destruct (sympl P Q); [discriminate | reflexivity].
  - intros H r Hr. apply in_map_iff in Hr as (P & <- & HPi). apply forallb_forall. intros z Hz. apply in_map_iff in Hz as (Q & <- & HQi).
    assert (L : length P = length Q) by (rewrite HP, HQ; auto).
    specialize (H P Q HPi HQi). apply negb_sympl_true in H; auto. apply negb_true_iff in H. rewrite H. reflexivity. Qed.

Lemma smm_spec w n Ps Q : (1 <= w)%Z -> Ps <> [] -> Forall (fun P => length P = n) Ps -> length Q = n ->
  symplectic_matrix_mul w (map symp Ps) (symp Q) = Ret (map (fun P => Z.b2z (sympl P Q)) Ps).
Proof. intros Hw NP HP HQ. unfold symplectic_matrix_mul. rewrite (hd_map_symp _ n) by auto. rewrite half_even, symp_length.
  rewrite HQ. replace (Nat.min n (2 * n)) with n by lia. replace (2 * n - n) with n by lia. rewrite Nat.eqb_refl. simpl. f_equal.
  rewrite map_map. apply map_ext_in. intros P HPi. rewrite Forall_forall in HP.
  destruct (symp_split P n (HP P HPi)) as [-> ->]. destruct (symp_split Q n HQ) as [-> ->].
  rewrite sym_entry by auto. reflexivity. Qed.

(** ** the constructor on printed generators *)
Definition sp := (sign * list pauli)%type.
Definition printsp (g : sp) : pystr := print (fst g) (snd g).
Definition binsp (g : sp) : vec := bin (neg (fst g)) (snd g).

Lemma pmapM_print l : Forall (fun g => printsp g <> []) l -> pmapM pauli_to_binary (map printsp l) = Ret (map binsp l).
Proof. induction 1 as [|g l Hg Hl IH]; simpl; auto. unfold printsp at 1. rewrite pauli_to_binary_print by exact Hg. simpl.
  rewrite IH. reflexivity. Qed.

Lemma npRect_ok n l : wf n l -> npRect l = Ret l.
Proof. intros H. unfold npRect. rewrite (proj2 (forallb_forall (fun r => length r =? length (hd [] l)) l)); auto. intros r Hr.
  destruct l as [|r0 l]; [destruct Hr|]. simpl. apply Nat.eqb_eq. rewrite (wf_in n _ r H Hr). inversion H; auto. Qed.

Lemma npRect_inv l l' : npRect l = Ret l' -> l' = l /\ wf (length (hd [] l)) l.
Proof. unfold npRect. destruct (forallb (fun r => length r =? length (hd [] l)) l) eqn:E; [|discriminate]. intros H. injection H as ->. split; auto.
  apply Forall_forall. intros r Hr. rewrite forallb_forall in E. apply Nat.eqb_eq. auto. Qed.

Lemma wf_binsp n l : Forall (fun g : sp => length (snd g) = n) l -> wf (2 * n + 1) (map binsp l).
Proof. intros H. apply Forall_forall. intros r Hr. apply in_map_iff in Hr as (g & <- & Hg). rewrite Forall_forall in H.
  unfold binsp. rewrite bin_length, H; auto. Qed.

Lemma removelast_bin s P : removelast (bin s P) = symp P.
Proof. unfold bin. apply removelast_last. Qed.

Lemma dropPhase_binsp l : l <> [] -> dropPhase (map binsp l) = Ret (map symp (map snd l)).
Proof. intros H. destruct l as [|g l]; [congruence|]. unfold dropPhase. simpl map at 1. cbv iota.
  change (binsp g :: map binsp l) with (map binsp (g :: l)). rewrite !map_map. f_equal. apply map_ext. intros a. apply removelast_bin. Qed.

Lemma paulis_to_binary_ok n l : Forall (fun g : sp => printsp g <> [] /\ length (snd g) = n) l ->
  paulis_to_binary (Strs (map printsp l)) = Ret (map binsp l).
Proof. intros H. simpl. rewrite pmapM_print by (eapply Forall_impl; [|exact H]; simpl; tauto). simpl.
  apply (npRect_ok (2 * n + 1)). apply wf_binsp. eapply Forall_impl; [|exact H]; simpl; tauto. Qed.

Lemma printsp_length (g : sp) : length (printsp g) = length (snd g) + match fst g with NoSign => 0 | _ => 1 end.
Proof. destruct g as [sg P]; unfold printsp, print; simpl fst; simpl snd. rewrite app_length, map_length. destruct sg; simpl; lia. Qed.

(** strings accepted as generators *)
Lemma strs_valid gs : check_stabilizer_generators (Strs gs) = Ret tt <->
  gs <> [] /\ (forall g h, In g gs -> In h gs -> length g = length h) /\ exists l, gs = map printsp l /\ Forall (fun g => printsp g <> []) l.
Proof. destruct gs as [|g0 gs]; [simpl; split; [discriminate | tauto]|]. unfold check_stabilizer_generators.
  destruct (forallb (fun g => length g0 =? length g) (g0 :: gs)) eqn:E1; cbn [negb].
  2: { split; [discriminate|]. intros (_ & H & _). exfalso. assert (forallb (fun g => length g0 =? length g) (g0 :: gs) = true); [|congruence].
       apply forallb_forall. intros g Hg. apply Nat.eqb_eq. apply H; auto. now left. }
  destruct (forallb is_pauli_string (g0 :: gs)) eqn:E2; cbn [negb].
  - split; auto. intros _. split; [discriminate|]. rewrite !forallb_forall in *. split.
    { intros g h Hg Hh. apply E1, Nat.eqb_eq in Hg, Hh. congruence. }
    clear E1. induction (g0 :: gs) as [|g l IH]; [exists []; split; auto|].
    destruct IH as (l' & -> & F); [intros; apply E2; now right|].
    assert (In g (g :: map printsp l')) as Hin by now left.
    apply E2, is_pauli_string_iff in Hin as (N & sg & P & ->). exists ((sg, P) :: l'). split; auto.
  - split; [discriminate|]. intros (_ & _ & l & El & F). exfalso. assert (forallb is_pauli_string (g0 :: gs) = true); [|congruence].
    rewrite El. apply forallb_forall. intros s Hs. apply in_map_iff in Hs as (g & <- & Hg).
    apply is_pauli_string_iff. rewrite Forall_forall in F. split; auto. exists (fst g), (snd g); reflexivity. Qed.

Lemma charP_letter p : charP (letter p) = p.
Proof. destruct p; reflexivity. Qed.
Lemma parse_print g : printsp g <> [] -> parse (printsp g) = g.
Proof. destruct g as [sg P]. unfold printsp; simpl. assert (E : map charP (map letter P) = P).
  { rewrite map_map. rewrite <- (map_id P) at 2. apply map_ext, charP_letter. }
  destruct sg; simpl; intros H; try (now rewrite E).
  destruct P as [|p P]; [contradiction H; reflexivity|]. simpl in *. injection E as E1 E2. destruct p; simpl; rewrite E2; reflexivity. Qed.

Lemma charP_bits s :
  map (fun ab : bool * bool => fst ab || snd ab) (combine (map (fun c => (c =? "X")%char) s) (map (fun c => (c =? "Y")%char) s)) = map xbit (map charP s) /\
  map (fun ab : bool * bool => fst ab || snd ab) (combine (map (fun c => (c =? "Z")%char) s) (map (fun c => (c =? "Y")%char) s)) = map zbit (map charP s).
Proof. induction s as [|c s [I1 I2]]; simpl; auto. rewrite I1, I2. unfold charP.
  destruct (Ascii.eqb_spec c "X") as [->|]; [auto|]. destruct (Ascii.eqb_spec c "Y") as [->|]; [auto|].
  destruct (Ascii.eqb_spec c "Z") as [->|]; auto. Qed.

Lemma pauli_to_binary_parse s : s <> [] -> pauli_to_binary s = Ret (binsp (parse s)).
Proof. destruct s as [|c s]; [congruence|]. intros _. unfold pauli_to_binary, parse, isSign, binsp, bin, symp.
  destruct (charP_bits s) as [B1 B2]. destruct (charP_bits (c :: s)) as [C1 C2].
  destruct (Ascii.eqb_spec c "+") as [->|N1].
  - cbn [orb]. rewrite B1, B2. simpl. now rewrite <- app_assoc.
  - destruct (Ascii.eqb_spec c "-") as [->|N2].
    + cbn [orb]. rewrite B1, B2. simpl. now rewrite <- app_assoc.
    + cbn [orb]. rewrite C1, C2. simpl fst; simpl snd. unfold neg. now rewrite <- app_assoc. Qed.

Definition isNil (s : pystr) : bool := match s with [] => true | _ => false end.
Lemma pmapM_parse l : pmapM pauli_to_binary l = (if existsb isNil l then Raise IndexError else Ret (map binsp (map parse l))).
Proof. induction l as [|s l IH]; simpl; auto. destruct s as [|c s]; [reflexivity|].
  rewrite pauli_to_binary_parse by discriminate. cbn [pbind orb]. rewrite IH. destruct (existsb isNil l); reflexivity. Qed.

Lemma pmapM_parse_ok l r : pmapM pauli_to_binary l = Ret r <-> Forall (fun s => s <> []) l /\ r = map binsp (map parse l).
Proof. rewrite pmapM_parse. destruct (existsb isNil l) eqn:E.
  - split; [discriminate|]. intros [F _]. apply existsb_exists in E as (s & Hs & E). rewrite Forall_forall in F. specialize (F s Hs). destruct s; [contradiction F; reflexivity | discriminate].
  - split.
    + intros H. injection H as <-. split; auto. apply Forall_forall. intros s Hs ->.
      assert (existsb isNil l = true); [|congruence]. apply existsb_exists; eauto.
    + intros [_ ->]. reflexivity. Qed.

Lemma binsp_length g : length (binsp g) = 2 * length (snd g) + 1.
Proof. apply bin_length. Qed.

Definition allq (n : nat) (l : list sp) : Prop := Forall (fun g => length (snd g) = n) l.

Lemma npRect_binsp l r : l <> [] -> (npRect (map binsp l) = Ret r <-> r = map binsp l /\ exists n, allq n l).
Proof. intros N. split.
  - intros H. apply npRect_inv in H as [-> W]. split; auto. destruct l as [|g l]; [congruence|].
    exists (length (snd g)). apply Forall_forall. intros h Hh.
    assert (In (binsp h) (map binsp (g :: l))) as Hi by now apply in_map.
    apply (wf_in _ _ _ W) in Hi. simpl hd in Hi. rewrite !binsp_length in Hi. lia.
  - intros [-> [n H]]. apply (npRect_ok (2 * n + 1)). now apply wf_binsp. Qed.

Lemma paulis_to_binary_strs l r : l <> [] -> (paulis_to_binary (Strs l) = Ret r <->
  Forall (fun s => s <> []) l /\ r = map binsp (map parse l) /\ exists n, allq n (map parse l)).
Proof. intros N. simpl. rewrite pmapM_parse. destruct (existsb isNil l) eqn:E.
  - split; [discriminate|]. intros [F _]. apply existsb_exists in E as (s & Hs & E). rewrite Forall_forall in F. specialize (F s Hs). destruct s; [contradiction F; reflexivity | discriminate].
  - simpl. rewrite npRect_binsp by (destruct l; [congruence | discriminate]). split.
    + intros [-> Hn]. repeat split; auto. apply Forall_forall. intros s Hs ->.
      assert (existsb isNil l = true); [|congruence]. apply existsb_exists; eauto.
    + tauto. Qed.

Lemma optLogicals_strs l r : optLogicals (Some (Strs l)) = Ret r <->
  l <> [] /\ Forall (fun s => s <> []) l /\ r = Some (map binsp (map parse l)) /\ exists n, allq n (map parse l).
Proof. unfold optLogicals. destruct l as [|s l]; [simpl; split; [discriminate | intros [? _]; congruence]|]. split.
  - destruct (paulis_to_binary (Strs (s :: l))) eqn:E; [|discriminate].
    apply paulis_to_binary_strs in E as (F & -> & Hn); [|discriminate]. cbn [pbind].
    rewrite dropPhase_binsp by discriminate. cbn [pbind]. intros H. injection H as <-. repeat split; auto. discriminate.
  - intros (N & F & -> & Hn). rewrite (proj2 (paulis_to_binary_strs (s :: l) _ N)) by (split; [exact F | split; [reflexivity | exact Hn]]).
    cbn [pbind]. rewrite dropPhase_binsp by discriminate. reflexivity. Qed.

Local Arguments Z.add : simpl never.
Lemma rowsum_b2z {A} (f : A -> bool) l : (fold_right Z.add 0 (map (fun x => Z.b2z (f x)) l) = 1 <-> exactly_one (fun x => f x = true) l)%Z.
Proof.
  assert (Z0 : forall l, (0 <= fold_right Z.add 0 (map (fun x => Z.b2z (f x)) l))%Z).
  { intros l0. induction l0; simpl; [lia|]. destruct (f a); simpl; lia. }
  assert (Z1 : forall l, (fold_right Z.add 0 (map (fun x => Z.b2z (f x)) l) = 0)%Z <-> forall y, In y l -> ~ f y = true).
  { intros l0. induction l0 as [|a l0 IH]; simpl; [split; [intros _ y [] | auto]|]. specialize (Z0 l0). destruct (f a) eqn:Ea; simpl.
    - split; [lia|]. intros H. exfalso. apply (H a); auto.
    - rewrite Z.add_0_l, IH. split; [intros H y [<-|Hy]; [congruence | auto] | intros H y Hy; apply H; auto]. }
  induction l as [|a l IH]; simpl.
  - split; [lia|]. intros (l1 & x & l2 & E & _). destruct l1; discriminate.
  - destruct (f a) eqn:Ea; simpl.
    + split.
      * intros H. assert (fold_right Z.add 0 (map (fun x => Z.b2z (f x)) l) = 0)%Z as H0 by lia. pose proof (proj1 (Z1 l) H0) as H1.
        exists [], a, l. split; [reflexivity|]. split; auto.
      * intros (l1 & x & l2 & E & Hx & Hn). assert (l1 = []) as ->.
        { destruct l1 as [|b l1]; auto. simpl in E. injection E as <- ->. exfalso. apply (Hn a); auto. now left. }
        simpl in E. injection E as <- ->. simpl in Hn. rewrite (proj2 (Z1 l2)); auto.
    + rewrite Z.add_0_l, IH. split.
      * intros (l1 & x & l2 & -> & Hx & Hn). exists (a :: l1), x, l2. split; [reflexivity|]. split; auto. intros y [<-|Hy]; [congruence | auto].
      * intros (l1 & x & l2 & E & Hx & Hn). destruct l1 as [|b l1]; simpl in E; injection E as <- E; [congruence|].
        exists l1, x, l2. split; auto. split; auto. intros y Hy. apply Hn. now right. Qed.

Lemma exactly_one_iff {A} (P Q : A -> Prop) l : (forall x, In x l -> (P x <-> Q x)) -> exactly_one P l <-> exactly_one Q l.
Proof. intros H. assert (S : forall P Q : A -> Prop, (forall x, In x l -> (P x <-> Q x)) -> exactly_one P l -> exactly_one Q l).
  { clear. intros P Q H (l1 & x & l2 & -> & Hx & Hn). exists l1, x, l2. split; auto. split.
    - apply H; auto. apply in_or_app; right; now left.
    - intros y Hy HQ. apply (Hn y Hy). apply H; auto. apply in_or_app. apply in_app_or in Hy as [|]; [now left | right; now right]. }
  split; apply S; auto. intros x Hx; symmetry; auto. Qed.

Lemma exactly_one_map {A B} (f : A -> B) (P : B -> Prop) l : exactly_one P (map f l) <-> exactly_one (fun x => P (f x)) l.
Proof. split.
  - intros (l1 & x & l2 & E & Hx & Hn). apply map_eq_app in E as (m1 & m2 & -> & <- & E).
    destruct m2 as [|y m2]; [discriminate|]. simpl in E. injection E as <- <-. exists m1, y, m2. split; auto. split; auto.
    intros z Hz. apply Hn. rewrite <- map_app. apply in_map; auto.
  - intros (l1 & x & l2 & -> & Hx & Hn). exists (map f l1), (f x), (map f l2). split; [now rewrite map_app|]. split; auto.
    intros y Hy. rewrite <- map_app in Hy. apply in_map_iff in Hy as (z & <- & Hz). auto. Qed.
