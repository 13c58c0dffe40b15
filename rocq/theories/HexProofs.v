(** * HexProofs: geometry of the hexagonal color codes. *)
From Verif Require Export ColorProofs.
Local Open Scope Z_scope.
Ltac zmod := Z.div_mod_to_equations; lia.

(** *** the sets built by add_qubits, as explicit lists *)
Fixpoint rowl (isd : nat -> bool) (todo i : nat) (x y : Z) : list coord :=
  match todo with
  | O => []
  | S k => (if isd (i mod 3)%nat then [(x, y)] else []) ++ rowl isd k (S i) (x + 2) y
  end.
Definition before (x y : Z) (l : list coord) : Prop := forall p, In p l -> snd p < y \/ (snd p = y /\ fst p < x).
Lemma before_notin x y l : before x y l -> ~ In (x, y) l.
Proof. intros H Hin. specialize (H _ Hin). cbn in H. lia. Qed.
Lemma before_app x y l m : before x y (l ++ m) <-> before x y l /\ before x y m.
Proof. unfold before. split; [intros H; split; intros p Hp; apply H, in_app_iff; auto|]. intros [H1 H2] p Hp. apply in_app_iff in Hp. destruct Hp; auto. Qed.
Lemma before_mono x y x' y' l : before x y l -> y < y' \/ (y = y' /\ x <= x') -> before x' y' l.
Proof. intros H Hc p Hp. specialize (H p Hp). lia. Qed.

Lemma hex_row_eq isd todo : forall i x y s, before x y (fst s) -> before x y (snd s) ->
  hex_row_loop isd todo i x y s = (fst s ++ rowl isd todo i x y, snd s ++ rowl (fun r => negb (isd r)) todo i x y).
Proof. induction todo as [|k IH]; intros i x y s H1 H2; cbn [hex_row_loop rowl].
  - rewrite !app_nil_r. now destruct s.
  - destruct (isd (i mod 3)%nat); cbn [negb]; rewrite IH; cbn [fst snd].
    + rewrite sadd_new by now apply before_notin. now rewrite <- app_assoc.
    + rewrite sadd_new by now apply before_notin. apply before_app. split; [apply (before_mono x y); auto; lia|]. intros p [<-|[]]. cbn. lia.
    + apply (before_mono x y); auto; lia.
    + rewrite sadd_new by now apply before_notin. now rewrite <- app_assoc.
    + apply (before_mono x y); auto; lia.
    + rewrite sadd_new by now apply before_notin. apply before_app. split; [apply (before_mono x y); auto; lia|]. intros p [<-|[]]. cbn. lia. Qed.

(** ancilla position of a row: i mod 3 = (y+1) mod 3 *)
Definition isd (y : nat) (r : nat) : bool := negb (r =? (y + 1) mod 3)%nat.
Fixpoint hexl (f : nat -> nat -> bool) (x_max y : nat) : list coord :=
  match x_max with O => [] | S k => rowl (f y) x_max 0 (Z.of_nat y) (Z.of_nat y) ++ hexl f k (S y) end.
Definition hex_data (M : nat) : list coord := hexl isd M 0.
Definition hex_anc (M : nat) : list coord := hexl (fun y r => negb (isd y r)) M 0.

Lemma rowl_ext f g todo : (forall r, (r < 3)%nat -> f r = g r) -> forall i x y, rowl f todo i x y = rowl g todo i x y.
Proof. intros H. induction todo as [|k IH]; intros; cbn [rowl]; auto. rewrite IH. rewrite H; auto. apply Nat.mod_upper_bound. lia. Qed.
Lemma In_rowl f todo : forall i x y p, In p (rowl f todo i x y) <-> exists j, (j < todo)%nat /\ f ((i + j) mod 3)%nat = true /\ p = (x + 2 * Z.of_nat j, y).
Proof. induction todo as [|k IH]; intros i x y p; cbn [rowl].
  - split; [easy|]. intros (j & H & _). lia.
  - rewrite in_app_iff, IH. split.
    + intros [H|(j & H1 & H2 & H3)].
      * destruct (f (i mod 3)%nat) eqn:E; [|easy]. destruct H as [<-|[]]. exists 0%nat. rewrite Nat.add_0_r. split; [lia|]. split; auto. cbn [Z.of_nat Z.mul]. now rewrite Z.add_0_r.
      * exists (S j). split; [lia|]. replace (i + S j)%nat with (S i + j)%nat by lia. split; auto. rewrite H3. f_equal. lia.
    + intros (j & H1 & H2 & H3). destruct j as [|j].
      * left. rewrite Nat.add_0_r in H2. rewrite H2. left. rewrite H3. cbn [Z.of_nat Z.mul]. now rewrite Z.add_0_r.
      * right. exists j. split; [lia|]. replace (S i + j)%nat with (i + S j)%nat by lia. split; auto. rewrite H3. f_equal. lia. Qed.
Lemma rowl_before f todo i x y : forall p, In p (rowl f todo i x y) -> snd p = y /\ x <= fst p.
Proof. intros p H. apply In_rowl in H. destruct H as (j & _ & _ & ->). cbn [fst snd]. lia. Qed.

Lemma row_dispatch x_max y s : before (Z.of_nat y) (Z.of_nat y) (fst s) -> before (Z.of_nat y) (Z.of_nat y) (snd s) ->
  (match (y mod 3)%nat with 0%nat => red_row x_max (Z.of_nat y) s | 1%nat => blue_row x_max (Z.of_nat y) s | _ => green_row x_max (Z.of_nat y) s end)
  = (fst s ++ rowl (isd y) x_max 0 (Z.of_nat y) (Z.of_nat y), snd s ++ rowl (fun r => negb (isd y r)) x_max 0 (Z.of_nat y) (Z.of_nat y)).
Proof. intros H1 H2. pose proof (Nat.mod_upper_bound y 3 ltac:(lia)) as Hm.
  assert (E : ((y + 1) mod 3 = (y mod 3 + 1) mod 3)%nat) by (rewrite Nat.add_mod_idemp_l; auto).
  destruct (y mod 3)%nat as [|[|[|]]] eqn:Ey; try lia; unfold red_row, blue_row, green_row; rewrite hex_row_eq by auto; cbn in E;
    f_equal; f_equal; apply rowl_ext; intros [|[|[|]]] Hr; unfold isd; rewrite E; try reflexivity; lia. Qed.

Lemma hex_add_eq x_max : forall y s, before (Z.of_nat y) (Z.of_nat y) (fst s) -> before (Z.of_nat y) (Z.of_nat y) (snd s) ->
  hex_add_loop x_max y s = (fst s ++ hexl isd x_max y, snd s ++ hexl (fun y r => negb (isd y r)) x_max y).
Proof. induction x_max as [|k IH]; intros y s H1 H2; cbn [hex_add_loop hexl].
  - rewrite !app_nil_r. now destruct s.
  - rewrite row_dispatch by auto. rewrite IH; cbn [fst snd].
    + now rewrite <- !app_assoc.
    + apply before_app. split; [apply (before_mono (Z.of_nat y) (Z.of_nat y)); auto; lia|]. intros p Hp. apply rowl_before in Hp. lia.
    + apply before_app. split; [apply (before_mono (Z.of_nat y) (Z.of_nat y)); auto; lia|]. intros p Hp. apply rowl_before in Hp. lia. Qed.
Lemma hex_add_qubits_eq d : hex_add_qubits d = (hex_data (Z.to_nat (d + d / 2)), hex_anc (Z.to_nat (d + d / 2))).
Proof. unfold hex_add_qubits. rewrite hex_add_eq; [reflexivity| |]; intros p []. Qed.

(** *** membership *)
Lemma In_hexl f x_max : forall y p, In p (hexl f x_max y) <->
  exists y' j, (y <= y')%nat /\ (j + y' < x_max + y)%nat /\ f y' (j mod 3)%nat = true /\ p = (Z.of_nat y' + 2 * Z.of_nat j, Z.of_nat y').
Proof. induction x_max as [|k IH]; intros y p; cbn [hexl].
  - split; [easy|]. intros (y' & j & H1 & H2 & _). lia.
  - rewrite in_app_iff, IH, In_rowl. split.
    + intros [(j & H1 & H2 & H3)|(y' & j & H1 & H2 & H3 & H4)].
      * exists y, j. split; [lia|]. split; [lia|]. auto.
      * exists y', j. split; [lia|]. split; [lia|]. auto.
    + intros (y' & j & H1 & H2 & H3 & H4). destruct (Nat.eq_dec y' y) as [->|].
      * left. exists j. split; [lia|]. auto.
      * right. exists y', j. split; [lia|]. split; [lia|]. auto. Qed.

Definition hexpt (M : Z) (p : coord) : Prop := 0 <= snd p /\ snd p <= fst p /\ fst p + snd p < 2 * M /\ (fst p - snd p) mod 2 = 0.

Lemma isd_iff y j : isd y (j mod 3)%nat = true <-> (Z.of_nat y + 2 * Z.of_nat j) mod 3 <> 2.
Proof. unfold isd. rewrite negb_true_iff, Nat.eqb_neq.
  assert (E1 : Z.of_nat (j mod 3)%nat = Z.of_nat j mod 3) by now rewrite Nat2Z.inj_mod.
  assert (E2 : Z.of_nat ((y + 1) mod 3)%nat = (Z.of_nat y + 1) mod 3) by now rewrite Nat2Z.inj_mod, Nat2Z.inj_add.
  rewrite <- Nat2Z.inj_iff, E1, E2. zmod. Qed.

Lemma In_hex_data M p : In p (hex_data M) <-> hexpt (Z.of_nat M) p /\ fst p mod 3 <> 2.
Proof. unfold hex_data. rewrite In_hexl. split.
  - intros (y & j & _ & H1 & H2 & ->). apply isd_iff in H2. unfold hexpt. cbn [fst snd]. split; [|exact H2]. replace (Z.of_nat y + 2 * Z.of_nat j - Z.of_nat y) with (Z.of_nat j * 2) by lia.
    rewrite Z.mod_mul by lia. lia.
  - destruct p as [x y]. unfold hexpt. cbn [fst snd]. intros [(H1 & H2 & H3 & H4) H5]. exists (Z.to_nat y), (Z.to_nat ((x - y) / 2)).
    assert (E : x = y + 2 * ((x - y) / 2)) by zmod. assert (0 <= (x - y) / 2) by (apply Z.div_pos; lia).
    split; [lia|]. split; [lia|]. split; [|f_equal; lia]. apply isd_iff. rewrite !Z2Nat.id by lia. rewrite <- E. exact H5. Qed.
Lemma In_hex_anc M p : In p (hex_anc M) <-> hexpt (Z.of_nat M) p /\ fst p mod 3 = 2.
Proof. unfold hex_anc. rewrite In_hexl. split.
  - intros (y & j & _ & H1 & H2 & ->). apply negb_true_iff in H2. unfold hexpt. cbn [fst snd].
    assert (H2' : ~ (Z.of_nat y + 2 * Z.of_nat j) mod 3 <> 2) by (rewrite <- isd_iff; congruence).
    split; [|zmod]. replace (Z.of_nat y + 2 * Z.of_nat j - Z.of_nat y) with (Z.of_nat j * 2) by lia. rewrite Z.mod_mul by lia. lia.
  - destruct p as [x y]. unfold hexpt. cbn [fst snd]. intros [(H1 & H2 & H3 & H4) H5]. exists (Z.to_nat y), (Z.to_nat ((x - y) / 2)).
    assert (E : x = y + 2 * ((x - y) / 2)) by zmod. assert (0 <= (x - y) / 2) by (apply Z.div_pos; lia).
    split; [lia|]. split; [lia|]. split; [|f_equal; lia]. apply negb_true_iff. destruct (isd _ _) eqn:EE; auto. apply isd_iff in EE. rewrite !Z2Nat.id in EE by lia. rewrite <- E in EE. lia. Qed.

Lemma NoDup_rowl f todo : forall i x y, NoDup (rowl f todo i x y).
Proof. induction todo as [|k IH]; intros; cbn [rowl]; [constructor|]. destruct (f (i mod 3)%nat); cbn; auto. constructor; auto.
  intros H. apply rowl_before in H. cbn in H. lia. Qed.
Lemma NoDup_app_i {A} (l m : list A) : NoDup l -> NoDup m -> (forall x, In x l -> In x m -> False) -> NoDup (l ++ m).
Proof. induction l as [|a l IH]; cbn; intros H1 H2 H; auto. inversion H1; subst. constructor.
  - rewrite in_app_iff. intros [|]; eauto.
  - apply IH; eauto. Qed.
Lemma NoDup_hexl f x_max : forall y, NoDup (hexl f x_max y).
Proof. induction x_max as [|k IH]; intros y; cbn [hexl]; [constructor|]. apply NoDup_app_i; auto using NoDup_rowl.
  intros p H1 H2. apply rowl_before in H1. apply In_hexl in H2. destruct H2 as (y' & j & H2 & _ & _ & ->). cbn [fst snd] in H1. lia. Qed.

(** *** counting: M = 3m+1 *)
Definition b3 (f : nat -> bool) (r : nat) : nat := if f r then 1 else 0.
Lemma rowl_len3 f q : forall i x y, length (rowl f (3 * q) i x y) = (q * (b3 f 0 + b3 f 1 + b3 f 2))%nat.
Proof. induction q as [|q IH]; intros i x y; [reflexivity|]. replace (3 * S q)%nat with (S (S (S (3 * q)))) by lia. cbn [rowl].
  rewrite !app_length, IH. pose proof (Nat.mod_upper_bound i 3 ltac:(lia)) as Hm.
  assert (E1 : (S i mod 3 = (i mod 3 + 1) mod 3)%nat) by (rewrite Nat.add_mod_idemp_l by lia; f_equal; lia).
  assert (E2 : (S (S i) mod 3 = (i mod 3 + 2) mod 3)%nat) by (rewrite Nat.add_mod_idemp_l by lia; f_equal; lia).
  rewrite E1, E2. unfold b3. destruct (i mod 3)%nat as [|[|[|]]]; try lia; cbn [Nat.add];
    change (1 mod 3)%nat with 1%nat; change (2 mod 3)%nat with 2%nat; change (3 mod 3)%nat with 0%nat; change (4 mod 3)%nat with 1%nat;
    destruct (f 0%nat), (f 1%nat), (f 2%nat); cbn [length app Nat.add]; lia. Qed.
Lemma rowl_app f a : forall b i x y, rowl f (a + b) i x y = rowl f a i x y ++ rowl f b (i + a) (x + 2 * Z.of_nat a) y.
Proof. induction a as [|a IH]; intros b i x y.
  - cbn [rowl Nat.add]. now rewrite Nat.add_0_r, Z.add_0_r.
  - cbn [rowl Nat.add]. rewrite IH, <- app_assoc. f_equal. f_equal. f_equal; lia. Qed.
Lemma rowl_len1 f q x y : length (rowl f (3 * q + 1) 0 x y) = (q * (b3 f 0 + b3 f 1 + b3 f 2) + b3 f 0)%nat.
Proof. rewrite rowl_app, app_length, rowl_len3. f_equal. cbn [Nat.add rowl].
  rewrite app_nil_r. rewrite (Nat.mul_comm 3 q), Nat.mod_mul by lia. unfold b3. now destruct (f 0%nat). Qed.
Lemma rowl_len2 f q x y : length (rowl f (3 * q + 2) 0 x y) = (q * (b3 f 0 + b3 f 1 + b3 f 2) + (b3 f 0 + b3 f 1))%nat.
Proof. rewrite rowl_app, app_length, rowl_len3. f_equal. cbn [Nat.add rowl].
  rewrite app_nil_r, app_length. assert (E1 : ((3 * q) mod 3 = 0)%nat) by (rewrite Nat.mul_comm; apply Nat.mod_mul; lia).
  assert (E2 : (S (3 * q) mod 3 = 1)%nat) by (replace (S (3 * q)) with (1 + q * 3)%nat by lia; rewrite Nat.mod_add by lia; reflexivity).
  rewrite E1, E2. unfold b3. destruct (f 0%nat), (f 1%nat); reflexivity. Qed.
Lemma rows_len f m y : (length (hexl f (S (S (S (3 * m + 1)))) y) =
  ((m + 1) * (b3 (f y) 0 + b3 (f y) 1 + b3 (f y) 2) + b3 (f y) 0) +
  (m + 1) * (b3 (f (S y)) 0 + b3 (f (S y)) 1 + b3 (f (S y)) 2) +
  (m * (b3 (f (S (S y))) 0 + b3 (f (S (S y))) 1 + b3 (f (S (S y))) 2) + (b3 (f (S (S y))) 0 + b3 (f (S (S y))) 1)) +
  length (hexl f (3 * m + 1) (S (S (S y)))))%nat.
Proof. remember (3 * m + 1)%nat as k eqn:Ek. cbn [hexl]. rewrite !app_length.
  replace (S (S (S k))) with (3 * (m + 1) + 1)%nat by lia. rewrite rowl_len1.
  replace (S (S k)) with (3 * (m + 1))%nat by lia. rewrite rowl_len3.
  replace (S k) with (3 * m + 2)%nat by lia. rewrite rowl_len2. lia. Qed.
Lemma b3_isd y c : (y mod 3 = c)%nat -> (c < 3)%nat ->
  map (b3 (isd y)) [0;1;2]%nat = (match c with 0 => [1;0;1] | 1 => [1;1;0] | _ => [0;1;1] end)%nat /\ map (b3 (fun r => negb (isd y r))) [0;1;2]%nat = (match c with 0 => [0;1;0] | 1 => [0;0;1] | _ => [1;0;0] end)%nat.
Proof. intros H Hc. unfold b3, isd. rewrite <- !(Nat.add_mod_idemp_l y 1) by lia. rewrite H. destruct c as [|[|[|]]]; try lia; split; reflexivity. Qed.
Lemma mod3_next y c : (y mod 3 = c)%nat -> (S y mod 3 = (c + 1) mod 3)%nat.
Proof. intros <-. rewrite Nat.add_mod_idemp_l by lia. f_equal. lia. Qed.
Lemma hexl_data_len m : forall y, (y mod 3 = 0)%nat -> length (hexl isd (3 * m + 1) y) = (3 * m * m + 3 * m + 1)%nat.
Proof. induction m as [|m IH]; intros y Hy.
  - cbn [Nat.mul Nat.add hexl rowl]. destruct (b3_isd y 0 Hy ltac:(lia)) as [B _]. cbn [map] in B. injection B as B0 B1 B2.
    change (0 mod 3)%nat with 0%nat. unfold b3 in B0. now destruct (isd y 0).
  - replace (3 * S m + 1)%nat with (S (S (S (3 * m + 1)))) by lia. rewrite rows_len.
    pose proof (mod3_next y _ Hy) as Hy1. pose proof (mod3_next _ _ Hy1) as Hy2. pose proof (mod3_next _ _ Hy2) as Hy3. cbn in Hy1, Hy2, Hy3.
    rewrite (IH _ Hy3).
    destruct (b3_isd y 0 Hy ltac:(lia)) as [B _]. destruct (b3_isd (S y) 1 Hy1 ltac:(lia)) as [C _]. destruct (b3_isd (S (S y)) 2 Hy2 ltac:(lia)) as [D _].
    cbn [map] in B, C, D. injection B as -> -> ->. injection C as -> -> ->. injection D as -> -> ->. lia. Qed.
Lemma hexl_anc_len m : forall y, (y mod 3 = 0)%nat -> (2 * length (hexl (fun y r => negb (isd y r)) (3 * m + 1) y) = 3 * m * m + 3 * m)%nat.
Proof. induction m as [|m IH]; intros y Hy.
  - cbn [Nat.mul Nat.add hexl rowl]. destruct (b3_isd y 0 Hy ltac:(lia)) as [B _]. cbn [map] in B. injection B as B0 B1 B2.
    change (0 mod 3)%nat with 0%nat. unfold b3 in B0. now destruct (isd y 0).
  - replace (3 * S m + 1)%nat with (S (S (S (3 * m + 1)))) by lia. rewrite rows_len.
    pose proof (mod3_next y _ Hy) as Hy1. pose proof (mod3_next _ _ Hy1) as Hy2. pose proof (mod3_next _ _ Hy2) as Hy3. cbn in Hy1, Hy2, Hy3.
    specialize (IH _ Hy3).
    destruct (b3_isd y 0 Hy ltac:(lia)) as [_ B]. destruct (b3_isd (S y) 1 Hy1 ltac:(lia)) as [_ C]. destruct (b3_isd (S (S y)) 2 Hy2 ltac:(lia)) as [_ D].
    cbn [map] in B, C, D. injection B as -> -> ->. injection C as -> -> ->. injection D as -> -> ->. lia. Qed.

(** *** overlaps of faces *)
Definition ovl (hb : coord -> bool) (F G : list coord) : list coord := filter (fun p => hb p && cmem p G) F.
Definition hexd (M : Z) (p : coord) : Prop := hexpt M p /\ fst p mod 3 <> 2.
Definition hexa (M : Z) (p : coord) : Prop := hexpt M p /\ fst p mod 3 = 2.

Lemma len_filter_cons {A} (f : A -> bool) a l : length (filter f (a :: l)) = (Nat.b2n (f a) + length (filter f l))%nat.
Proof. cbn. destruct (f a); reflexivity. Qed.
Lemma len_filter_nil {A} (f : A -> bool) : length (filter f []) = 0%nat.
Proof. reflexivity. Qed.
Ltac ceqbs := repeat match goal with |- context [ceqb (?a, ?b) (?c, ?d)] =>
  first [ replace (ceqb (a, b) (c, d)) with true by (symmetry; apply ceqb_eq; apply f_equal2; lia)
        | replace (ceqb (a, b) (c, d)) with false by (symmetry; apply andb_false_iff; cbn [fst snd]; first [left; apply Z.eqb_neq; lia | right; apply Z.eqb_neq; lia]) ] end.
Ltac ovl_eval := unfold ovl; cbn [hex_nb sq_nb oct_nb]; rewrite !len_filter_cons, len_filter_nil; cbn [cmem existsb]; ceqbs; rewrite ?andb_false_r, ?orb_true_r; cbn [andb orb].

Lemma filter_none {A} (f : A -> bool) l : (forall p, In p l -> f p = false) -> filter f l = [].
Proof. induction l as [|a l IH]; cbn; auto. intros H. rewrite (H a) by now left. auto. Qed.

Lemma hex_nb_NoDup c : NoDup (hex_nb c).
Proof. destruct c as [x y]. cbn. repeat constructor; cbn; intros H; repeat (destruct H as [H|H]; [injection H; intros; lia|]); exact H. Qed.

Section HexGeom.
  Variable M : Z.
  Variable hb : coord -> bool.
  Hypothesis Hb : forall p, hb p = true <-> hexd M p.

  Lemma hb_true p : hexd M p -> hb p = true.
  Proof. apply Hb. Qed.
  Lemma hb_false p : ~ hexd M p -> hb p = false.
  Proof. intros H. destruct (hb p) eqn:E; auto. elim H. now apply Hb. Qed.

  Ltac pickdisj := first [ split; lia | left; split; lia | right; pickdisj ].
  Lemma hex_near x y x' y' p : hexa M (x, y) -> hexa M (x', y') -> In p (hex_nb (x, y)) -> In p (hex_nb (x', y')) ->
    (x' = x /\ y' = y) \/ (x' = x + 3 /\ y' = y + 1) \/ (x' = x + 3 /\ y' = y - 1) \/ (x' = x - 3 /\ y' = y + 1) \/ (x' = x - 3 /\ y' = y - 1) \/
    (x' = x /\ y' = y + 2) \/ (x' = x /\ y' = y - 2).
  Proof. intros [(A1 & A2 & A3 & A4) A5] [(B1 & B2 & B3 & B4) B5]. cbn [fst snd] in *.
    assert (HX : (x' - x) mod 3 = 0) by zmod. clear A1 A2 A3 A4 A5 B1 B2 B3 B4 B5. intros H1 H2. cbn in H1, H2.
    repeat (destruct H1 as [H1|H1]; [repeat (destruct H2 as [H2|H2];
       [rewrite <- H1 in H2; injection H2; clear H1 H2; intros; first [ pickdisj | exfalso; zmod ]|]); elim H2|]). elim H1. Qed.

  (** two different faces share no qubit or exactly two *)
  Lemma hex_two f g : hexa M f -> hexa M g -> f <> g -> length (ovl hb (hex_nb f) (hex_nb g)) = 0%nat \/ length (ovl hb (hex_nb f) (hex_nb g)) = 2%nat.
  Proof. destruct f as [x y], g as [x' y']. intros Hf Hg Hne. 
    destruct (existsb (fun p => cmem p (hex_nb (x', y'))) (hex_nb (x, y))) eqn:EX.
    2: { left. unfold ovl. rewrite filter_none; [reflexivity|]. intros p Hp. destruct (cmem p (hex_nb (x', y'))) eqn:E; [|now rewrite andb_false_r].
         exfalso. assert (existsb (fun p => cmem p (hex_nb (x', y'))) (hex_nb (x, y)) = true) by (apply existsb_exists; eauto). congruence. }
    apply existsb_exists in EX. destruct EX as (p0 & P1 & P2). apply cmem_In in P2. pose proof (hex_near x y x' y' p0 Hf Hg P1 P2) as D. clear p0 P1 P2.
    destruct Hf as [(A1 & A2 & A3 & A4) A5]. destruct Hg as [(B1 & B2 & B3 & B4) B5]. cbn [fst snd] in *.
    destruct D as [[-> ->]|[[-> ->]|[[-> ->]|[[-> ->]|[[-> ->]|[[-> ->]|[-> ->]]]]]]].
    - now elim Hne.
    - right. ovl_eval. rewrite ?andb_true_r. rewrite !hb_true by (unfold hexd, hexpt; cbn [fst snd]; zmod). reflexivity.
    - right. ovl_eval. rewrite ?andb_true_r. rewrite !hb_true by (unfold hexd, hexpt; cbn [fst snd]; zmod). reflexivity.
    - right. ovl_eval. rewrite ?andb_true_r. rewrite !hb_true by (unfold hexd, hexpt; cbn [fst snd]; zmod). reflexivity.
    - right. ovl_eval. rewrite ?andb_true_r. rewrite !hb_true by (unfold hexd, hexpt; cbn [fst snd]; zmod). reflexivity.
    - right. ovl_eval. rewrite ?andb_true_r. rewrite !hb_true by (unfold hexd, hexpt; cbn [fst snd]; zmod). reflexivity.
    - right. ovl_eval. rewrite ?andb_true_r. rewrite !hb_true by (unfold hexd, hexpt; cbn [fst snd]; zmod). reflexivity. Qed.

  Ltac hbs := repeat match goal with |- context [hb ?p] =>
    first [ rewrite (hb_true p) by (unfold hexd, hexpt; cbn [fst snd]; zmod) | rewrite (hb_false p) by (unfold hexd, hexpt; cbn [fst snd]; zmod) ] end.
  (** number of qubits of a face *)
  Lemma hex_size f : M mod 3 = 1 -> hexa M f -> length (filter hb (hex_nb f)) = 4%nat \/ length (filter hb (hex_nb f)) = 6%nat.
  Proof. destruct f as [x y]. intros HM [(A1 & A2 & A3 & A4) A5]. cbn [fst snd] in *. cbn [hex_nb]. rewrite !len_filter_cons, len_filter_nil.
    destruct (Z.eq_dec y 0) as [->|Hy]; [left; hbs; reflexivity|].
    destruct (Z.eq_dec x y) as [->|Hx]; [left; hbs; reflexivity|].
    destruct (Z.eq_dec (x + y) (2 * M - 2)) as [Hz|Hz]; [left; hbs; reflexivity|].
    right; hbs; reflexivity. Qed.
  Lemma hex_size_even f : M mod 3 = 0 -> hexa M f -> length (filter hb (hex_nb f)) = 2%nat \/ length (filter hb (hex_nb f)) = 4%nat \/ length (filter hb (hex_nb f)) = 6%nat.
  Proof. destruct f as [x y]. intros HM [(A1 & A2 & A3 & A4) A5]. cbn [fst snd] in *. cbn [hex_nb]. rewrite !len_filter_cons, len_filter_nil.
    destruct (Z.eq_dec y 0) as [->|Hy]; [right; left; hbs; reflexivity|].
    destruct (Z.eq_dec (x + y) (2 * M - 2)) as [Hz|Hz].
    - destruct (Z.eq_dec x y) as [->|Hx]; [left; hbs; reflexivity|]. right; left; hbs; reflexivity.
    - destruct (Z.eq_dec x y) as [->|Hx]; [right; left; hbs; reflexivity|]. right; right; hbs; reflexivity. Qed.

  (** a qubit of a face that no other face at the same height or below contains *)
  Definition hex_piv (f : coord) : coord := let (x, y) := f in if x =? y then (x + 1, y + 1) else (x - 1, y + 1).
  Lemma hex_piv_in f : In (hex_piv f) (hex_nb f).
  Proof. destruct f as [x y]. unfold hex_piv. destruct (x =? y); cbn; tauto. Qed.
  Lemma hex_piv_data f : M mod 3 = 1 -> hexa M f -> hexd M (hex_piv f).
  Proof. destruct f as [x y]. intros HM [(A1 & A2 & A3 & A4) A5]. cbn [fst snd] in *. unfold hex_piv, hexd, hexpt. destruct (Z.eqb_spec x y); cbn [fst snd]; zmod. Qed.
  Lemma hex_piv_up f g : hexa M f -> hexa M g -> f <> g -> In (hex_piv f) (hex_nb g) -> snd f < snd g.
  Proof. destruct f as [x y], g as [x' y']. intros [(A1 & A2 & A3 & A4) A5] [(B1 & B2 & B3 & B4) B5] Hne. cbn [fst snd] in *. unfold hex_piv.
    destruct (Z.eqb_spec x y) as [->|Hx]; cbn [hex_nb In]; intros H; repeat (destruct H as [H|H]; [injection H; clear H; intros; try lia; try zmod|]); try contradiction H.
    all: elim Hne; apply f_equal2; lia. Qed.

  (** the boundary y = 0 *)
  Lemma hex_bdry f : M mod 3 = 1 -> hexa M f -> Nat.odd (length (filter (fun p => hb p && (snd p =? 0)) (hex_nb f))) = false.
  Proof. destruct f as [x y]. intros HM [(A1 & A2 & A3 & A4) A5]. cbn [fst snd] in *. cbn [hex_nb]. rewrite !len_filter_cons, len_filter_nil. cbn [snd].
    destruct (Z.eq_dec y 0) as [->|Hy]; [|destruct (Z.eq_dec y 1) as [->|Hy1]].
    - cbn [Z.add Z.sub Z.opp Z.pos_sub Z.eqb]. rewrite ?andb_false_r, ?andb_true_r. hbs. reflexivity.
    - cbn [Z.add Z.sub Z.opp Z.pos_sub Z.eqb Pos.add Pos.succ]. rewrite ?andb_false_r, ?andb_true_r. hbs. reflexivity.
    - replace (y + 1 =? 0) with false by (symmetry; apply Z.eqb_neq; lia). replace (y - 1 =? 0) with false by (symmetry; apply Z.eqb_neq; lia).
      replace (y =? 0) with false by (symmetry; apply Z.eqb_neq; lia). rewrite ?andb_false_r. reflexivity. Qed.
End HexGeom.
