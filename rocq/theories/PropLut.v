(** * PropLut: properties C24, C25 (lookup-table decoder) *)
From Verif Require Import LutProofs ColorDecode.

(** int8 arrays, the documented argument type *)
Definition int8 (s : vec) : ndarr := mkArr 1 s.

(** ** C24 *)
(** The table has an entry for exactly the syndromes of errors (and no other key); the entry has that syndrome and
    minimum weight among all errors with that syndrome. *)
Theorem C24_table : forall n H,
  (forall s e, kfind (tobytes (int8 s)) (generate_lut (mkNd n H)) = Some e ->
     length e = n /\ mulMV H e = s /\ forall e', length e' = n -> mulMV H e' = s -> weight e <= weight e') /\
  (forall s, (exists e, kfind (tobytes (int8 s)) (generate_lut (mkNd n H)) = Some e) <-> (exists e, length e = n /\ mulMV H e = s)) /\
  (forall k e, kfind k (generate_lut (mkNd n H)) = Some e -> exists s, k = tobytes (int8 s) /\ exists e', length e' = n /\ mulMV H e' = s).
Proof. intros n H. split; [|split].
  - intros s e He. exact (proj1 (lut_spec n H s) e He).
  - intros s. split; [|apply lut_spec]. intros (e & He). destruct (proj1 (lut_spec n H s) e He) as (A & B & _). eauto.
  - intros k e He. apply lut_keys. congruence. Qed.
Print Assumptions C24_table.

(** ties: the entry is the first minimum in increasing binary order *)
Theorem C24_first_minimum : forall n H s e, kfind (tobytes (int8 s)) (generate_lut (mkNd n H)) = Some e ->
  forall e', length e' = n -> mulMV H e' = s -> weight e' = weight e -> val e <= val e'.
Proof. intros n H s e He e' Hl Hs Hw. rewrite lut_find in He. set (ix := filter _ _) in He.
  assert (V : forall i, i < 2 ^ n -> val (binary_digits n i) = i).
  { intros i Hi. assert (INJ : forall a b, length a = n -> length b = n -> binary_digits n (val a) = binary_digits n (val b) -> a = b).
    { intros a b Ha Hb E. rewrite <- (digits_val a), <- (digits_val b). unfold vec in *. now rewrite Ha, Hb. }
    (* counting: digits is injective on [0, 2^n) because it is onto the 2^n words *)
    assert (P : forall k j, j < 2 ^ k -> val (binary_digits k j) = j).
    { induction k as [|k IH]; intros j Hj; [cbn in *; lia|]. rewrite digits_S. cbn [val]. rewrite digits_length.
      assert (E2 : binary_digits k j = binary_digits k (j mod 2 ^ k)) by (apply digits_ext; intros b Hb; now rewrite Nat.mod_pow2_bits_low).
      pose proof (Nat.pow_nonzero 2 k ltac:(lia)) as NZ.
      rewrite E2, IH by (apply Nat.mod_upper_bound; auto).
      pose proof (Nat.testbit_spec' j k) as TS. pose proof (Nat.div_mod j (2 ^ k) NZ) as DM. cbn [Nat.pow] in Hj.
      assert (D2 : j / 2 ^ k < 2) by (apply Nat.div_lt_upper_bound; lia).
      rewrite (Nat.mod_small (j / 2 ^ k)) in TS by auto. destruct (Nat.testbit j k); cbn [Nat.b2n] in TS; rewrite <- TS in DM; lia. }
    now apply P. }
  assert (IX : forall i, In i ix -> i < 2 ^ n) by (intros i Hi; apply filter_In in Hi; destruct Hi as [Hi _]; apply in_seq in Hi; lia).
  assert (SO : forall i j, i < j < length ix -> nth i ix 0 < nth j ix 0).
  { assert (G : forall (f : nat -> bool) m a, forall i j, i < j < length (filter f (seq a m)) -> nth i (filter f (seq a m)) 0 < nth j (filter f (seq a m)) 0).
    { intros f m. induction m as [|m IH]; intros a i j Hij; [cbn in Hij; lia|]. cbn [seq filter] in *. destruct (f a); [|now apply IH].
      cbn [length] in Hij. destruct j as [|j]; [lia|]. destruct i as [|i]; cbn [nth]; [|apply IH; lia].
      assert (Hn : In (nth j (filter f (seq (S a) m)) 0) (filter f (seq (S a) m))) by (apply nth_In; lia). apply filter_In in Hn. destruct Hn as [Hn _]. apply in_seq in Hn. lia. }
    apply G. }
  assert (M : forall l b, (forall i, In i l -> i < 2 ^ n) -> b < 2 ^ n -> (forall i, In i l -> b < i) -> (forall i j, i < j < length l -> nth i l 0 < nth j l 0) ->
     forall k, In k (b :: l) -> weight (binary_digits n k) = weight (min_sum (binary_digits n b) (map (binary_digits n) l)) -> val (min_sum (binary_digits n b) (map (binary_digits n) l)) <= k).
  { induction l as [|a l IH]; intros b R Rb Lb S k Hk Wk; cbn [map min_sum] in *.
    - destruct Hk as [<-|[]]. rewrite V by auto. lia.
    - assert (S' : forall i j, i < j < length l -> nth i l 0 < nth j l 0) by (intros i j Hij; apply (S (Datatypes.S i) (Datatypes.S j)); cbn; lia).
      assert (La : forall i, In i l -> a < i).
      { intros i Hi. destruct (In_nth l i 0 Hi) as (q & Hq & <-). apply (S 0 (Datatypes.S q)). cbn. lia. }
      destruct (Nat.ltb_spec (weight (binary_digits n a)) (weight (binary_digits n b))) as [Lt|Ge].
      + destruct Hk as [<-|Hk].
        * exfalso. pose proof (min_sum_le (map (binary_digits n) l) (binary_digits n a) (binary_digits n a) (or_introl eq_refl)). lia.
        * apply IH; auto; [intros i Hi; apply R; now right|apply R; now left].
      + assert (Lb' : forall i, In i l -> b < i) by (intros i Hi; apply Lb; now right).
        assert (Rl : forall i, In i l -> i < 2 ^ n) by (intros i Hi; apply R; now right).
        destruct Hk as [<-|[<-|Hk]].
        * apply IH; auto. now left.
        * pose proof (min_sum_le (map (binary_digits n) l) (binary_digits n b) (binary_digits n b) (or_introl eq_refl)).
          specialize (IH b Rl Rb Lb' S' b (or_introl eq_refl)). pose proof (Lb a (or_introl eq_refl)). rewrite IH; lia.
        * apply IH; auto. now right. }
  assert (Hin : In (val e') ix).
  { assert (E : e' = binary_digits n (val e')) by (symmetry; rewrite <- Hl; apply digits_val).
    assert (Lv : val e' < 2 ^ n) by (rewrite <- Hl; apply val_lt).
    apply filter_In. split; [apply in_seq; lia|]. rewrite <- E, Hs. apply key_eqb_refl. }
  assert (E : e' = binary_digits n (val e')) by (symmetry; rewrite <- Hl; apply digits_val).
  clearbody ix. destruct ix as [|i0 ix]; [discriminate|]. cbn [map] in He. injection He as <-.
  apply M; auto.
  - intros i Hi. apply IX. now right.
  - apply IX. now left.
  - intros i Hi. destruct (In_nth ix i 0 Hi) as (q & Hq & <-). apply (SO 0 (S q)). cbn. lia.
  - intros i j Hij. apply (SO (S i) (S j)). cbn. lia.
  - rewrite <- E. exact Hw. Qed.
Print Assumptions C24_first_minimum.

(** every table entry corrects every error lighter than half the least weight of a nontrivial logical operator *)
Lemma lut_corrects n own other d e est : wf n own -> wf n other -> length e = n ->
  (forall v, nontrivial_logical n own other v -> d <= weight v) -> lut_entry n other (mulMV other e) est -> 2 * weight e < d ->
  mulMV other (vxor e est) = vzero (length other) /\ span n own (vxor e est).
Proof. intros W1 W2 He HD (L & S & M) Hw.
  assert (LX : length (vxor e est) = n) by (rewrite vxor_length; unfold vec in *; lia).
  assert (Z0 : mulMV other (vxor e est) = vzero (length other)).
  { apply (vec_ext (length other)); [unfold mulMV; now rewrite map_length|apply vzero_length|]. intros j Hj. rewrite nth_vzero, nth_mulMV by auto.
    rewrite dot_vxor_r by (unfold vec in *; lia). rewrite <- !nth_mulMV by auto. rewrite S. apply xorb_nilpotent. }
  split; auto. apply in_spanb_spec; auto. destruct (in_spanb n own (vxor e est)) eqn:EI; auto. exfalso.
  assert (NT : nontrivial_logical n own other (vxor e est)).
  { split.
    - split; auto. intros r Hr. destruct (In_nth other r [] Hr) as (j & Hj & <-). rewrite <- nth_mulMV by auto. rewrite Z0. apply nth_vzero.
    - intros SP. apply in_spanb_spec in SP; auto. congruence. }
  specialize (HD _ NT). specialize (M e He eq_refl). pose proof (weight_vxor_le e est). lia. Qed.

(** the tables *)
Definition TX (c : css) := generate_lut (css_Hz c).
Definition TZ (c : css) := generate_lut (css_Hx c).
Definition nonempty {A} (l : list A) : bool := negb (length l =? 0).
Definition has_x (o : lut_op) : bool := match o with OpGenX | OpDecX _ => true | _ => false end.

(** state after any history *)
Lemma lut_inv c b os : css_Hx c = mkNd (nd_cols (css_Hx c)) (nd_rows (css_Hx c)) -> css_Hz c = mkNd (nd_cols (css_Hz c)) (nd_rows (css_Hz c)) ->
  let s := lut_run (LutDecoder c b) os in
  ld_code s = c /\ (x_lut s = [] \/ x_lut s = TX c) /\
  (is_self_dual c = false -> z_lut s = [] \/ z_lut s = TZ c) /\
  (is_self_dual c = true -> z_lut s = x_lut s /\ (x_lut s = [] <-> b = false /\ existsb has_x os = false)).
Proof. intros EX EZ. assert (NX : nonempty (TX c) = true) by (unfold TX; rewrite EZ; pose proof (lut_nonempty (nd_cols (css_Hz c)) (nd_rows (css_Hz c))); unfold nonempty; destruct (length _); auto; congruence).
  assert (NZ : nonempty (TZ c) = true) by (unfold TZ; rewrite EX; pose proof (lut_nonempty (nd_cols (css_Hx c)) (nd_rows (css_Hx c))); unfold nonempty; destruct (length _); auto; congruence).
  set (I := fun (h : bool) (s : lutdec) => ld_code s = c /\ (x_lut s = [] \/ x_lut s = TX c) /\ (is_self_dual c = false -> z_lut s = [] \/ z_lut s = TZ c) /\
     (is_self_dual c = true -> z_lut s = x_lut s /\ (x_lut s = [] <-> h = false))).
  assert (TXn : TX c <> []) by (intros E; rewrite E in NX; discriminate). assert (TZn : TZ c <> []) by (intros E; rewrite E in NZ; discriminate).
  assert (GX : forall h s, I h s -> I true (generate_x_lut s)).
  { intros h s (A & B & C & D). unfold generate_x_lut. rewrite A. destruct B as [B|B]; rewrite B.
    - cbn [length Nat.eqb negb]. fold (TX c). destruct (is_self_dual c) eqn:SD; unfold I; cbn [ld_code x_lut z_lut].
      + repeat split; auto; try discriminate; try congruence; intros; contradiction.
      + repeat split; auto; discriminate.
    - unfold nonempty in NX. rewrite NX. unfold I. repeat split; auto; try (intros; apply D; auto); intros; rewrite B in *; congruence. }
  assert (GZ : forall h s, I h s -> I h (generate_z_lut s)).
  { intros h s (A & B & C & D). unfold generate_z_lut. rewrite A. destruct (Nat.eqb_spec (length (z_lut s)) 0) as [E0|E0]; cbn [negb]; [|repeat split; auto; apply D; auto].
    fold (TZ c). destruct (is_self_dual c) eqn:SD; unfold I; cbn [ld_code x_lut z_lut].
    - repeat split; auto; try discriminate; apply D; auto.
    - repeat split; auto; discriminate. }
  assert (XT : forall s h, I h s -> (length (x_lut s) =? 0) = false -> I true s).
  { intros s h (A & B & C & D) E. repeat split; auto; try (intros; apply D; auto). intros HX. rewrite HX in E. discriminate. discriminate. }
  assert (ST : forall o h s, I h s -> I (h || has_x o)%bool (lut_step s o)).
  { intros o h s H. destruct o as [| |syn|syn]; cbn [has_x lut_step fst decode_x decode_z]; rewrite ?orb_true_r, ?orb_false_r; eauto.
    - destruct (length (x_lut s) =? 0) eqn:E; cbn [fst]; eauto.
    - destruct (length (z_lut s) =? 0) eqn:E; cbn [fst]; eauto. }
  assert (RUN : forall os h s, I h s -> I (h || existsb has_x os)%bool (lut_run s os)).
  { clear os. induction os as [|o os IH]; intros h s H; cbn [lut_run fold_left existsb]; [now rewrite orb_false_r|]. rewrite orb_assoc. apply IH. auto. }
  assert (I0 : I b (LutDecoder c b)).
  { assert (J : I false (mkLut c [] [])) by (unfold I; cbn; repeat split; auto). destruct b; cbn [LutDecoder]; [|exact J]. eauto. }
  specialize (RUN os b _ I0). destruct RUN as (A & B & C & D). cbv zeta. split; [exact A|]. split; [exact B|]. split; [exact C|].
  intros SD. destruct (D SD) as [D1 D2]. split; [exact D1|]. rewrite D2, orb_false_iff. reflexivity. Qed.

Lemma get_lut c n H (e : vec) : c = mkNd n H -> length e = n -> exists est, kfind (tobytes (int8 (mulMV H e))) (generate_lut c) = Some est /\ lut_entry n H (mulMV H e) est.
Proof. intros -> He. destruct (proj2 (lut_spec n H (mulMV H e))) as (est & E); eauto. exists est. split; auto. exact (proj1 (lut_spec n H _) est E). Qed.

(** ** C24/C25: X decoding, whatever was called before *)
Theorem C25_decode_x_any_history : forall L distance Hx Hz xd zd c init os e, opt_ok Hx -> opt_ok Hz ->
  CSSCode L distance Hx Hz xd zd = Ret c -> length e = sc_n (css_stab c) ->
  exists syn st est, get_z_syndrome c e = Ret syn /\ decode_x (int8 syn) (lut_run (LutDecoder c init) os) = (st, Ret est) /\
    length est = sc_n (css_stab c) /\ get_z_syndrome c est = Ret syn /\
    (forall e', get_z_syndrome c e' = Ret syn -> weight est <= weight e') /\
    (forall d, (forall v, nontrivial_logical (sc_n (css_stab c)) (nd_rows (css_Hx c)) (nd_rows (css_Hz c)) v -> d <= weight v) ->
       2 * weight e < d -> span (sc_n (css_stab c)) (nd_rows (css_Hx c)) (vxor e est)).
Proof. intros L distance Hx Hz xd zd c init os e OX OZ H He.
  destruct (CSSCode_inv L distance Hx Hz xd zd c OX OZ H) as ((EX & EZ & WX & WZ & O & _ & _ & En & _ & _) & _).
  rewrite En in He. rewrite En. set (n := nd_cols (hx_of Hx Hz)) in *.
  destruct (lut_inv c init os) as (I1 & I2 & I3 & I4); [rewrite EX; reflexivity|rewrite EZ; reflexivity|].
  set (s := lut_run (LutDecoder c init) os) in *.
  destruct (get_lut (css_Hz c) n (nd_rows (hz_of Hx Hz)) e EZ He) as (est & Ef & LE).
  assert (SY : forall v, length v = n -> get_z_syndrome c v = Ret (mulMV (nd_rows (hz_of Hx Hz)) v)).
  { intros v Hv. unfold get_z_syndrome, matvec. rewrite EZ. cbn [nd_cols nd_rows]. unfold vec in *. now rewrite Hv, Nat.eqb_refl. }
  exists (mulMV (nd_rows (hz_of Hx Hz)) e), (if length (x_lut s) =? 0 then generate_x_lut s else s), est. split; [now apply SY|].
  assert (XL : x_lut (if length (x_lut s) =? 0 then generate_x_lut s else s) = TX c).
  { destruct I2 as [E|E].
    - rewrite E. cbn [length Nat.eqb]. unfold generate_x_lut. rewrite E, I1. cbn [length Nat.eqb negb]. destruct (is_self_dual c); reflexivity.
    - destruct (length (x_lut s) =? 0) eqn:E0; [|exact E]. unfold generate_x_lut. rewrite E0, I1. cbn [negb]. destruct (is_self_dual c); reflexivity. }
  split; [unfold decode_x; rewrite XL; unfold TX; now rewrite Ef|].
  destruct LE as (L1 & L2 & L3). split; auto. split; [rewrite SY by auto; now rewrite L2|]. split.
  - intros e' HS. unfold get_z_syndrome, matvec in HS. rewrite EZ in HS. cbn [nd_cols nd_rows] in HS. destruct (Nat.eqb_spec n (length e')); [|discriminate]. injection HS as HS. apply L3; auto.
  - intros d HD Hw. rewrite EX in *. rewrite EZ in HD. cbn [nd_rows] in *. apply (lut_corrects n _ (nd_rows (hz_of Hx Hz)) d); auto. split; auto. Qed.
Print Assumptions C25_decode_x_any_history.

(** Z decoding: right after any history unless the code counts as self-dual; for a self-dual code with equal matrices
    right after any history in which the X table was built first *)
Theorem C25_decode_z_history : forall L distance Hx Hz xd zd c init os e, opt_ok Hx -> opt_ok Hz ->
  CSSCode L distance Hx Hz xd zd = Ret c -> length e = sc_n (css_stab c) ->
  is_self_dual c = false \/ (css_Hx c = css_Hz c /\ (init = true \/ existsb has_x os = true)) ->
  exists syn st est, get_x_syndrome c e = Ret syn /\ decode_z (int8 syn) (lut_run (LutDecoder c init) os) = (st, Ret est) /\
    length est = sc_n (css_stab c) /\ get_x_syndrome c est = Ret syn /\
    (forall e', get_x_syndrome c e' = Ret syn -> weight est <= weight e') /\
    (forall d, (forall v, nontrivial_logical (sc_n (css_stab c)) (nd_rows (css_Hz c)) (nd_rows (css_Hx c)) v -> d <= weight v) ->
       2 * weight e < d -> span (sc_n (css_stab c)) (nd_rows (css_Hz c)) (vxor e est)).
Proof. intros L distance Hx Hz xd zd c init os e OX OZ H He HC.
  destruct (CSSCode_inv L distance Hx Hz xd zd c OX OZ H) as ((EX & EZ & WX & WZ & O & _ & _ & En & _ & _) & _).
  rewrite En in He. rewrite En. set (n := nd_cols (hx_of Hx Hz)) in *.
  destruct (lut_inv c init os) as (I1 & I2 & I3 & I4); [rewrite EX; reflexivity|rewrite EZ; reflexivity|].
  set (s := lut_run (LutDecoder c init) os) in *.
  destruct (get_lut (css_Hx c) n (nd_rows (hx_of Hx Hz)) e EX He) as (est & Ef & LE).
  assert (SY : forall v, length v = n -> get_x_syndrome c v = Ret (mulMV (nd_rows (hx_of Hx Hz)) v)).
  { intros v Hv. unfold get_x_syndrome, matvec. rewrite EX. cbn [nd_cols nd_rows]. unfold vec in *. now rewrite Hv, Nat.eqb_refl. }
  exists (mulMV (nd_rows (hx_of Hx Hz)) e), (if length (z_lut s) =? 0 then generate_z_lut s else s), est. split; [now apply SY|].
  assert (ZL : z_lut (if length (z_lut s) =? 0 then generate_z_lut s else s) = TZ c).
  { destruct (is_self_dual c) eqn:SD.
    - destruct HC as [|(EQ & HB)]; [discriminate|]. destruct (I4 eq_refl) as [J1 J2]. unfold TZ. rewrite EQ. fold (TX c).
      assert (XN : x_lut s <> []) by (intros E; apply J2 in E; destruct E; destruct HB; congruence).
      destruct I2 as [|E]; [contradiction|]. rewrite J1. destruct (Nat.eqb_spec (length (x_lut s)) 0) as [E0|E0]; [|rewrite J1; exact E].
      destruct (x_lut s); [congruence|discriminate].
    - destruct (I3 eq_refl) as [E|E].
      + rewrite E. cbn [length Nat.eqb]. unfold generate_z_lut. rewrite E, I1, SD. reflexivity.
      + destruct (length (z_lut s) =? 0) eqn:E0; [|exact E]. unfold generate_z_lut. rewrite E0, I1, SD. reflexivity. }
  split; [unfold decode_z; rewrite ZL; unfold TZ; now rewrite Ef|].
  destruct LE as (L1 & L2 & L3). split; auto. split; [rewrite SY by auto; now rewrite L2|]. split.
  - intros e' HS. unfold get_x_syndrome, matvec in HS. rewrite EX in HS. cbn [nd_cols nd_rows] in HS. destruct (Nat.eqb_spec n (length e')); [|discriminate]. injection HS as HS. apply L3; auto.
  - intros d HD Hw. rewrite EX in HD. rewrite EZ in *. cbn [nd_rows] in *. apply (lut_corrects n _ (nd_rows (hx_of Hx Hz)) d); auto. split; auto. Qed.
Print Assumptions C25_decode_z_history.

(** For every code that counts as self-dual, on a decoder created without tables, decoding Z before anything about X
    was asked raises KeyError, for every syndrome and as often as it is tried. *)
Theorem C25_self_dual_z_first_refuted : forall L distance Hx Hz xd zd c os syn, opt_ok Hx -> opt_ok Hz ->
  CSSCode L distance Hx Hz xd zd = Ret c -> is_self_dual c = true -> existsb has_x os = false ->
  exists st, decode_z syn (lut_run (LutDecoder c false) os) = (st, Raise KeyError).
Proof. intros L distance Hx Hz xd zd c os syn OX OZ H SD HO.
  destruct (CSSCode_inv L distance Hx Hz xd zd c OX OZ H) as ((EX & EZ & _) & _).
  destruct (lut_inv c false os) as (I1 & I2 & I3 & I4); [rewrite EX; reflexivity|rewrite EZ; reflexivity|].
  set (s := lut_run (LutDecoder c false) os) in *. destruct (I4 SD) as [J1 J2]. assert (E : x_lut s = []) by (apply J2; auto).
  eexists. unfold decode_z. rewrite J1, E. cbn [length Nat.eqb]. unfold generate_z_lut. rewrite J1, E, I1, SD. cbn [length Nat.eqb negb z_lut kfind]. reflexivity. Qed.
Print Assumptions C25_self_dual_z_first_refuted.

(** Self-dual codes whose two matrices list the checks differently get Z corrections for the wrong syndrome. *)
Definition perm_hx : nd := mkNd 4 [[true;true;false;false];[false;false;true;true]].
Definition perm_hz : nd := mkNd 4 [[false;false;true;true];[true;true;false;false]].
Theorem C25_self_dual_permuted_refuted : exists c e syn st est,
  CSSCode ldpc_ref 1 (Some perm_hx) (Some perm_hz) None None = Ret c /\ is_self_dual c = true /\
  get_x_syndrome c e = Ret syn /\ decode_z (int8 syn) (LutDecoder c true) = (st, Ret est) /\ get_x_syndrome c est <> Ret syn.
Proof. destruct (CSSCode ldpc_ref 1 (Some perm_hx) (Some perm_hz) None None) as [c|] eqn:E; [|vm_compute in E; discriminate].
  vm_compute in E. injection E as <-. eexists _, [true;false;false;false], _, _, _. split; [reflexivity|]. split; [reflexivity|]. split; [reflexivity|]. split; [reflexivity|].
  vm_compute. discriminate. Qed.
Print Assumptions C25_self_dual_permuted_refuted.

(** A syndrome stored in wider integers is never found, whatever the code and the history. *)
Theorem C25_wide_syndrome_refuted : forall L distance Hx Hz xd zd c init os w s, opt_ok Hx -> opt_ok Hz ->
  CSSCode L distance Hx Hz xd zd = Ret c -> 2 <= w -> length s = length (nd_rows (css_Hz c)) -> s <> [] ->
  exists st, decode_x (mkArr w s) (lut_run (LutDecoder c init) os) = (st, Raise KeyError).
Proof. intros L distance Hx Hz xd zd c init os w s OX OZ H Hw Hs Hne.
  destruct (CSSCode_inv L distance Hx Hz xd zd c OX OZ H) as ((EX & EZ & WX & WZ & O & _ & _ & En & _ & _) & _).
  destruct (lut_inv c init os) as (I1 & I2 & I3 & I4); [rewrite EX; reflexivity|rewrite EZ; reflexivity|].
  set (t := lut_run (LutDecoder c init) os) in *. exists (if length (x_lut t) =? 0 then generate_x_lut t else t).
  assert (XL : x_lut (if length (x_lut t) =? 0 then generate_x_lut t else t) = TX c).
  { destruct I2 as [E|E].
    - rewrite E. cbn [length Nat.eqb]. unfold generate_x_lut. rewrite E, I1. cbn [length Nat.eqb negb]. destruct (is_self_dual c); reflexivity.
    - destruct (length (x_lut t) =? 0) eqn:E0; [|exact E]. unfold generate_x_lut. rewrite E0, I1. cbn [negb]. destruct (is_self_dual c); reflexivity. }
  unfold decode_x. rewrite XL. unfold TX. rewrite EZ in *. cbn [nd_rows] in Hs.
  destruct (kfind (tobytes (mkArr w s)) (generate_lut _)) eqn:EF; [|reflexivity]. exfalso.
  destruct (lut_keys (nd_cols (hx_of Hx Hz)) (nd_rows (hz_of Hx Hz)) (tobytes (mkArr w s))) as (s' & EK & e & He & HS); [congruence|].
  assert (LB : forall w s, 1 <= w -> length (tobytes (mkArr w s)) = w * length s).
  { clear. intros w s Hw. unfold tobytes. cbn [itemsize entries]. induction s as [|b s IH]; cbn [flat_map length]; [lia|]. rewrite app_length, IH. cbn [length]. rewrite repeat_length. lia. }
  apply (f_equal (@length nat)) in EK. rewrite !LB in EK by lia. rewrite <- HS in EK. unfold mulMV in EK. rewrite map_length in EK.
  destruct s; [congruence|]. cbn [length] in *. unfold vec, mat in *. nia. Qed.
Print Assumptions C25_wide_syndrome_refuted.

(** batches *)
Theorem C25_batch_decode_x : forall L distance Hx Hz xd zd c init os errs syns, opt_ok Hx -> opt_ok Hz ->
  CSSCode L distance Hx Hz xd zd = Ret c -> errs <> [] -> Forall2 (fun e s => get_z_syndrome c e = Ret s) errs syns ->
  exists st ests, batch_decode decode_x syns 1 (lut_run (LutDecoder c init) os) = (st, Ret ests) /\
    Forall2 (fun est s => get_z_syndrome c est = Ret s /\ forall e', get_z_syndrome c e' = Ret s -> weight est <= weight e') ests syns.
Proof. intros L distance Hx Hz xd zd c init os errs syns OX OZ H Hne F.
  assert (LEN : forall e s, get_z_syndrome c e = Ret s -> length e = sc_n (css_stab c)).
  { destruct (CSSCode_inv L distance Hx Hz xd zd c OX OZ H) as ((EX & EZ & WX & WZ & O & _ & _ & En & _ & _) & _). intros e s HS.
    unfold get_z_syndrome, matvec in HS. rewrite EZ in HS. cbn [nd_cols] in HS. destruct (Nat.eqb_spec (nd_cols (hx_of Hx Hz)) (length e)); [|discriminate]. now rewrite En. }
  assert (G : forall errs syns, Forall2 (fun e s => get_z_syndrome c e = Ret s) errs syns -> forall os,
    exists st ests, batch decode_x syns 1 (lut_run (LutDecoder c init) os) = (st, Ret ests) /\
    Forall2 (fun est s => get_z_syndrome c est = Ret s /\ forall e', get_z_syndrome c e' = Ret s -> weight est <= weight e') ests syns).
  { clear errs syns F Hne os. induction 1 as [|e s errs syns HS F IH]; intros os; cbn [batch]; [eauto|].
    destruct (C25_decode_x_any_history L distance Hx Hz xd zd c init os e OX OZ H (LEN e s HS)) as (syn & st & est & A & B & C & D & E1 & _).
    rewrite HS in A. injection A as <-. change (mkArr 1 s) with (int8 s). rewrite B.
    assert (ST : st = lut_run (LutDecoder c init) (os ++ [OpDecX (int8 s)])) by (unfold lut_run; rewrite fold_left_app; cbn [fold_left lut_step]; fold (lut_run (LutDecoder c init) os); now rewrite B).
    rewrite ST. destruct (IH (os ++ [OpDecX (int8 s)])) as (st' & ests & E2 & F2). rewrite E2. exists st', (est :: ests). split; auto. }
  destruct F as [|e s errs syns HS F]; [congruence|]. unfold batch_decode. apply (G (e :: errs)). constructor; auto. Qed.
Print Assumptions C25_batch_decode_x.

(** non-vacuity: the Steane code is self-dual with equal matrices *)
Definition steane_h : nd := mkNd 7 [[true;false;false;true;false;true;true];[false;true;false;true;true;false;true];[false;false;true;false;true;true;true]].
Example C25_steane : exists c, CSSCode ldpc_ref 3 (Some steane_h) (Some steane_h) None None = Ret c /\ is_self_dual c = true /\ css_Hx c = css_Hz c /\
  snd (decode_z (int8 [true;true;false]) (lut_run (LutDecoder c true) [OpGenZ; OpDecX (int8 [true;false;true])])) = Ret [false;false;false;true;false;false;false] /\
  snd (decode_z (int8 [true;true;false]) (lut_run (LutDecoder c false) [OpGenZ])) = Raise KeyError.
Proof. destruct (CSSCode ldpc_ref 3 (Some steane_h) (Some steane_h) None None) as [c|] eqn:E; [|vm_compute in E; discriminate].
  exists c. vm_compute in E. injection E as <-. vm_compute. auto. Qed.
