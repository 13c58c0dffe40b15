(** * StabSign: for generators of pure X or pure Z type the sign column is exact. *)
From Verif Require Export StabProofs3.

Fixpoint ovl (x z : vec) : nat := match x, z with a :: x', b :: z' => (if a && b then 1 else 0) + ovl x' z' | _, _ => 0 end.
(** (-1)^s X^x Z^z as a phase and letters *)
Definition canon (s : bool) (x z : vec) : spauli := ((2 * Nat.b2n s + 3 * ovl x z) mod 4, unsymp x z).

Lemma ovl_odd x z : Nat.odd (ovl x z) = dot x z.
Proof. revert z; induction x as [|a x IH]; intros [|b z]; simpl; auto. rewrite Nat.odd_add, IH. destruct (a && b); reflexivity. Qed.

Lemma ovl_zero_r x n : ovl x (vzero n) = 0.
Proof. revert n; induction x as [|a x IH]; intros [|n]; simpl; auto. change (repeat false n) with (vzero n). rewrite IH, andb_false_r. auto. Qed.
Lemma ovl_zero_l z n : ovl (vzero n) z = 0.
Proof. revert z; induction n; intros [|b z]; simpl; auto. Qed.

Lemma mod4_double k : (2 * k) mod 4 = 2 * Nat.b2n (Nat.odd k).
Proof. rewrite (Nat.div2_odd k) at 1. replace (2 * (2 * Nat.div2 k + Nat.b2n (Nat.odd k))) with (2 * Nat.b2n (Nat.odd k) + Nat.div2 k * 4) by lia.
  rewrite Nat.mod_add by lia. apply Nat.mod_small. destruct (Nat.odd k); simpl; lia. Qed.

(** multiplying a pure Pauli onto X^x Z^z *)
Lemma pmul_X n x' x z : length x' = n -> length x = n -> length z = n ->
  snd (pmul (unsymp x' (vzero n)) (unsymp x z)) = unsymp (vxor x' x) z /\
  exists m, fst (pmul (unsymp x' (vzero n)) (unsymp x z)) + 3 * ovl x z = 3 * ovl (vxor x' x) z + 4 * m \/
            fst (pmul (unsymp x' (vzero n)) (unsymp x z)) + 3 * ovl x z + 4 * m = 3 * ovl (vxor x' x) z.
Proof.
  assert (K : forall a b : nat, (exists m, a = b + 4 * m \/ a + 4 * m = b) <-> a mod 4 = b mod 4).
  { intros a b. split.
    - intros [m [E|E]]; subst; rewrite Nat.mul_comm, Nat.mod_add; lia.
    - intros E. pose proof (Nat.div_mod a 4 ltac:(lia)). pose proof (Nat.div_mod b 4 ltac:(lia)).
      destruct (le_lt_dec (b / 4) (a / 4)); [exists (a/4 - b/4); left | exists (b/4 - a/4); right]; lia. }
  intros H1 H2 H3. rewrite K.
  revert x x' z H1 H2 H3; induction n as [|n IH]; intros [|a x] [|a' x'] [|b z]; simpl length; try lia; [auto|].
  intros H1 H2 H3. destruct (IH x x' z) as [I1 I2]; try lia. rewrite vzero_S. cbn [unsymp pmul vxor ovl].
  destruct (pmul (unsymp x' (vzero n)) (unsymp x z)) as [k R]. destruct (pmul1 (pauli_of a' false) (pauli_of a b)) as [k1 r] eqn:E1.
  simpl fst in *; simpl snd in *. subst R.
  assert (r = pauli_of (xorb a' a) b) as -> by (destruct a, a', b; simpl in E1; inversion E1; reflexivity).
  split; auto.
  assert (E2 : (k1 + 3 * (if a && b then 1 else 0)) mod 4 = (3 * (if xorb a' a && b then 1 else 0)) mod 4)
    by (destruct a, a', b; simpl in E1; inversion E1; reflexivity).
  rewrite <- Nat.add_mod_idemp_l, Nat.mod_mod, Nat.add_mod_idemp_l by lia.
  replace (k + k1 + 3 * ((if a && b then 1 else 0) + ovl x z)) with ((k + 3 * ovl x z) + (k1 + 3 * (if a && b then 1 else 0))) by lia.
  rewrite Nat.add_mod, I2, E2, <- Nat.add_mod by lia. f_equal. lia. Qed.

Lemma pmul_Z n z' x z : length z' = n -> length x = n -> length z = n ->
  snd (pmul (unsymp (vzero n) z') (unsymp x z)) = unsymp x (vxor z' z) /\
  (fst (pmul (unsymp (vzero n) z') (unsymp x z)) + 3 * ovl x z) mod 4 = (2 * ovl x z' + 3 * ovl x (vxor z' z)) mod 4.
Proof.
  revert x z' z; induction n as [|n IH]; intros [|a x] [|b' z'] [|b z]; simpl length; try lia; [auto|].
  intros H1 H2 H3. destruct (IH x z' z) as [I1 I2]; try lia. rewrite vzero_S. cbn [unsymp pmul vxor ovl].
  destruct (pmul (unsymp (vzero n) z') (unsymp x z)) as [k R]. destruct (pmul1 (pauli_of false b') (pauli_of a b)) as [k1 r] eqn:E1.
  simpl fst in *; simpl snd in *. subst R.
  assert (r = pauli_of a (xorb b' b)) as -> by (destruct a, b', b; simpl in E1; inversion E1; reflexivity).
  split; auto.
  assert (E2 : (k1 + 3 * (if a && b then 1 else 0)) mod 4 = (2 * (if a && b' then 1 else 0) + 3 * (if a && xorb b' b then 1 else 0)) mod 4)
    by (destruct a, b', b; simpl in E1; inversion E1; reflexivity).
  rewrite <- Nat.add_mod_idemp_l, Nat.mod_mod, Nat.add_mod_idemp_l by lia.
  replace (k + k1 + 3 * ((if a && b then 1 else 0) + ovl x z)) with ((k + 3 * ovl x z) + (k1 + 3 * (if a && b then 1 else 0))) by lia.
  rewrite Nat.add_mod, I2, E2, <- Nat.add_mod by lia. f_equal. lia. Qed.

Definition pureX (P : list pauli) : Prop := Forall (fun p => p = PI \/ p = PX) P.
Definition pureZ (P : list pauli) : Prop := Forall (fun p => p = PI \/ p = PZ) P.

Lemma pureX_unsymp P : pureX P -> P = unsymp (map xbit P) (vzero (length P)) /\ map zbit P = vzero (length P).
Proof. induction 1 as [|p P Hp HP [I1 I2]]; simpl; auto. destruct Hp as [-> | ->]; simpl; rewrite I2; (split; [rewrite I1 at 1|]; reflexivity). Qed.
Lemma pureZ_unsymp P : pureZ P -> P = unsymp (vzero (length P)) (map zbit P) /\ map xbit P = vzero (length P).
Proof. induction 1 as [|p P Hp HP [I1 I2]]; simpl; auto. destruct Hp as [-> | ->]; simpl; rewrite I2; (split; [rewrite I1 at 1|]; reflexivity). Qed.

Lemma smul_X n s' P s x z : pureX P -> length P = n -> length x = n -> length z = n ->
  smul (signed s' P) (canon s x z) = canon (xorb s' s) (vxor (map xbit P) x) z.
Proof. intros HP HL Hx Hz. destruct (pureX_unsymp P HP) as [EP _]. rewrite HL in EP.
  assert (Hx' : length (map xbit P) = n) by (rewrite map_length; auto).
  destruct (pmul_X n (map xbit P) x z Hx' Hx Hz) as [E1 [m E2]].
  unfold smul, signed, canon; cbn [fst snd]. rewrite EP at 1. destruct (pmul _ _) as [k R]. cbn [fst snd] in E1, E2. subst R. f_equal.
  replace ((if s' then 2 else 0) + (2 * Nat.b2n s + 3 * ovl x z) mod 4 + k) with ((2 * Nat.b2n s + 3 * ovl x z) mod 4 + (k + (if s' then 2 else 0))) by lia.
  rewrite Nat.add_mod_idemp_l by lia.
  destruct E2 as [E2|E2].
  - replace (2 * Nat.b2n s + 3 * ovl x z + (k + (if s' then 2 else 0))) with (2 * Nat.b2n s + (k + 3 * ovl x z) + (if s' then 2 else 0)) by lia.
    rewrite E2. replace (2 * Nat.b2n s + (3 * ovl (vxor (map xbit P) x) z + 4 * m) + (if s' then 2 else 0)) with
      ((2 * Nat.b2n s + 3 * ovl (vxor (map xbit P) x) z + (if s' then 2 else 0)) + m * 4) by lia.
    rewrite Nat.mod_add by lia. destruct s, s'; cbn [xorb Nat.b2n]; try (f_equal; lia).
    replace (2 * 1 + 3 * ovl (vxor (map xbit P) x) z + 2) with (2 * 0 + 3 * ovl (vxor (map xbit P) x) z + 1 * 4) by lia. now rewrite Nat.mod_add by lia.
  - rewrite <- E2. replace (2 * Nat.b2n (xorb s' s) + (k + 3 * ovl x z + 4 * m)) with (2 * Nat.b2n (xorb s' s) + (k + 3 * ovl x z) + m * 4) by lia.
    rewrite Nat.mod_add by lia. destruct s, s'; cbn [xorb Nat.b2n]; try (f_equal; lia).
    replace (2 * 1 + 3 * ovl x z + (k + 2)) with (2 * 0 + (k + 3 * ovl x z) + 1 * 4) by lia. now rewrite Nat.mod_add by lia. Qed.

Lemma smul_Z n s' P s x z : pureZ P -> length P = n -> length x = n -> length z = n -> dot (map zbit P) x = false ->
  smul (signed s' P) (canon s x z) = canon (xorb s' s) x (vxor (map zbit P) z).
Proof. intros HP HL Hx Hz HD. destruct (pureZ_unsymp P HP) as [EP _]. rewrite HL in EP.
  assert (Hz' : length (map zbit P) = n) by (rewrite map_length; auto).
  destruct (pmul_Z n (map zbit P) x z Hz' Hx Hz) as [E1 E2].
  unfold smul, signed, canon; cbn [fst snd]. rewrite EP at 1. destruct (pmul _ _) as [k R]. cbn [fst snd] in E1, E2. subst R. f_equal.
  assert (E3 : (2 * ovl x (map zbit P)) mod 4 = 0).
  { rewrite mod4_double, ovl_odd, dot_comm, HD. reflexivity. }
  assert (E4 : (k + 3 * ovl x z) mod 4 = (3 * ovl x (vxor (map zbit P) z)) mod 4).
  { rewrite E2. rewrite <- Nat.add_mod_idemp_l, E3 by lia. reflexivity. }
  replace ((if s' then 2 else 0) + (2 * Nat.b2n s + 3 * ovl x z) mod 4 + k) with ((2 * Nat.b2n s + 3 * ovl x z) mod 4 + (k + (if s' then 2 else 0))) by lia.
  rewrite Nat.add_mod_idemp_l by lia.
  replace (2 * Nat.b2n s + 3 * ovl x z + (k + (if s' then 2 else 0))) with ((k + 3 * ovl x z) + (2 * Nat.b2n s + (if s' then 2 else 0))) by lia.
  rewrite <- Nat.add_mod_idemp_l, E4, Nat.add_mod_idemp_l by lia.
  destruct s, s'; cbn [xorb Nat.b2n]; try (f_equal; lia).
  replace (3 * ovl x (vxor (map zbit P) z) + (2 * 1 + 2)) with (2 * 0 + 3 * ovl x (vxor (map zbit P) z) + 1 * 4) by lia. now rewrite Nat.mod_add by lia. Qed.

Lemma canon_inj n s x z s' x' z' : length x = n -> length z = n -> length x' = n -> length z' = n ->
  canon s x z = canon s' x' z' -> s = s' /\ x = x' /\ z = z'.
Proof. intros Hx Hz Hx' Hz' E. unfold canon in E. injection E as E1 E2.
  apply (f_equal symp) in E2. rewrite !symp_unsymp in E2 by lia. apply app_inj_len in E2 as [-> ->]; [|lia].
  split; auto. assert (X : forall a b c, (a + c) mod 4 = (b + c) mod 4 -> a < 4 -> b < 4 -> a = b).
  { intros a b c H Ha Hb. pose proof (Nat.div_mod (a+c) 4 ltac:(lia)). pose proof (Nat.div_mod (b+c) 4 ltac:(lia)).
    assert (4 * ((a+c)/4) + b = 4 * ((b+c)/4) + a) by lia. lia. }
  apply X in E1; destruct s, s'; simpl in *; try lia; auto. Qed.

(** generators of pure type that commute pairwise *)
Definition css_type (l : list sp) : Prop :=
  (forall g, In g l -> pureX (snd g) \/ pureZ (snd g)) /\
  (forall g h, In g l -> In h l -> pcommute (snd g) (snd h)).
Definition signedsp (g : sp) : spauli := signed (neg (fst g)) (snd g).

Lemma binsp_X g n : pureX (snd g) -> length (snd g) = n -> binsp g = map xbit (snd g) ++ vzero n ++ [neg (fst g)].
Proof. intros HP HL. destruct (pureX_unsymp _ HP) as [_ E]. unfold binsp, bin, symp. rewrite E, HL, <- app_assoc. reflexivity. Qed.
Lemma binsp_Z g n : pureZ (snd g) -> length (snd g) = n -> binsp g = vzero n ++ map zbit (snd g) ++ [neg (fst g)].
Proof. intros HP HL. destruct (pureZ_unsymp _ HP) as [_ E]. unfold binsp, bin, symp. rewrite E, HL, <- app_assoc. reflexivity. Qed.

Lemma css_generated n l : allq n l -> css_type l -> forall h,
  generated n (map signedsp l) h <-> exists s x z, length x = n /\ length z = n /\ span (2*n+1) (map binsp l) (x ++ z ++ [s]) /\ h = canon s x z.
Proof.
  intros Hq [HT HC]. assert (W : wf (2*n+1) (map binsp l)) by now apply wf_binsp.
  unfold allq in Hq. rewrite Forall_forall in Hq.
  assert (VZ : vzero (2*n+1) = vzero n ++ vzero n ++ [false]).
  { replace (2*n+1) with (n + (n + 1)) by lia. rewrite !vzero_app. reflexivity. }
  (* the X part of every span element is orthogonal to pure Z generators *)
  assert (OX : forall g, In g l -> pureZ (snd g) -> forall v, span (2*n+1) (map binsp l) v -> dot (map zbit (snd g)) (firstn n v) = false).
  { intros g Hg PZg. apply (span_ind (2*n+1) (map binsp l) (fun v => dot (map zbit (snd g)) (firstn n v) = false)); auto.
    - rewrite VZ, firstn_len_app by apply vzero_length. apply dot_zero_r.
    - intros r v Hr Hv IH. apply in_map_iff in Hr as (h & <- & Hh).
      rewrite <- (firstn_skipn n v). assert (length (firstn n v) = n) by (rewrite firstn_length; lia).
      assert (BH : binsp h = map xbit (snd h) ++ (map zbit (snd h) ++ [neg (fst h)])) by (unfold binsp, bin, symp; now rewrite <- app_assoc).
      assert (LX : length (map xbit (snd h)) = n) by (rewrite map_length; auto).
      rewrite BH, vxor_app by lia. rewrite firstn_len_app by (apply vxor_length'; auto).
      rewrite dot_vxor_r by lia. rewrite IH, xorb_false_r.
      specialize (HC g h Hg Hh). apply pcommute_sympl in HC; [|rewrite !Hq; auto]. unfold sympl in HC.
      destruct (pureZ_unsymp _ PZg) as [_ EX]. rewrite EX, dot_zero_l, xorb_false_l in HC. exact HC. }
  intros h; split.
  - induction 1 as [|g h Hg Hh IH].
    + exists false, (vzero n), (vzero n). rewrite !vzero_length. do 2 (split; auto). rewrite <- VZ. split; [apply span_zero|].
      unfold canon. rewrite ovl_zero_l. simpl. f_equal. clear. induction n; simpl; auto. unfold vzero in *; simpl; rewrite <- IHn; auto.
    + destruct IH as (s & x & z & Hx & Hz & Hs & ->). apply in_map_iff in Hg as (g0 & <- & Hg0).
      assert (SP : span (2*n+1) (map binsp l) (vxor (binsp g0) (x ++ z ++ [s]))).
      { apply span_vxor; auto. apply span_in; auto. apply in_map; auto. }
      destruct (HT g0 Hg0) as [HP|HP].
      * exists (xorb (neg (fst g0)) s), (vxor (map xbit (snd g0)) x), z.
        assert (length (map xbit (snd g0)) = n) by (rewrite map_length; auto).
        split; [apply vxor_length'; auto|]. split; auto. split; [|apply (smul_X n); auto].
        rewrite (binsp_X g0 n), !vxor_app in SP by (rewrite ?vzero_length; auto; lia). rewrite vxor_zero_l in SP by auto. exact SP.
      * exists (xorb (neg (fst g0)) s), x, (vxor (map zbit (snd g0)) z).
        assert (length (map zbit (snd g0)) = n) by (rewrite map_length; auto).
        split; auto. split; [apply vxor_length'; auto|]. split; [|apply (smul_Z n); auto].
        -- rewrite (binsp_Z g0 n), !vxor_app in SP by (rewrite ?vzero_length; auto; lia). rewrite vxor_zero_l in SP by auto. exact SP.
        -- specialize (OX g0 Hg0 HP _ Hs). rewrite firstn_len_app in OX; auto.
  - intros (s & x & z & Hx & Hz & Hs & ->).
    assert (K : forall v, span (2*n+1) (map binsp l) v -> span (2*n+1) (map binsp l) v /\ forall s x z, length x = n -> length z = n -> v = x ++ z ++ [s] -> generated n (map signedsp l) (canon s x z)).
    { clear s x z Hx Hz Hs. apply (span_ind (2*n+1) (map binsp l) (fun v => span (2*n+1) (map binsp l) v /\ forall s x z, length x = n -> length z = n -> v = x ++ z ++ [s] -> generated n (map signedsp l) (canon s x z))); auto.
      - split; [apply span_zero|]. intros s x z Hx Hz E. rewrite VZ in E. apply app_inj_len in E as [<- E]; [|rewrite vzero_length; auto]. apply app_inj_len in E as [<- E]; [|rewrite vzero_length; auto].
        injection E as <-. replace (canon false (vzero n) (vzero n)) with (0, repeat PI n); [constructor|].
        unfold canon. rewrite ovl_zero_l. simpl. f_equal. clear. induction n; simpl; auto. unfold vzero in *; simpl; rewrite <- IHn; auto.
      - intros r v Hr Hv [Hsp IH]. split; [apply span_vxor; auto; apply span_in; auto|]. intros s x z Hx Hz E.
        apply in_map_iff in Hr as (g0 & <- & Hg0).
        assert (LB : length (binsp g0) = 2*n+1) by (rewrite binsp_length, Hq; auto).
        assert (Ev : v = vxor (binsp g0) (x ++ z ++ [s])) by (rewrite <- E; symmetry; apply (vxor_cancel_l (2*n+1)); auto).
        destruct (HT g0 Hg0) as [HP|HP].
        + assert (LX : length (map xbit (snd g0)) = n) by (rewrite map_length; auto).
          rewrite (binsp_X g0 n), !vxor_app in Ev by (rewrite ?vzero_length; auto; lia). rewrite vxor_zero_l in Ev by auto.
          specialize (IH _ (vxor (map xbit (snd g0)) x) z ltac:(apply vxor_length'; auto) Hz Ev).
          apply (gen_mul n (map signedsp l) (signedsp g0)) in IH; [|apply in_map; auto].
          unfold signedsp in IH at 2. rewrite (smul_X n) in IH by (auto; apply vxor_length'; auto).
          rewrite (vxor_cancel_l n) in IH by auto. replace (xorb (neg (fst g0)) _) with s in IH; auto. simpl. destruct (neg (fst g0)), s; reflexivity.
        + assert (LZ : length (map zbit (snd g0)) = n) by (rewrite map_length; auto).
          rewrite (binsp_Z g0 n), !vxor_app in Ev by (rewrite ?vzero_length; auto; lia). rewrite vxor_zero_l in Ev by auto.
          specialize (IH _ x (vxor (map zbit (snd g0)) z) Hx ltac:(apply vxor_length'; auto) Ev).
          apply (gen_mul n (map signedsp l) (signedsp g0)) in IH; [|apply in_map; auto].
          unfold signedsp in IH at 2. rewrite (smul_Z n) in IH; auto.
          * rewrite (vxor_cancel_l n) in IH by auto. replace (xorb (neg (fst g0)) _) with s in IH; auto. simpl. destruct (neg (fst g0)), s; reflexivity.
          * apply vxor_length'; auto.
          * specialize (OX g0 Hg0 HP _ Hsp). rewrite Ev, firstn_len_app in OX; auto. }
    apply (proj2 (K _ Hs)); auto. Qed.

Lemma span_split n (M : mat) v : wf (2*n+1) M -> span (2*n+1) M v -> exists x z s, length x = n /\ length z = n /\ v = x ++ z ++ [s].
Proof. intros W Hv. pose proof (span_length _ _ _ W Hv) as L.
  exists (firstn n v), (firstn n (skipn n v)), (nth (2*n) v false).
  rewrite !firstn_length, skipn_length. do 2 (split; [lia|]).
  rewrite <- (firstn_skipn n v) at 1. f_equal. rewrite <- (firstn_skipn n (skipn n v)) at 1. f_equal.
  assert (NS : forall (l : vec) k i, nth i (skipn k l) false = nth (k + i) l false).
  { intros l; induction l as [|a l IH]; intros [|k] i; simpl; auto; destruct i; auto. }
  apply nth_ext with (d := false) (d' := false); rewrite !skipn_length; simpl; [lia|].
  intros i Hi. assert (i = 0) as -> by lia. rewrite !NS. cbn [nth]. f_equal; lia. Qed.

Lemma css_same_group n l1 l2 : allq n l1 -> allq n l2 -> css_type l1 -> css_type l2 ->
  ((forall v, span (2*n+1) (map binsp l1) v <-> span (2*n+1) (map binsp l2) v) <->
   (forall h, generated n (map signedsp l1) h <-> generated n (map signedsp l2) h)).
Proof. intros Q1 Q2 T1 T2. pose proof (css_generated n l1 Q1 T1) as G1. pose proof (css_generated n l2 Q2 T2) as G2.
  split.
  - intros S h. rewrite G1, G2. split; intros (s & x & z & Hx & Hz & Hs & E); exists s, x, z; repeat split; auto; now apply S.
  - intros S. assert (K : forall l1 l2, allq n l1 -> allq n l2 -> css_type l1 -> css_type l2 -> 
        (forall h, generated n (map signedsp l1) h -> generated n (map signedsp l2) h) -> forall v, span (2*n+1) (map binsp l1) v -> span (2*n+1) (map binsp l2) v).
    { clear. intros l1 l2 Q1 Q2 T1 T2 S v Hv. destruct (span_split n _ _ (wf_binsp n l1 Q1) Hv) as (x & z & s & Hx & Hz & ->).
      assert (generated n (map signedsp l2) (canon s x z)) as H. { apply S. apply (css_generated n l1); auto. exists s, x, z; auto. }
      apply (css_generated n l2) in H; auto. destruct H as (s' & x' & z' & Hx' & Hz' & Hs' & E). apply (canon_inj n) in E as (-> & -> & ->); auto. }
    intros v; split; apply K; auto; intros h; apply S. Qed.

(** number of Y letters *)
Definition numY (P : list pauli) : nat := length (filter (fun p => match p with PY => true | _ => false end) P).
Lemma ovl_numY P : ovl (map xbit P) (map zbit P) = numY P.
Proof. unfold numY. induction P as [|p P IH]; simpl; auto. destruct p; simpl; auto. Qed.
Lemma unsymp_symp P : unsymp (map xbit P) (map zbit P) = P.
Proof. induction P as [|p P IH]; simpl; auto. rewrite IH. destruct p; auto. Qed.

Lemma css_member n l s P : allq n l -> css_type l -> length P = n -> numY P mod 4 = 0 ->
  (span (2*n+1) (map binsp l) (bin s P) <-> generated n (map signedsp l) (signed s P)).
Proof. intros Q T HL HY.
  assert (EC : signed s P = canon s (map xbit P) (map zbit P)).
  { unfold signed, canon. rewrite ovl_numY, unsymp_symp. f_equal. rewrite <- Nat.add_mod_idemp_r, <- Nat.mul_mod_idemp_r, HY by lia. destruct s; reflexivity. }
  assert (EB : bin s P = map xbit P ++ map zbit P ++ [s]) by (unfold bin, symp; now rewrite <- app_assoc).
  assert (LX : length (map xbit P) = n) by (rewrite map_length; auto). assert (LZ : length (map zbit P) = n) by (rewrite map_length; auto).
  rewrite css_generated by auto. rewrite EC, EB. split.
  - intros H. exists s, (map xbit P), (map zbit P). auto.
  - intros (s' & x & z & Hx & Hz & Hs & E). apply (canon_inj n) in E as (-> & -> & ->); auto. Qed.

(** ** statements over the public constructor *)
Lemma ctor_gens w gs d Lz Lx c : (1 <= w)%Z -> StabilizerCode w (Strs gs) d (optStrs Lz) (optStrs Lx) = Ret c ->
  code_gens (sc_n c) (map parse gs) c.
Proof. intros Hw H. apply ctor_iff in H as (n & l & -> & F & _ & HI & ->); auto. simpl.
  assert (map parse (map printsp l) = l) as ->.
  { rewrite map_map. rewrite <- (map_id l) at 2. apply map_ext_in. intros g Hg. rewrite Forall_forall in F. apply parse_print; auto. }
  now apply built_gens in HI. Qed.

Lemma syndrome_prop w gs d Lz Lx c e : (1 <= w)%Z -> StabilizerCode w (Strs gs) d (optStrs Lz) (optStrs Lx) = Ret c ->
  e <> [] -> length (snd (parse e)) = sc_n c ->
  exists s, get_syndrome w c e = Ret s /\ length s = length gs /\
   forall i, i < length gs ->
     (nth i s 0%Z = 0%Z \/ nth i s 0%Z = 1%Z) /\
     (nth i s 0%Z = 0%Z <-> pmul (snd (parse (nth i gs []))) (snd (parse e)) = pmul (snd (parse e)) (snd (parse (nth i gs [])))).
Proof. intros Hw H Ne Hl. pose proof (ctor_gens _ _ _ _ _ _ Hw H) as HC. rewrite (get_syndrome_spec w (sc_n c) (map parse gs)) by auto.
  eexists. split; [reflexivity|]. rewrite !map_length. split; auto. intros i Hi.
  assert (E : nth i (map (fun g : sp => Z.b2z (sympl (snd g) (snd (parse e)))) (map parse gs)) 0%Z = Z.b2z (sympl (snd (parse (nth i gs []))) (snd (parse e)))).
  { rewrite map_map. rewrite (nth_indep _ _ ((fun g => Z.b2z (sympl (snd (parse g)) (snd (parse e)))) [])) by (rewrite map_length; auto).
    apply (map_nth (fun g => Z.b2z (sympl (snd (parse g)) (snd (parse e))))). }
  match goal with |- context [nth i ?l 0%Z] => replace (nth i l 0%Z) with (Z.b2z (sympl (snd (parse (nth i gs []))) (snd (parse e)))) by (symmetry; exact E) end.
  destruct HC as (_ & Hq & _). unfold allq in Hq. rewrite Forall_forall in Hq.
  assert (L : length (snd (parse (nth i gs []))) = length (snd (parse e))).
  { rewrite Hl. apply Hq. apply in_map. apply nth_In; auto. }
  pose proof (pcommute_sympl _ _ L) as PC. unfold pcommute in PC. rewrite PC. destruct (sympl _ _); simpl; split; auto; split; auto; discriminate. Qed.

Lemma syndrome_linear w gs d Lz Lx c P Q sP sQ sR : (1 <= w)%Z ->
  StabilizerCode w (Strs gs) d (optStrs Lz) (optStrs Lx) = Ret c -> 0 < sc_n c -> length P = sc_n c -> length Q = sc_n c ->
  exists s t u, get_syndrome w c (print sP P) = Ret s /\ get_syndrome w c (print sQ Q) = Ret t /\
    get_syndrome w c (print sR (snd (pmul P Q))) = Ret u /\
    length s = length gs /\ length t = length gs /\ length u = length gs /\
    forall i, i < length gs -> nth i u 0%Z = ((nth i s 0 + nth i t 0) mod 2)%Z.
Proof. intros Hw H. pose proof (get_syndrome_mul w (sc_n c) (map parse gs) c P Q sP sQ sR Hw (ctor_gens _ _ _ _ _ _ Hw H)) as K.
  rewrite map_length in K. exact K. Qed.

Lemma equiv_prop w gs d Lz Lx c p1 p2 : (1 <= w)%Z -> StabilizerCode w (Strs gs) d (optStrs Lz) (optStrs Lx) = Ret c ->
  p1 <> [] -> p2 <> [] -> length (snd (parse p1)) = sc_n c -> length (snd (parse p2)) = sc_n c ->
  exists b, stabilizer_equivalent c p1 p2 = Ret b /\
   (b = true <-> span (2 * sc_n c + 1) (map binsp (map parse gs)) (binsp (parse p2)) \/
                 span (2 * sc_n c + 1) (map binsp (map parse gs)) (vxor (binsp (parse p1)) (binsp (parse p2)))).
Proof. intros Hw H. apply stab_equiv_spec. now apply ctor_gens in H. Qed.

Lemma equiv_mismatch w gs d Lz Lx c p1 p2 : (1 <= w)%Z -> StabilizerCode w (Strs gs) d (optStrs Lz) (optStrs Lx) = Ret c ->
  p1 <> [] -> p2 <> [] -> (length (snd (parse p1)) <> sc_n c \/ length (snd (parse p2)) <> sc_n c) ->
  stabilizer_equivalent c p1 p2 = Raise ValueError.
Proof. intros Hw H. apply (stab_equiv_mismatch (sc_n c) (map parse gs)). now apply ctor_gens in H. Qed.

Lemma span_bin_symp n l s P : allq n l -> length P = n -> span (2*n+1) (map binsp l) (bin s P) -> span (2*n) (map symp (map snd l)) (symp P).
Proof. intros Hq HL H. assert (W : wf (2*n+1) (map binsp l)) by now apply wf_binsp.
  assert (W' : wf (2*n) (map symp (map snd l))).
  { apply Forall_forall. intros r Hr. apply in_map_iff in Hr as (Q & <- & HQ). apply in_map_iff in HQ as (g & <- & Hg).
    unfold allq in Hq. rewrite Forall_forall in Hq. rewrite symp_length, Hq; auto. }
  assert (K : forall v, span (2*n+1) (map binsp l) v -> span (2*n) (map symp (map snd l)) (firstn (2*n) v)).
  { apply (span_ind (2*n+1) _ (fun v => span (2*n) (map symp (map snd l)) (firstn (2*n) v))); auto.
    - rewrite vzero_app, firstn_len_app by apply vzero_length. apply span_zero.
    - intros r v Hr Hv IH. apply in_map_iff in Hr as (g & <- & Hg). rewrite <- (firstn_skipn (2*n) v).
      assert (LS : length (symp (snd g)) = 2*n). { unfold allq in Hq. rewrite Forall_forall in Hq. rewrite symp_length, Hq; auto. }
      assert (LV : length (firstn (2*n) v) = 2*n) by (rewrite firstn_length; lia).
      unfold binsp, bin. rewrite vxor_app by lia. rewrite firstn_len_app by (apply vxor_length'; auto).
      apply span_vxor; auto. apply span_in; auto. apply in_map, in_map; auto. }
  apply K in H. unfold bin in H. rewrite firstn_len_app in H; auto. rewrite symp_length; lia. Qed.

Lemma binsp_vxor g h : length (snd g) = length (snd h) -> vxor (binsp g) (binsp h) = bin (xorb (neg (fst g)) (neg (fst h))) (snd (pmul (snd g) (snd h))).
Proof. intros H. unfold binsp, bin. rewrite vxor_app by (rewrite !symp_length; lia). rewrite symp_vxor by auto. reflexivity. Qed.

Lemma signedsp_len n l : allq n l -> Forall (fun g => length (snd g) = n) (map signedsp l).
Proof. intros H. apply Forall_forall. intros g Hg. apply in_map_iff in Hg as (h & <- & Hh). unfold allq in H. rewrite Forall_forall in H. simpl; auto. Qed.

Lemma equiv_up_to_phase w gs d Lz Lx c p1 p2 : (1 <= w)%Z -> StabilizerCode w (Strs gs) d (optStrs Lz) (optStrs Lx) = Ret c ->
  p1 <> [] -> p2 <> [] -> length (snd (parse p1)) = sc_n c -> length (snd (parse p2)) = sc_n c ->
  stabilizer_equivalent c p1 p2 = Ret true ->
  (exists k, generated (sc_n c) (map signedsp (map parse gs)) (k, snd (parse p2))) \/
  (exists k, generated (sc_n c) (map signedsp (map parse gs)) (k, snd (pmul (snd (parse p1)) (snd (parse p2))))).
Proof. intros Hw H N1 N2 L1 L2 E. destruct (equiv_prop _ _ _ _ _ _ _ _ Hw H N1 N2 L1 L2) as (b & Eb & Hb).
  rewrite E in Eb. injection Eb as <-. destruct (ctor_gens _ _ _ _ _ _ Hw H) as (Nl & Hq & _).
  assert (EM : map (fun g : spauli => symp (snd g)) (map signedsp (map parse gs)) = map symp (map snd (map parse gs))) by (now rewrite !map_map).
  destruct (proj1 Hb eq_refl) as [S|S]; [left|right]; rewrite generated_span by (auto using signedsp_len; rewrite ?pmul_length; lia);
   match goal with |- span _ ?M _ => replace M with (map symp (map snd (map parse gs))) by (symmetry; exact EM) end.
  - now apply span_bin_symp in S.
  - rewrite binsp_vxor in S by lia. apply span_bin_symp in S; auto. rewrite pmul_length; lia. Qed.

Lemma numY_pureX P : pureX P -> numY P = 0.
Proof. unfold numY. induction 1 as [|p P [->| ->] HP IH]; simpl; auto. Qed.
Lemma numY_pureZ P : pureZ P -> numY P = 0.
Proof. unfold numY. induction 1 as [|p P [->| ->] HP IH]; simpl; auto. Qed.
Lemma pureX_mul P Q : pureX P -> pureX Q -> length P = length Q -> pureX (snd (pmul P Q)) /\ fst (pmul P Q) = 0.
Proof. intros HP; revert Q; induction HP as [|p P Hp HP IH]; intros [|q Q] HQ HL; try discriminate; [split; constructor|].
  inversion HQ as [|? ? Hq HQ']; subst. simpl in HL. destruct (IH Q HQ') as [I1 I2]; [lia|]. simpl. destruct (pmul P Q) as [k R]. simpl in *. subst k.
  destruct Hp as [-> | ->], Hq as [-> | ->]; simpl; split; auto; constructor; auto. Qed.
Lemma pureZ_mul P Q : pureZ P -> pureZ Q -> length P = length Q -> pureZ (snd (pmul P Q)) /\ fst (pmul P Q) = 0.
Proof. intros HP; revert Q; induction HP as [|p P Hp HP IH]; intros [|q Q] HQ HL; try discriminate; [split; constructor|].
  inversion HQ as [|? ? Hq HQ']; subst. simpl in HL. destruct (IH Q HQ') as [I1 I2]; [lia|]. simpl. destruct (pmul P Q) as [k R]. simpl in *. subst k.
  destruct Hp as [-> | ->], Hq as [-> | ->]; simpl; split; auto; constructor; auto. Qed.

Lemma smul_signed s t P Q : fst (pmul P Q) = 0 -> smul (signed s P) (signed t Q) = signed (xorb s t) (snd (pmul P Q)).
Proof. intros H. unfold smul, signed; simpl. destruct (pmul P Q) as [k R]; simpl in *. subst. destruct s, t; reflexivity. Qed.

Lemma equiv_css w gs d Lz Lx c p1 p2 : (1 <= w)%Z -> StabilizerCode w (Strs gs) d (optStrs Lz) (optStrs Lx) = Ret c ->
  css_type (map parse gs) -> p1 <> [] -> p2 <> [] -> length (snd (parse p1)) = sc_n c -> length (snd (parse p2)) = sc_n c ->
  (pureX (snd (parse p1)) /\ pureX (snd (parse p2)) \/ pureZ (snd (parse p1)) /\ pureZ (snd (parse p2))) ->
  ~ generated (sc_n c) (map signedsp (map parse gs)) (signedsp (parse p2)) ->
  exists b, stabilizer_equivalent c p1 p2 = Ret b /\
   (b = true <-> generated (sc_n c) (map signedsp (map parse gs)) (smul (signedsp (parse p1)) (signedsp (parse p2)))).
Proof. intros Hw H HT N1 N2 L1 L2 HP HN. destruct (equiv_prop _ _ _ _ _ _ _ _ Hw H N1 N2 L1 L2) as (b & Eb & Hb).
  destruct (ctor_gens _ _ _ _ _ _ Hw H) as (Nl & Hq & _). exists b. split; auto.
  assert (LL : length (snd (parse p1)) = length (snd (parse p2))) by lia.
  assert (HM : fst (pmul (snd (parse p1)) (snd (parse p2))) = 0 /\ numY (snd (pmul (snd (parse p1)) (snd (parse p2)))) = 0 /\ numY (snd (parse p2)) = 0).
  { destruct HP as [[A B]|[A B]].
    - destruct (pureX_mul _ _ A B LL). auto using numY_pureX.
    - destruct (pureZ_mul _ _ A B LL). auto using numY_pureZ. }
  destruct HM as (H0 & Y1 & Y2). unfold signedsp at 2 3. rewrite smul_signed by auto. rewrite Hb.
  rewrite binsp_vxor by auto. unfold binsp at 2.
  rewrite !css_member by (auto; rewrite ?Y1, ?Y2, ?pmul_length; auto; lia).
  unfold signedsp in HN at 2. tauto. Qed.

Lemma eq_prop w gs1 d1 Lz1 Lx1 c1 gs2 d2 Lz2 Lx2 c2 : (1 <= w)%Z ->
  StabilizerCode w (Strs gs1) d1 (optStrs Lz1) (optStrs Lx1) = Ret c1 -> StabilizerCode w (Strs gs2) d2 (optStrs Lz2) (optStrs Lx2) = Ret c2 ->
  sc_n c1 = sc_n c2 ->
  exists b, code_eq c1 c2 = Ret b /\
   (b = true <-> forall v, span (2 * sc_n c1 + 1) (map binsp (map parse gs1)) v <-> span (2 * sc_n c1 + 1) (map binsp (map parse gs2)) v).
Proof. intros Hw H1 H2 E. apply code_eq_spec. { now apply ctor_gens in H1. } rewrite E. now apply ctor_gens in H2. Qed.

Lemma eq_equiv w gs1 d1 Lz1 Lx1 c1 gs2 d2 Lz2 Lx2 c2 gs3 d3 Lz3 Lx3 c3 : (1 <= w)%Z ->
  StabilizerCode w (Strs gs1) d1 (optStrs Lz1) (optStrs Lx1) = Ret c1 -> StabilizerCode w (Strs gs2) d2 (optStrs Lz2) (optStrs Lx2) = Ret c2 ->
  StabilizerCode w (Strs gs3) d3 (optStrs Lz3) (optStrs Lx3) = Ret c3 ->
  sc_n c1 = sc_n c2 -> sc_n c2 = sc_n c3 ->
  code_eq c1 c1 = Ret true /\ code_eq c1 c2 = code_eq c2 c1 /\
  (code_eq c1 c2 = Ret true -> code_eq c2 c3 = Ret true -> code_eq c1 c3 = Ret true).
Proof. intros Hw H1 H2 H3 E1 E2.
  destruct (eq_prop _ _ _ _ _ _ _ _ _ _ _ Hw H1 H1 eq_refl) as (b11 & -> & B11).
  destruct (eq_prop _ _ _ _ _ _ _ _ _ _ _ Hw H1 H2 E1) as (b12 & -> & B12).
  destruct (eq_prop _ _ _ _ _ _ _ _ _ _ _ Hw H2 H1 (eq_sym E1)) as (b21 & -> & B21).
  destruct (eq_prop _ _ _ _ _ _ _ _ _ _ _ Hw H2 H3 E2) as (b23 & -> & B23).
  destruct (eq_prop _ _ _ _ _ _ _ _ _ _ _ Hw H1 H3 (eq_trans E1 E2)) as (b13 & -> & B13).
  rewrite <- E1 in B21, B23.
  split; [f_equal; apply B11; reflexivity|]. split.
  - f_equal. destruct b12, b21; auto; symmetry.
    + apply B21. intros v. symmetry. now apply B12.
    + symmetry. apply B12. intros v. symmetry. now apply B21.
  - intros A B. injection A as ->. injection B as ->. f_equal. apply B13. intros v. rewrite (proj1 B12 eq_refl v). now apply B23. Qed.

Lemma eq_css w gs1 d1 Lz1 Lx1 c1 gs2 d2 Lz2 Lx2 c2 : (1 <= w)%Z ->
  StabilizerCode w (Strs gs1) d1 (optStrs Lz1) (optStrs Lx1) = Ret c1 -> StabilizerCode w (Strs gs2) d2 (optStrs Lz2) (optStrs Lx2) = Ret c2 ->
  sc_n c1 = sc_n c2 -> css_type (map parse gs1) -> css_type (map parse gs2) ->
  exists b, code_eq c1 c2 = Ret b /\
   (b = true <-> forall h, generated (sc_n c1) (map signedsp (map parse gs1)) h <-> generated (sc_n c1) (map signedsp (map parse gs2)) h).
Proof. intros Hw H1 H2 E T1 T2. destruct (eq_prop _ _ _ _ _ _ _ _ _ _ _ Hw H1 H2 E) as (b & Eb & Hb). exists b. split; auto.
  rewrite Hb. apply css_same_group; auto.
  - now destruct (ctor_gens _ _ _ _ _ _ Hw H1) as (_ & Q & _).
  - rewrite E. now destruct (ctor_gens _ _ _ _ _ _ Hw H2) as (_ & Q & _). Qed.

Lemma eq_sizes w gs1 d1 Lz1 Lx1 c1 gs2 d2 Lz2 Lx2 c2 r1 r2 : (1 <= w)%Z ->
  StabilizerCode w (Strs gs1) d1 (optStrs Lz1) (optStrs Lx1) = Ret c1 -> StabilizerCode w (Strs gs2) d2 (optStrs Lz2) (optStrs Lx2) = Ret c2 ->
  sc_n c1 <> sc_n c2 -> has_rank (2 * sc_n c1 + 1) (map binsp (map parse gs1)) r1 -> has_rank (2 * sc_n c2 + 1) (map binsp (map parse gs2)) r2 ->
  code_eq c1 c2 = if Nat.eqb r1 r2 then Raise ValueError else Ret false.
Proof. intros Hw H1 H2 D R1 R2. pose proof (ctor_gens _ _ _ _ _ _ Hw H1) as G1. pose proof (ctor_gens _ _ _ _ _ _ Hw H2) as G2.
  rewrite (code_eq_widths _ _ _ _ _ _ G1 G2 D).
  destruct G1 as (_ & Q1 & _), G2 as (_ & Q2 & _).
  apply rk_unique in R1; [|now apply wf_binsp]. apply rk_unique in R2; [|now apply wf_binsp]. now subst. Qed.

Lemma ctor_accepts w gs d Lz Lx : (1 <= w)%Z ->
  ((exists c, StabilizerCode w (Strs gs) d (optStrs Lz) (optStrs Lx) = Ret c) <->
   exists n l, gs = map printsp l /\ Forall (fun g => printsp g <> []) l /\
     (forall g h, In g gs -> In h gs -> length g = length h) /\ input_ok n l d Lz Lx).
Proof. intros Hw. split.
  - intros [c H]. apply ctor_iff in H as (n & l & A & B & C & D & _); auto. exists n, l; auto.
  - intros (n & l & A & B & C & D). exists (built n l d Lz Lx). apply ctor_iff; auto. exists n, l; auto 6. Qed.

Lemma ctor_fields w gs d Lz Lx c : (1 <= w)%Z -> StabilizerCode w (Strs gs) d (optStrs Lz) (optStrs Lx) = Ret c ->
  (forall g, In g gs -> length (snd (parse g)) = sc_n c /\ is_pauli_string g = true) /\
  (exists r, has_rank (2 * sc_n c + 1) (map binsp (map parse gs)) r /\ sc_k c = (Z.of_nat (sc_n c) - Z.of_nat r)%Z) /\
  (0 < sc_distance c)%Z /\ sc_distance c = match d with Some x => x | None => 1%Z end /\
  sc_gens c = map (fun g => bin (neg (fst (parse g))) (snd (parse g))) gs.
Proof. intros Hw H. pose proof (ctor_gens _ _ _ _ _ _ Hw H) as (Nl & Hq & _ & Hg & _ & Hk).
  apply ctor_iff in H as (n & l & Egs & F & _ & HI & Ec); auto. split; [|split; [|split; [|split]]].
  - intros g Hg0. split.
    + unfold allq in Hq. rewrite Forall_forall in Hq. apply Hq. now apply in_map.
    + apply is_pauli_string_iff. rewrite Egs in Hg0. apply in_map_iff in Hg0 as (x & <- & Hx). rewrite Forall_forall in F. split; auto. exists (fst x), (snd x); reflexivity.
  - exists (rk (2 * sc_n c + 1) (map binsp (map parse gs))). split; auto. apply rk_correct. now apply wf_binsp.
  - subst c. simpl. destruct HI as (_ & _ & Hd & _). destruct d as [x|]; [apply Hd; auto | lia].
  - subst c; reflexivity.
  - rewrite Hg, map_map. reflexivity. Qed.

(** *** witnesses *)
(** explicit finite groups: a list closed under multiplication by the generators bounds the generated group *)
Lemma generated_sub n G L : In (0, repeat PI n) L -> (forall g h, In g G -> In h L -> In (smul g h) L) -> forall h, generated n G h -> In h L.
Proof. intros H0 HS h. induction 1; auto. Qed.

Lemma equiv_refuted : exists c, StabilizerCode 64 (Strs [str "ZZ"]) None None None = Ret c /\
  stabilizer_equivalent c (str "XI") (str "II") = Ret true /\ stabilizer_equivalent c (str "II") (str "XI") = Ret false /\
  (forall k, ~ generated 2 [signed false [PZ;PZ]] (k, [PX;PI])) /\ get_syndrome 64 c (str "XI") = Ret [1%Z].
Proof. eexists. split; [reflexivity|]. split; [reflexivity|]. split; [reflexivity|]. split; [|reflexivity].
  intros k H. apply (generated_sub 2 _ [(0,[PI;PI]); (0,[PZ;PZ])]) in H.
  - simpl in H. destruct H as [H|[H|[]]]; discriminate.
  - now left.
  - intros g h [<-|[]] [<-|[<-|[]]]; simpl; auto. Qed.

Definition grp_xz : list spauli := [(0,[PI;PI]); (0,[PX;PX]); (0,[PZ;PZ]); (2,[PY;PY])].

Lemma gen_xz h : generated 2 [signed false [PX;PX]; signed false [PZ;PZ]] h <-> In h grp_xz.
Proof. split.
  - apply generated_sub; [now left|]. intros g x [<-|[<-|[]]] [<-|[<-|[<-|[<-|[]]]]]; vm_compute; tauto.
  - intros [<-|[<-|[<-|[<-|[]]]]].
    + constructor.
    + apply (gen_mul 2 _ (signed false [PX;PX]) (0,[PI;PI])); [now left | constructor].
    + apply (gen_mul 2 _ (signed false [PZ;PZ]) (0,[PI;PI])); [right; now left | constructor].
    + apply (gen_mul 2 _ (signed false [PX;PX]) (0,[PZ;PZ])); [now left|].
      apply (gen_mul 2 _ (signed false [PZ;PZ]) (0,[PI;PI])); [right; now left | constructor]. Qed.

Lemma gen_xy h : generated 2 [signed false [PX;PX]; signed true [PY;PY]] h <-> In h grp_xz.
Proof. split.
  - apply generated_sub; [now left|]. intros g x [<-|[<-|[]]] [<-|[<-|[<-|[<-|[]]]]]; vm_compute; tauto.
  - intros [<-|[<-|[<-|[<-|[]]]]].
    + constructor.
    + apply (gen_mul 2 _ (signed false [PX;PX]) (0,[PI;PI])); [now left | constructor].
    + apply (gen_mul 2 _ (signed false [PX;PX]) (2,[PY;PY])); [now left|].
      apply (gen_mul 2 _ (signed true [PY;PY]) (0,[PI;PI])); [right; now left | constructor].
    + apply (gen_mul 2 _ (signed true [PY;PY]) (0,[PI;PI])); [right; now left | constructor]. Qed.

Lemma sign_refuted : exists c, StabilizerCode 64 (Strs [str "XX"; str "ZZ"]) None None None = Ret c /\
  stabilizer_equivalent c (str "II") (str "YY") = Ret true /\ stabilizer_equivalent c (str "II") (str "-YY") = Ret false /\
  generated 2 [signed false [PX;PX]; signed false [PZ;PZ]] (signed true [PY;PY]) /\
  ~ generated 2 [signed false [PX;PX]; signed false [PZ;PZ]] (signed false [PY;PY]).
Proof. eexists. split; [reflexivity|]. split; [reflexivity|]. split; [reflexivity|]. split.
  - apply gen_xz. simpl; tauto.
  - rewrite gen_xz. simpl. intros [H|[H|[H|[H|[]]]]]; discriminate. Qed.

Lemma eq_refuted :
  exists c1 c2 c3, StabilizerCode 64 (Strs [str "+XX"; str "+ZZ"]) None None None = Ret c1 /\
    StabilizerCode 64 (Strs [str "+XX"; str "-YY"]) None None None = Ret c2 /\ StabilizerCode 64 (Strs [str "+XX"; str "+YY"]) None None None = Ret c3 /\
    code_eq c1 c2 = Ret false /\ code_eq c1 c3 = Ret true /\
    (forall h, generated 2 [signed false [PX;PX]; signed false [PZ;PZ]] h <-> generated 2 [signed false [PX;PX]; signed true [PY;PY]] h) /\
    ~ (forall h, generated 2 [signed false [PX;PX]; signed false [PZ;PZ]] h <-> generated 2 [signed false [PX;PX]; signed false [PY;PY]] h).
Proof. eexists _, _, _. split; [reflexivity|]. split; [reflexivity|]. split; [reflexivity|]. split; [reflexivity|]. split; [reflexivity|]. split.
  - intros h. rewrite gen_xz, gen_xy. reflexivity.
  - intros H. assert (G : generated 2 [signed false [PX;PX]; signed false [PY;PY]] (0, [PY;PY])).
    { apply (gen_mul 2 _ (signed false [PY;PY]) (0,[PI;PI])); [right; now left | constructor]. }
    apply H, gen_xz in G. simpl in G. destruct G as [G|[G|[G|[G|[]]]]]; discriminate. Qed.
